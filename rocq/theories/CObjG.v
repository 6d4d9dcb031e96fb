(** The functions of gemm.cxx, by name. *)
From Coq Require Import String List.
From Verif Require Import CSyntax CParse CSrc CProg CLink CObj.
Import ListNotations.
Local Open Scope string_scope.
(** gemm.cxx: the four instances have the same body *)
Definition f_gemmdd : func := Eval vm_compute in nth 10 (prog (unit_gemm true "DOUBLE" "DOUBLE")) none_.
Definition f_gemmdz : func := Eval vm_compute in nth 10 (prog (unit_gemm true "DOUBLE" "DCOMPLEX")) none_.
Definition f_gemmzd : func := Eval vm_compute in nth 10 (prog (unit_gemm true "DCOMPLEX" "DOUBLE")) none_.
Definition f_gemmzz : func := Eval vm_compute in nth 10 (prog (unit_gemm true "DCOMPLEX" "DCOMPLEX")) none_.
Lemma unit_gemmdd_eq fma : unit_gemm fma "DOUBLE" "DOUBLE" = Some (app (qop fma) [f_gemmdd]). Proof. destruct fma; vm_compute; reflexivity. Qed.
Lemma unit_gemmdz_eq fma : unit_gemm fma "DOUBLE" "DCOMPLEX" = Some (app (qop fma) [f_gemmdz]). Proof. destruct fma; vm_compute; reflexivity. Qed.
Lemma unit_gemmzd_eq fma : unit_gemm fma "DCOMPLEX" "DOUBLE" = Some (app (qop fma) [f_gemmzd]). Proof. destruct fma; vm_compute; reflexivity. Qed.
Lemma unit_gemmzz_eq fma : unit_gemm fma "DCOMPLEX" "DCOMPLEX" = Some (app (qop fma) [f_gemmzz]). Proof. destruct fma; vm_compute; reflexivity. Qed.
(** its nested loops: j, k, i, jj, ii *)
Fixpoint first_while (s : stmt) : option (expr * stmt) :=
  match s with
  | SSeq a b => match first_while a with Some x => Some x | None => first_while b end
  | SWhile c b => Some (c, b)
  | _ => None
  end.
Definition inner (s : stmt) : expr * stmt := match first_while s with Some x => x | None => (EInt BinNums.Z0, SSkip) end.
Definition g_body : stmt := Eval vm_compute in f_body f_gemmdd.
Definition g_j : expr * stmt := Eval vm_compute in inner g_body.
Definition g_k : expr * stmt := Eval vm_compute in inner (snd g_j).
Definition g_i : expr * stmt := Eval vm_compute in inner (snd g_k).
Definition g_jj : expr * stmt := Eval vm_compute in inner (snd g_i).
Definition g_ii : expr * stmt := Eval vm_compute in inner (snd g_jj).
