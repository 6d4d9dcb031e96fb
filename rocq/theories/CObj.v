(** The functions of the translation units of CProg.v, by name. *)
From Coq Require Import String List.
From Verif Require Import CSyntax CParse CSrc CProg.
Import ListNotations.
Local Open Scope string_scope.
Definition prog (u : option (list func)) : list func := match u with Some l => l | None => [] end.
Definition none_ : func := Func TVoid "" [] 0 SSkip.
(** the ten functions of qop.hpp *)
Definition qop_t : list func := Eval vm_compute in firstn 10 (prog (unit_kern true)).
Definition qop_f : list func := Eval vm_compute in firstn 10 (prog (unit_kern false)).
Definition qop (fma : bool) : list func := if fma then qop_t else qop_f.
Definition f_copyv : func := Eval vm_compute in nth 10 (prog (unit_copyv true)) none_.
Definition f_swapv : func := Eval vm_compute in nth 10 (prog (unit_swapv true)) none_.
Definition f_dotuv : func := Eval vm_compute in nth 10 (prog (unit_dotuv true)) none_.
Definition f_dotcv : func := Eval vm_compute in nth 10 (prog (unit_dotcv true)) none_.
Definition f_kern : func := Eval vm_compute in nth 10 (prog (unit_kern true)) none_.
Definition f_scald : func := Eval vm_compute in nth 10 (prog (unit_scalv true "DOUBLE")) none_.
Definition f_scalz : func := Eval vm_compute in nth 10 (prog (unit_scalv true "DCOMPLEX")) none_.
Definition f_scalh : func := Eval vm_compute in nth 10 (prog (unit_scalv true "DQUATERNION")) none_.
Definition f_axpyd_t : func := Eval vm_compute in nth 10 (prog (unit_axpyv true "DOUBLE")) none_.
Definition f_axpyd_f : func := Eval vm_compute in nth 10 (prog (unit_axpyv false "DOUBLE")) none_.
Definition f_axpyd (fma : bool) := if fma then f_axpyd_t else f_axpyd_f.
Definition f_axpyz : func := Eval vm_compute in nth 10 (prog (unit_axpyv true "DCOMPLEX")) none_.
Definition f_axpyh : func := Eval vm_compute in nth 10 (prog (unit_axpyv true "DQUATERNION")) none_.
Local Ltac chk fma := destruct fma; vm_compute; reflexivity.
Lemma unit_copyv_eq fma : unit_copyv fma = Some (app (qop fma) [f_copyv]). Proof. chk fma. Qed.
Lemma unit_swapv_eq fma : unit_swapv fma = Some (app (qop fma) [f_swapv]). Proof. chk fma. Qed.
Lemma unit_dotuv_eq fma : unit_dotuv fma = Some (app (qop fma) [f_dotuv]). Proof. chk fma. Qed.
Lemma unit_dotcv_eq fma : unit_dotcv fma = Some (app (qop fma) [f_dotcv]). Proof. chk fma. Qed.
Lemma unit_kern_eq fma : unit_kern fma = Some (app (qop fma) [f_kern]). Proof. chk fma. Qed.
Lemma unit_scald_eq fma : unit_scalv fma "DOUBLE" = Some (app (qop fma) [f_scald]). Proof. chk fma. Qed.
Lemma unit_scalz_eq fma : unit_scalv fma "DCOMPLEX" = Some (app (qop fma) [f_scalz]). Proof. chk fma. Qed.
Lemma unit_scalh_eq fma : unit_scalv fma "DQUATERNION" = Some (app (qop fma) [f_scalh]). Proof. chk fma. Qed.
Lemma unit_axpyd_eq fma : unit_axpyv fma "DOUBLE" = Some (app (qop fma) [f_axpyd fma]). Proof. chk fma. Qed.
Lemma unit_axpyz_eq fma : unit_axpyv fma "DCOMPLEX" = Some (app (qop fma) [f_axpyz]). Proof. chk fma. Qed.
Lemma unit_axpyh_eq fma : unit_axpyv fma "DQUATERNION" = Some (app (qop fma) [f_axpyh]). Proof. chk fma. Qed.
