(** The functions of the translation units of CProgG.v. *)
From Coq Require Import String List.
From Verif Require Import CSyntax CParse CProgG.
Import ListNotations.
Local Open Scope string_scope.
Definition only (u : option (list func)) : func := match u with Some [f] => f | _ => Func TVoid "" [] 0 SSkip end.
Definition g_swapv : func := Eval vm_compute in only unit_swapv_g.
Definition g_copyv : func := Eval vm_compute in only unit_copyv_g.
Definition g_scalv : ctype -> func := Eval vm_compute in fun ta => only (unit_scalv_g ta).
Definition g_axpyv : ctype -> func := Eval vm_compute in fun ta => only (unit_axpyv_g ta).
Definition g_dotuv : func := Eval vm_compute in only unit_dotuv_g.
Definition g_dotcv : func := Eval vm_compute in only unit_dotcv_g.
Definition g_scalm : ctype -> func := Eval vm_compute in fun ta => only (unit_scalm_g ta).
Definition g_axpym : ctype -> func := Eval vm_compute in fun ta => only (unit_axpym_g ta).
Definition g_gemv : ctype -> ctype -> ctype -> func := Eval vm_compute in fun tm ta tb => only (unit_gemv_g tm ta tb).
Definition g_geru : ctype -> func := Eval vm_compute in fun ta => only (unit_geru_g ta).
Definition g_gerc : ctype -> func := Eval vm_compute in fun ta => only (unit_gerc_g ta).
Definition g_gemm : ctype -> ctype -> ctype -> func := Eval vm_compute in fun tm ta tb => only (unit_gemm_g tm ta tb).
Lemma unit_swapv_g_eq : unit_swapv_g = Some [g_swapv]. Proof. vm_compute. reflexivity. Qed.
Lemma unit_copyv_g_eq : unit_copyv_g = Some [g_copyv]. Proof. vm_compute. reflexivity. Qed.
Lemma unit_scalv_g_eq ta : unit_scalv_g ta = Some [g_scalv ta]. Proof. vm_compute. reflexivity. Qed.
Lemma unit_axpyv_g_eq ta : unit_axpyv_g ta = Some [g_axpyv ta]. Proof. vm_compute. reflexivity. Qed.
Lemma unit_dotuv_g_eq : unit_dotuv_g = Some [g_dotuv]. Proof. vm_compute. reflexivity. Qed.
Lemma unit_dotcv_g_eq : unit_dotcv_g = Some [g_dotcv]. Proof. vm_compute. reflexivity. Qed.
Lemma unit_scalm_g_eq ta : unit_scalm_g ta = Some [g_scalm ta]. Proof. vm_compute. reflexivity. Qed.
Lemma unit_axpym_g_eq ta : unit_axpym_g ta = Some [g_axpym ta]. Proof. vm_compute. reflexivity. Qed.
Lemma unit_gemv_g_eq tm ta tb : unit_gemv_g tm ta tb = Some [g_gemv tm ta tb]. Proof. vm_compute. reflexivity. Qed.
Lemma unit_geru_g_eq ta : unit_geru_g ta = Some [g_geru ta]. Proof. vm_compute. reflexivity. Qed.
Lemma unit_gerc_g_eq ta : unit_gerc_g ta = Some [g_gerc ta]. Proof. vm_compute. reflexivity. Qed.
Lemma unit_gemm_g_eq tm ta tb : unit_gemm_g tm ta tb = Some [g_gemm tm ta tb]. Proof. vm_compute. reflexivity. Qed.
