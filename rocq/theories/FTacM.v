(** The proof script shared by the nine GEMM sources. *)
From Coq Require Import ZArith Lia Bool Ascii String List.
From Verif Require Import Num Res ResFacts MForL1 MForL2 MForL3 FSyntax FParse FSem FProg FSimFacts FTac.
Import ListNotations.
Local Open Scope string_scope.
Local Open Scope Z_scope.
Notation getp n s := (match program n s with Some p => p | None => MkProg [] [] [] None [] end).
Lemma fdo_UB {S} m (f : Z -> S -> res S) s : 1 <= m -> f 1 s = UB -> fdo 1 m f s = UB.
Proof.
  intros Hm E. unfold fdo, zfor. replace (Z.to_nat (m + 1 - 1)) with (Datatypes.S (Z.to_nat (m - 1))) by lia. cbn [floop]. rewrite E. reflexivity.
Qed.
Ltac noPins K := constr:(fun _ : arr (quat K) => @nil (nat * val K)).
Ltac idq K := constr:(fun x : arr (quat K) => x).
(** DO over elements of C with nothing after it, inside a loop body *)
Ltac gloop K ws w := unfold norm; let p := noPins K in let q := idq K in floope ws p w q.
Ltac gemm_pre K be wi w :=
  unfold hgemm_pre; fif; destruct (fzero be); fbr;
  [ gloop K wi w; [unfold fpos; fbody|fkeeps]
  | fif; destruct (fone be); cbn [negb]; fbr; [fkeep|gloop K wi w; [unfold fpos; fbody|fkeeps]] ].
Ltac gemm_nota P K be w Hm :=
  let ws := eval vm_compute in (sl P ["J"; "I"; "L"; "HTMPS"; "HTMPJ"; "HTMP1S"; "HTMP1J"; "HTMP2S"; "HTMP2J"; "HTMP3S"; "HTMP3J"; "HTMP4S"; "HTMP4J"]) in
  let wl := eval vm_compute in (sl P ["I"; "L"; "HTMPS"; "HTMPJ"; "HTMP1S"; "HTMP1J"; "HTMP2S"; "HTMP2J"; "HTMP3S"; "HTMP3J"; "HTMP4S"; "HTMP4J"]) in
  let wp := eval vm_compute in (sl P ["I"; "HTMPS"; "HTMP1S"]) in let wi := eval vm_compute in (sl P ["I"]) in
  let np := noPins K in let iq := idq K in
  unfold hgemm_nota; floope ws np w iq;
  [ intros j cj sj Hj Ij; fexpl sj Ij; unfold norm; fseq wp np w iq;
    [ gemm_pre K be wp w
    | intros cl sl Il; fexpl sl Il; gloop K wl w;
      [ intros l ci si Hl Ii; fexpl si Ii; unfold fpos;
        repeat (fasg; try (solve [rewrite fdo_UB; [exact I|exact Hm|fmod; reflexivity]]));
        gloop K wi w; [fbody|fkeeps]
      | fkeeps ] ]
  | fdone ].
Ltac gemm_transa P K be w :=
  let ws := eval vm_compute in (sl P ["J"; "I"; "L"; "HTMPS"; "HTMPJ"; "HTMPI"; "HTMPK"; "HTMP1S"; "HTMP1J"; "HTMP2S"; "HTMP2J"]) in
  let wj := eval vm_compute in (sl P ["I"; "L"; "HTMPS"; "HTMPJ"; "HTMPI"; "HTMPK"; "HTMP1S"; "HTMP1J"; "HTMP2S"; "HTMP2J"]) in
  let wl := eval vm_compute in (sl P ["L"]) in
  let ks := eval vm_compute in (hd 0%nat (sl P ["HTMPS"; "HTMP1S"])) in let kj := eval vm_compute in (hd 0%nat (sl P ["HTMPJ"; "HTMP1J"])) in
  let np := noPins K in let iq := idq K in
  unfold hgemm_transa; floope ws np w iq;
  [ intros j cj sj Hj Ij; fexpl sj Ij; gloop K wj w;
    [ intros i ci si Hi Ii; fexpl si Ii; repeat fasg; unfold norm;
      floop wl (fun h : quat K => [(ks, VZ (h1 h)); (kj, VZ (h2 h))]) w (fun _ : quat K => ci);
      [ unfold fpos; fbody
      | intros h sh Ih; fexpl sh Ih; unfold fpos; fif; destruct (fzero be); fbr;
        repeat (fasg; try (solve [fmod])); (fmod; fkeep) ]
    | fkeeps ]
  | fdone ].
Ltac gemm P al be e00 Hm :=
  let w := eval vm_compute in (ar P "C") in
  lazymatch goal with |- context [hgemm (K := ?K) ?ta ?tb ?m ?n ?k _ ?a ?lda ?b ?ldb _ ?c ?ldc] =>
  let wz := eval vm_compute in (sl P ["J"; "I"; "HTMPS"; "HTMP1S"]) in let wzi := eval vm_compute in (sl P ["I"; "HTMPS"; "HTMP1S"]) in
  let np := noPins K in let iq := idq K in
  fstart P w iq;
  repeat match goal with |- context [cells ?x] => generalize (cells x) (rep_cells x); intros ? ? end; unfold hgemm;
  do 8 fasg; fflag e00;
  (fif; destruct ((m =? 0) || (n =? 0)) eqn:Emn; fbr; [fret|]);
  assert (Hm1 : 1 <= m) by (destruct (m =? 0) eqn:Em0; [discriminate Emn|apply Z.eqb_neq in Em0; lia]);
  (fif; destruct ((fzero al || (k =? 0)) && fone be); fbr; [fret|]);
  fif; destruct (fzero al); fbr;
  [ fif; destruct (fzero be); fbr; floope wz np w iq;
    [ intros j cj sj Hj Ij; fexpl sj Ij; gloop K wzi w; [unfold fpos; fbody|fkeeps] | fdone
    | intros j cj sj Hj Ij; fexpl sj Ij; gloop K wzi w; [unfold fpos; fbody|fkeeps] | fdone ]
  | fif; destruct (lsame tb "N"); fbr;
    [ fif; destruct (lsame ta "N"); fbr; [gemm_nota P K be w Hm1|fif; destruct (lsame ta "C"); fbr; gemm_transa P K be w]
    | fif; destruct (lsame ta "N"); fbr;
      [ fif; destruct (lsame tb "C"); fbr; gemm_nota P K be w Hm1
      | fif; destruct (lsame ta "C"); fbr; (fif; destruct (lsame tb "C"); fbr; gemm_transa P K be w) ] ] ]
  end.
