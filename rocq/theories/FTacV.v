(** The proof script shared by the nine GEMV sources. *)
From Coq Require Import ZArith Lia Bool Ascii String List.
From Verif Require Import Num Res ResFacts MForL1 MForL2 FSyntax FParse FSem FProg FSimFacts FTac.
Import ListNotations.
Local Open Scope string_scope.
Local Open Scope Z_scope.
Notation getp n s := (match program n s with Some p => p | None => MkProg [] [] [] None [] end).
Ltac beta1 ws w := unfold norm; lazymatch goal with |- simr (fun t sb => snd sb = false /\ inv (K := ?K) _ _ _ _ _ _ _) _ _ =>
   floope ws (fun _ : arr (quat K) => @nil (nat * val K)) w (fun x : arr (quat K) => x); [fbody|fkeeps] end.
Ltac beta2 ws k w := unfold norm; lazymatch goal with |- simr (fun t sb => snd sb = false /\ inv (K := ?K) _ _ _ _ _ _ _) _ _ =>
   floop ws (fun t : arr (quat K) * Z => [(k, VI (snd t) : val K)]) w (@fst (arr (quat K)) Z); [intros i [? ?]; rewrite ?Z.add_0_r; fbody|intros [? ?]; fkeeps] end.
Ltac gemv_beta P be incy w :=
  let ws := eval vm_compute in (sl P ["I"; "HTMPS"; "HTMP1S"]) in let k := eval vm_compute in (sl1 P "IY") in
  unfold hgemv_beta; fif; destruct (fone be); cbn [negb]; fbr; [fkeep|];
  fif; destruct (incy =? 1); fbr;
  [ fif; destruct (fzero be); fbr; beta1 ws w
  | fasg; fif; destruct (fzero be); fbr; beta2 ws k w ].
Ltac gemv_n P K w incy :=
  let ws := eval vm_compute in (sl P ["J"; "I"; "IY"; "HTMPS"; "HTMPJ"; "HTMP1S"; "HTMP1J"; "HTMP2S"; "HTMP2J"; "HTMP3S"; "HTMP3J"; "HTMP4S"; "HTMP4J"]) in
  let wi := eval vm_compute in (sl P ["I"]) in let k := eval vm_compute in (sl1 P "JX") in let ky := eval vm_compute in (sl1 P "IY") in
  unfold hgemv_n; fasg; fif; destruct (incy =? 1); fbr;
  floop ws (fun t : arr (quat K) * Z => [(k, VI (snd t) : val K)]) w (@fst (arr (quat K)) Z);
  [ intros j [y' jx] s' Hj I1; fexpl s' I1; cbn [fst snd] in *; repeat (fasg; try (solve [fmod])); unfold ld at 1;
    match goal with E : _ = Some ?q |- _ => rewrite E; cbn [bind] end; rewrite ?bind_assoc; unfold norm;
    floop wi (fun _ : arr (quat K) => @nil (nat * val K)) w (fun x : arr (quat K) => x);
    [unfold hn_step; fbody|intros ? s2 I2; fexpl s2 I2; fasg; fkeep]
  | intros [? ?]; fdone
  | intros j [y' jx] s' Hj I1; fexpl s' I1; cbn [fst snd] in *; repeat (fasg; try (solve [fmod])); unfold ld at 1;
    match goal with E : _ = Some ?q |- _ => rewrite E; cbn [bind] end; rewrite ?bind_assoc; unfold norm;
    floop wi (fun t : arr (quat K) * Z => [(ky, VI (snd t) : val K)]) w (@fst (arr (quat K)) Z);
    [intros i [? ?]; unfold hn_step; fbody|intros [? ?] s2 I2; fexpl s2 I2; cbn [fst snd] in *; fasg; fkeep]
  | intros [? ?]; fdone ].
Ltac gemv_t P K w incx noconj :=
  let ws := eval vm_compute in (sl P ["J"; "I"; "IX"; "HTMPS"; "HTMPJ"; "HTMP1S"; "HTMP1J"]) in
  let wi := eval vm_compute in (sl P ["I"]) in let k := eval vm_compute in (sl1 P "JY") in let kx := eval vm_compute in (sl1 P "IX") in
  let ks := eval vm_compute in (hd 0%nat (sl P ["HTMPS"; "HTMP1S"])) in let kj := eval vm_compute in (hd 0%nat (sl P ["HTMPJ"; "HTMP1J"])) in
  unfold hgemv_t; fasg; fif; destruct (incx =? 1); fbr;
  floop ws (fun t : arr (quat K) * Z => [(k, VI (snd t) : val K)]) w (@fst (arr (quat K)) Z);
  [ intros j [y' jy] s' Hj I1; fexpl s' I1; cbn [fst snd] in *; repeat fasg; fif; destruct noconj; cbn [app]; rewrite ?bind_assoc; unfold norm;
    floop wi (fun h : quat K => [(ks, VZ (h1 h)); (kj, VZ (h2 h))]) w (fun _ : quat K => y');
    [ unfold hdot_step; fbody
    | intros h s2 I2; fexpl s2 I2; repeat (fasg; try (solve [fmod])); fmod; fkeep
    | unfold hdot_step; fbody
    | intros h s2 I2; fexpl s2 I2; repeat (fasg; try (solve [fmod])); fmod; fkeep ]
  | intros [? ?]; fdone
  | intros j [y' jy] s' Hj I1; fexpl s' I1; cbn [fst snd] in *; repeat fasg; fif; destruct noconj; cbn [app]; rewrite ?bind_assoc; unfold norm;
    floop wi (fun t : quat K * Z => [(ks, VZ (h1 (fst t))); (kj, VZ (h2 (fst t))); (kx, VI (snd t))]) w (fun _ : quat K * Z => y');
    [ intros i [? ?]; unfold hdot_step; fbody
    | intros [h ix] s2 I2; fexpl s2 I2; cbn [fst snd bind] in *; repeat (fasg; try (solve [fmod])); fmod; fkeep
    | intros i [? ?]; unfold hdot_step; fbody
    | intros [h ix] s2 I2; fexpl s2 I2; cbn [fst snd bind] in *; repeat (fasg; try (solve [fmod])); fmod; fkeep ]
  | intros [? ?]; fdone ].
Ltac gemv P al be e00 :=
  let w := eval vm_compute in (ar P "Y") in
  lazymatch goal with |- context [hgemv (K := ?K) ?trans ?m ?n _ ?a ?lda ?x ?incx _ ?y ?incy] =>
  fstart P w (fun x : arr (quat K) => x);
  repeat match goal with |- context [cells ?x] => generalize (cells x) (rep_cells x); intros ? ? end; unfold hgemv, hgemv_lens;
  let retq := (fif; fflag e00; match goal with |- context [if ?b then [RRet] else _] => change b with ((m =? 0) || (n =? 0) || (fzero al && fone be)) end;
    destruct ((m =? 0) || (n =? 0) || (fzero al && fone be)); fbr; [fret|]) in
  try retq; fasg; fif2; fasg; fasg; fasg; fasg; fflag e00; try retq;
  fif1; fif1;
  lazymatch goal with |- context [VI (if incx >? 0 then 1 else 1 - (?lx - 1) * incx)] => change (if incx >? 0 then 1 else 1 - (lx - 1) * incx) with (MForL2.fstart lx incx) end;
  lazymatch goal with |- context [VI (if incy >? 0 then 1 else 1 - (?lx - 1) * incy)] => change (if incy >? 0 then 1 else 1 - (lx - 1) * incy) with (MForL2.fstart lx incy) end;
  lazymatch goal with |- context [if lsame ?c trans then (n, m) else (m, n)] =>
    replace (if lsame c trans then (n, m) else (m, n)) with (if lsame c trans then n else m, if lsame c trans then m else n) by (destruct (lsame c trans); reflexivity) end;
  cbv beta iota zeta;
  let ws := eval vm_compute in (sl P ["I"; "IY"; "HTMPS"; "HTMP1S"]) in
  fseq ws (fun _ : arr (quat K) => @nil (nat * val K)) w (fun x : arr (quat K) => x);
  [ gemv_beta P be incy w
  | intros yb sb Ib; fexpl sb Ib; (fif; destruct (fzero al); fbr; [fret|]);
    fif; destruct (lsame trans "N"); fbr; [gemv_n P K w incy|gemv_t P K w incx (lsame "T" trans)] ]
  end.
