(** The example notebook with Python's own number formatting. *)
From Coq Require Import Reals List Arith Lia Lra Bool String Ascii ZArith.
From Coquelicot Require Import Rcomplements Complex.
From Verif Require Import Base CMat CMatFacts Det DetFacts Norms ModelUnitary ModelPrimitive ModelEntry ModelSequence ModelCompiler ModelGates ModelText
  ModelDecimal ModelExample Spec SpecModel SpecCompiler SpecText SpecGates SpecExample SpecDecimal PUnitary PGms PExample PNotebook PDecimal PDecimalOp.
Import ListNotations.
Open Scope R_scope.
Set Bullet Behavior "Strict Subproofs".

(** A right report whose gates come from the library. *)
Lemma truthful_text eps n T max bound w r : small_drift eps 2 1 -> unitary_mx (2 ^ n) T ->
  truthful py_fmt n T max bound w r ->
  (forall g, In g (contents w (rp_seq r)) -> library_gate eps (fst g) /\ placement n (snd g) /\ (2 ^ List.length (snd g))%nat = u_dim (fst g)) ->
  let gap := (bound + print_bound (rp_length r) + store_bound eps n (rp_length r))%R in
  text_tells n T max gap r.
Proof.
  intros S2 HT (HD & HL & _ & HC & HE & HR) HG gap. set (gs := contents w (rp_seq r)) in *.
  destruct (operation_lemma eps n gs S2 HG) as (Q & EQ & UQ & FQ).
  assert (G := overlap_gap (2 ^ n) T (ordered n gs) Q (PBits.pow2_pos n) HT).
  exists Q. split; [unfold text_operation; rewrite HR; exact EQ|]. split; [exact UQ|].
  assert (Hp : (1 <= sqrt (INR (2 ^ n)))%R).
  { rewrite <- sqrt_1. apply sqrt_le_1_alt. apply (le_INR 1), PBits.pow2_pos. }
  assert (D0 : (0 <= drift_bound eps n 1)%R).
  { unfold drift_bound. destruct S2 as ((e0 & _) & _). assert (P1 := pos_INR (2 ^ n)).
    repeat apply Rmult_le_pos; try lra; [apply pos_INR]. }
  assert (S0 : (0 <= store_bound eps n (List.length gs))%R).
  { unfold store_bound. assert (1 <= (1 + drift_bound eps n 1) ^ List.length gs)%R by (apply pow_R1_Rle; lra). lra. }
  assert (X : (Rabs (overlap (2 ^ n) T (ordered n gs) - overlap (2 ^ n) T Q) <= print_bound (List.length gs) + store_bound eps n (List.length gs))%R).
  { apply Rmult_le_reg_l with (sqrt (INR (2 ^ n))); [lra|]. eapply Rle_trans; [exact G|]. eapply Rle_trans; [exact FQ|]. nra. }
  unfold infidelity in HC, HE. unfold gap. rewrite HL. split.
  - apply Rabs_le. apply Rabs_le_between in HC. apply Rabs_le_between in X. lra.
  - intros H. specialize (HE H). apply Rabs_le_between in X. lra.
Qed.

Lemma allows_placed eps n p g : allows eps (2 ^ n) p g -> placement n (snd g) /\ (2 ^ List.length (snd g))%nat = u_dim (fst g).
Proof.
  intros (_ & _ & ND & NE & D & Q). split; [|exact D]. split; [exact ND|]. split; [exact NE|].
  intros q Hq. specialize (Q q Hq). apply Nat.pow_le_mono_r_iff in Q; lia.
Qed.

Lemma C95_report_lemma : forall g eps n K max st c T nm ps iv ap target,
  rng_ok g -> drift_world eps K (r_world st) -> good_compiler eps n c ->
  c_array c = false \/ List.length (c_prims c) = 1%nat ->
  (forall p u, In p (c_prims c) -> instance eps p u -> library_gate eps u) ->
  unitary_mx (2 ^ n) T -> mk_unitary eps (2 ^ n) (Some (square (2 ^ n) T)) nm ps iv ap = Ok target ->
  (0 < max)%Z -> small_drift eps n (S (K + Z.to_nat max)) -> small_drift eps 2 1 ->
  forall st' r, compile_and_report py_fmt g eps target max (st, c) = (st', Ok r) ->
  let gap := (6 * drift_bound eps n (S (K + Z.to_nat max)) + print_bound (rp_length r) + store_bound eps n (rp_length r))%R in
  text_tells n T max gap r.
Proof.
  intros g eps n K max st c T nm ps iv ap target G HX HC HA HI HT Et Hm SD S2 st' r E.
  assert (Hpl : forall p u, In p (c_prims c) -> instance eps p u -> plain_gate u).
  { intros p u Hp Hi. destruct (library_lemma eps u S2 (HI p u Hp Hi)) as (? & ? & ? & _ & _ & _ & _ & _ & _ & P). exact P. }
  destruct (C94_report_lemma py_fmt g eps n K max st c T nm ps iv ap target G py_fmt_numeral HX HC HA Hpl HT Et Hm SD)
    as (st1 & b & _ & [(r' & E1 & T1 & A1 & _)|(E1 & _)]); rewrite E in E1; [|discriminate E1].
  injection E1 as -> <-. apply (truthful_text eps n T max _ (r_world st1) r S2 HT T1).
  intros gt Hg. destruct (A1 gt Hg) as (p & (i & Hi & _) & Ha). split; [|exact (allows_placed eps n p gt Ha)].
  apply (HI p); [|apply Ha]. apply nth_error_In in Hi. now apply filter_In in Hi.
Qed.

Lemma example_library eps c p u : example_compiler eps = Ok c -> In p (c_prims c) -> instance eps p u -> library_gate eps u.
Proof.
  unfold example_compiler, example_primitives. destruct (pd_rotation_xy eps) as [p1|] eqn:E1; cbn [bind]; [|discriminate].
  destruct (pd_xx eps) as [p2|] eqn:E2; cbn [bind]; [|discriminate]. cbn [mk_primitive bind]. unfold mk_compiler.
  destruct (forallb _ _); cbn [assert bind]; [|discriminate].
  intros E. assert (Ec : c_prims c = [{| p_source := Family p1; p_allowed := None |}; {| p_source := Family p2; p_allowed := None |}]).
  { repeat match type of E with (if ?b then _ else _) = _ => destruct b; cbn [bind assert] in E; try discriminate E end. now injection E as <-. }
  rewrite Ec. intros [<-|[<-|[]]] (vs & Hr & Hu); cbn [p_source] in *; [exists p1|exists p2]; exists vs; auto.
Qed.

Lemma C95_notebook_lemma : forall g eps max rvs T k, rng_ok g -> unitary_mx 4 T -> rvs 4%nat = Ok (square 4 T) ->
  (0 < max)%Z -> small_drift eps 2 (S (Z.to_nat max + Z.to_nat max)) ->
  let gap r := (6 * drift_bound eps 2 (S (Z.to_nat max + Z.to_nat max)) + print_bound (rp_length r) + store_bound eps 2 (rp_length r))%R in
  exists c, example_compiler eps = Ok c /\
  exists st1 c1 r1, example_xx py_fmt g eps max ({| r_world := w_empty; r_draws := k |}, c) = ((st1, c1), Ok r1) /\
    text_tells 2 (xx_coupling (PI / 4)) max (gap r1) r1 /\
    forall st2 r2, example_random py_fmt g eps rvs max (st1, c1) = (st2, Ok r2) -> text_tells 2 T max (gap r2) r2.
Proof.
  intros g eps max rvs T k G HT Hr Hm SD gap.
  assert (S2 : small_drift eps 2 1) by (apply (small_drift_steps eps 2 1 (S (Z.to_nat max + Z.to_nat max))); [lia|exact SD]).
  destruct (notebook_core py_fmt g eps max rvs T k G py_fmt_numeral HT Hr Hm SD) as (c & Ec & st1 & c1 & r1 & E1 & T1 & L1 & A1 & st2 & c2 & H2).
  assert (HG : forall w s, (forall l, In l (contents w s) -> exists p, In p (c_prims c) /\ allows eps (2 ^ 2) p l) ->
    forall l, In l (contents w s) -> library_gate eps (fst l) /\ placement 2 (snd l) /\ (2 ^ List.length (snd l))%nat = u_dim (fst l)).
  { intros w s A l Hl. destruct (A l Hl) as (p & Hp & Ha). split; [|exact (allows_placed eps 2 p l Ha)].
    apply (example_library eps c p); [exact Ec|exact Hp|apply Ha]. }
  exists c. split; [exact Ec|]. exists st1, c1, r1. split; [exact E1|]. split.
  - apply (truthful_text eps 2 _ max _ (r_world st1) r1 S2); [apply xx_special|exact T1|]. now apply HG.
  - intros st2' r2' E. destruct H2 as [(r2 & E2 & T2 & _ & _ & A2)|(E2 & _)]; rewrite E in E2; [|discriminate E2].
    injection E2 as _ <-. apply (truthful_text eps 2 _ max _ (r_world st2) r2' S2 HT T2). now apply HG.
Qed.
