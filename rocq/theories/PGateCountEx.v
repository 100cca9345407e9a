(** Cases for C107: the square of a rotation takes two steps. *)
From Coq Require Import Reals List Arith Lia Lra Bool String ZArith Permutation.
From Coquelicot Require Import Coquelicot.
From Verif Require Import Base CMat CMatFacts Det DetFacts Norms ModelUnitary ModelEntry ModelPrimitive
  ModelSequence ModelCompiler ModelRound ModelRoundComp Spec SpecModel SpecCompiler SpecRound SpecRoundComp SpecAgree SpecChain SpecGates
  PUnitary PUnitaryProps PDrift PEmbed PEntry PSeqHeap PSeqMeth PSeqNear PSeqWorld
  PSeqUndo PSeqInv PSeqHist PSeqProps PSeqCases PCompView PCompRun PCompEntry PCompLoop PCompTrace PCompTotal PCompProps PCompMore
  PCompCases PCompEx PReach PAgree PAgree2 PAgreeEx PAlmostEx PGateCount.
Import ListNotations.
Open Scope R_scope.
Set Bullet Behavior "Strict Subproofs".

Lemma small_round_0 n K : small_round 0 0 n K.
Proof. unfold small_round, round_bound. rewrite !Rmult_0_r, ?Rplus_0_l, ?Rmult_0_r. repeat split; lra. Qed.

Lemma rot2_unitary : exists t, built 0 t /\ u_dim t = 2%nat /\ meq 2 (u_mat t) rot2.
Proof.
  assert (SP : special 2 rot2) by (rewrite <- rot2_sqr; apply special_mmul; apply rot345_special).
  destruct (mk_special 0 2 rot2 (Some "T"%string) [] false [] ltac:(lia) SP (rot2_clean 0 ltac:(lra))) as (t & Et & Dt & _ & _ & _ & _ & Mt).
  exists t. split; [|now split]. exists 2%nat, rot2, (Some "T"%string), [], false, []. split; [apply SP|]. split; [apply rot2_clean; lra|exact Et].
Qed.
Lemma one_allowed u ap rate gt : u_dim u = 2%nat ->
  (exists p, weighted (c_prims (one_compiler u ap rate)) (c_probs (one_compiler u ap rate)) p /\
    allows 0 (c_dim (one_compiler u ap rate)) p gt) -> gt = (u, [0%nat]).
Proof.
  intros D (p & (i & Hi & _) & I & _ & ND & NE & L & Q). cbn in Hi. destruct i as [|[|i]]; try discriminate. injection Hi as <-.
  cbn in I. destruct gt as [v qs]. cbn [fst snd] in *. subst v. f_equal. rewrite D in L.
  destruct qs as [|q [|q' r]]; [congruence| |].
  - f_equal. specialize (Q q (or_introl eq_refl)). cbn [c_dim one_compiler] in Q. destruct q as [|q]; [reflexivity|].
    assert (2 ^ 2 <= 2 ^ (S q + 1))%nat by (apply Nat.pow_le_mono_r; lia). change (2 ^ 2)%nat with 4%nat in H. lia.
  - exfalso. assert (2 ^ 2 <= 2 ^ List.length (q :: q' :: r))%nat by (apply Nat.pow_le_mono_r; cbn; lia). change (2 ^ 2)%nat with 4%nat in H. lia.
Qed.
Lemma few_far u t ap rate gs : u_dim u = 2%nat -> meq 2 (u_mat u) rot345 -> meq 2 (u_mat t) rot2 -> (List.length gs < 2)%nat ->
  List.Forall (fun gt => exists p, weighted (c_prims (one_compiler u ap rate)) (c_probs (one_compiler u ap rate)) p /\
    allows 0 (c_dim (one_compiler u ap rate)) p gt) gs -> 2 / 5 <= cost_of 1 t gs.
Proof.
  intros D Mu Mt L F. unfold cost_of. change (2 ^ 1)%nat with 2%nat. destruct gs as [|g1 [|g2 r]]; [| |cbn in L; lia].
  - change (ordered 1 []) with mid. rewrite (overlap_proper 2 _ _ Mt mid mid ltac:(reflexivity)).
    unfold overlap. cbn -[Rdiv]. replace (_ + _)%C with (RtoC (- (14 / 25))) by (apply C_eq; simpl; field).
    rewrite Cmod_R, Rabs_Ropp, Rabs_pos_eq by lra. lra.
  - inversion F as [|? ? H _]. subst. apply one_allowed in H; [|exact D]. subst g1.
    rewrite (overlap_proper 2 _ _ Mt _ _ (one_ordered u Mu)).
    unfold overlap. cbn -[Rdiv]. replace (_ + _)%C with (RtoC (6 / 5)) by (apply C_eq; simpl; field).
    rewrite Cmod_R, Rabs_pos_eq by lra. lra.
Qed.

(** Two steps suffice and are needed for the tolerance 1/10; one step leaves a cost of at least 2/5. *)
Lemma ex_C107_lemma : exists c target st,
  exact_world (r_world st) /\ reachable 0 (r_world st) /\ c_dim c = (2 ^ 1)%nat /\
  (forall p, In p (c_prims c) -> good_source 0 (p_source p)) /\ built 0 target /\ made 0 target /\ u_dim target = (2 ^ 1)%nat /\
  (forall k, small_round 0 0 1 k) /\
  (forall gs, (List.length gs < 2)%nat ->
     List.Forall (fun gt => exists p, weighted (c_prims c) (c_probs c) p /\ allows 0 (c_dim c) p gt) gs ->
     2 / 5 <= cost_of 1 target gs /\ tolerance (Some (9 / 10)) < cost_of 1 target gs) /\
  (exists g st' c' s costs, rng_ok g /\ compile g 0 target (Some (9 / 10)) 2 (st, c) = ((st', c'), Ok (s, costs)) /\
     List.length costs = 2%nat /\ List.length (contents (r_world st') s) = 2%nat /\
     cost_of 1 target (contents (r_world st') s) <= tolerance (Some (9 / 10))) /\
  (exists g st' c' s costs, rng_ok g /\ compile g 0 target (Some (9 / 10)) 1 (st, c) = ((st', c'), Ok (s, costs)) /\
     List.length costs = 1%nat).
Proof.
  destruct (rot345_built 0 ltac:(lra)) as (u & B & D & Mu & _). destruct rot2_unitary as (t & Bt & Dt & Mt).
  set (c := one_compiler u (1 / 2) 1). assert (GC : good_compiler 0 1 c) by (apply one_good; auto; lra).
  assert (HR : reachable 0 (r_world start)) by now exists [].
  assert (GS : forall p, In p (c_prims c) -> good_source 0 (p_source p)) by (intros p [<-|[]]; exact (built_made _ _ B)).
  assert (FF : forall gs, (List.length gs < 2)%nat ->
     List.Forall (fun gt => exists p, weighted (c_prims c) (c_probs c) p /\ allows 0 (c_dim c) p gt) gs ->
     2 / 5 <= cost_of 1 t gs /\ tolerance (Some (9 / 10)) < cost_of 1 t gs).
  { intros gs L F. assert (X := few_far u t _ _ gs D Mu Mt L F). unfold tolerance. split; lra. }
  exists c, t, start. split; [exact empty_exact|]. split; [exact HR|]. split; [reflexivity|]. split; [exact GS|].
  split; [exact Bt|]. split; [now apply built_made|]. split; [exact Dt|]. split; [intros; apply small_round_0|]. split; [exact FF|]. split.
  - destruct (C63_expressible_lemma start c 1 [(u, [0%nat]); (u, [0%nat])] t (Some (9 / 10)) empty_exact GC (or_introl eq_refl))
      as (g & st' & c' & s & costs & p & G & E & A & CL).
    + cbn. lra.
    + assert (P : in_repertoire 0 1 c (u, [0%nat])).
      { exists (rot_primitive u). split; [exists 0%nat; split; [reflexivity|discriminate]|].
        split; [reflexivity|]. split; [discriminate|]. intros _. split; [|exact D].
        unfold placement. cbn. split; [repeat constructor; intros []|]. split; [discriminate|]. intros q [<-|[]]. lia. }
      constructor; [exact P|]. constructor; [exact P|constructor].
    + exact Bt.
    + exact Dt.
    + exists (RtoC 1). split; [apply Cmod_1|]. intros i j Hi Hj. unfold mscale. rewrite Cmult_1_l.
      rewrite (Mt i j Hi Hj). symmetry. now apply (pair_ordered u Mu).
    + lra.
    + change (Z.of_nat (List.length [(u, [0%nat]); (u, [0%nat])])) with 2%Z in E.
      exists g, st', c', s, costs. split; [exact G|]. split; [exact E|].
      assert (L1 := compile_gates g 0 start c t _ _ st' c' s costs G HR E).
      destruct (C27_lemma g 0 start c t _ _ st' c' s costs G HR E) as (HD & FA).
      destruct (C24_lemma g 0 start c t _ _ st' c' s costs G HR E) as (LC & _).
      destruct (C26_lemma g start c t _ _ st' c' s costs 1 G empty_exact eq_refl GS E) as (HX' & p' & close & A' & Dp & Ep & _).
      assert (p' = p) by (eapply answers_unique; eauto). subst p'.
      destruct (exact_winv_ex _ HX') as [K HW].
      destruct (winv_exact 0 K (r_world st') s 1 ltac:(lra) HW HD (lim_zero _ _)) as (p' & A2 & NN).
      assert (p' = p) by (eapply answers_unique; eauto). subst p'.
      destruct (near_zero _ _ _ _ NN) as (_ & U & Em).
      assert (Wp : wf p) by (apply (wf_of p (2 ^ 1) _ ltac:(cbn; lia) Dp Em U)).
      rewrite (tolerance_test 1 t _ p _ Bt Dt Wp Dp Ep) in CL. destruct (Rle_dec _ _) as [R|R]; [|discriminate].
      destruct (le_lt_dec 2 (List.length (contents (r_world st') s))) as [L|L]; [|destruct (FF _ L FA); lra].
      split; [lia|]. split; [lia|exact R].
  - set (g := const_rng 0 0). assert (G : rng_ok g) by (apply const_rng_ok; lra).
    destruct (C28_lemma g start c t (Some (9 / 10)) 1 1 G empty_exact GC (or_introl eq_refl) Bt Dt) as (st' & c' & s & costs & E).
    exists g, st', c', s, costs. split; [exact G|]. split; [exact E|].
    destruct (C24_lemma g 0 start c t _ _ st' c' s costs G HR E) as (LC & _).
    destruct (steps_needed g start c t _ _ st' c' s costs 1 2 G empty_exact eq_refl GS Bt Dt E) as (X & _); [|lia].
    intros gs L F. now apply FF.
Qed.

(** A layered run of one step that keeps its layer of three gates. *)
Lemma ex_C107_layered_lemma : exists g c target counts st st' c' s costs,
  rng_ok g /\ reachable 0 (r_world st) /\ c_dim c = (2 ^ 1)%nat /\
  (forall pc, In pc counts -> good_source 0 (p_source (fst pc))) /\ made 0 target /\ u_dim target = (2 ^ 1)%nat /\
  compile_layered g 0 target counts (Some 2%R) 1 (st, c) = ((st', c'), Ok (s, costs)) /\
  (forall k, small_round 0 0 1 k) /\
  table_size counts = 3%nat /\ List.length costs = 1%nat /\ List.length (contents (r_world st') s) = 3%nat.
Proof.
  destruct ex_layered_lemma as (g & c & target & counts & st & st' & c' & s & costs & G & HX & HR & D & AP & GT & NN & B & DT & E & TC & L).
  exists g, c, target, counts, st, st', c', s, costs.
  split; [exact G|]. split; [exact HR|]. split; [exact D|]. split.
  { intros pc Hp. unfold good_table in GT. rewrite ?List.Forall_forall in GT. exact (proj1 (proj1 (GT pc Hp))). }
  split; [now apply built_made|]. split; [exact DT|]. split; [exact E|]. split; [intros; apply small_round_0|].
  assert (T3 : table_size counts = 3%nat).
  { clear - TC NN. assert (X : Z.of_nat (table_size counts) = total_count counts).
    { clear TC. unfold table_size, total_count. induction NN as [|pc cs H _ IH]; [reflexivity|]. cbn [map fold_right] in *. lia. }
    lia. }
  split; [exact T3|]. split; [|exact L].
  assert (X := layered_gates g 0 st c target counts _ _ st' c' s costs G HR E). rewrite L, T3 in X.
  destruct (C24_layered_lemma g 0 st c target counts _ _ st' c' s costs G HR E) as (LC & _). lia.
Qed.
