(** The chances of one step, and detailed balance. *)
From Coq Require Import Reals List Arith Lia Lra Bool String ZArith Permutation.
From Coquelicot Require Import Coquelicot.
From Verif Require Import Base CMat CMatFacts Det DetFacts Norms ModelUnitary ModelEntry ModelPrimitive
  ModelSequence ModelCompiler Spec SpecModel SpecCompiler PUnitary PUnitaryProps PEmbed PEntry PSeqHeap PSeqMeth PSeqNear PSeqWorld
  PSeqUndo PSeqInv PSeqHist PSeqProps PSeqCases PCompView PCompRun PCompEntry PCompLoop PCompTrace PCompTotal PCompProps PCompMore
  PCompCases PCompEx PReach PVerify SpecChain PChain PChainStep PChainRun.
Import ListNotations.
Open Scope R_scope.

(** * Means over the offered gates *)
Lemma gate_mean_ext n p F F' : (forall g, F g = F' g) -> gate_mean n p F = gate_mean n p F'.
Proof. intros H. unfold gate_mean. destruct (p_source p); auto. apply meanl_ext. auto. Qed.
Lemma gate_mean_scal n p F k : gate_mean n p (fun g => k * F g) = k * gate_mean n p F.
Proof. unfold gate_mean. destruct (p_source p); [apply meanl_scal|ring]. Qed.

Lemma offer_mean_ext n ps q F F' : (forall g, F g = F' g) -> offer_mean n ps q F = offer_mean n ps q F'.
Proof.
  intros H. unfold offer_mean. destruct q as [q|].
  - f_equal. apply sum_ext. intros [p x] _. cbn [fst snd]. f_equal. now apply gate_mean_ext.
  - apply meanl_ext. intros. now apply gate_mean_ext.
Qed.
Lemma offer_mean_scal n ps q F k : offer_mean n ps q (fun g => k * F g) = k * offer_mean n ps q F.
Proof.
  unfold offer_mean. destruct q as [q|].
  - unfold Rdiv. rewrite <- Rmult_assoc. f_equal. rewrite <- sum_scal. apply sum_ext.
    intros [p x] _. cbn [fst snd]. rewrite gate_mean_scal. ring.
  - rewrite <- meanl_scal. apply meanl_ext. intros. apply gate_mean_scal.
Qed.

(** * The chance of a given outcome *)
Lemma step_chance_eq n c beta target gs gs' : gs <> gs' ->
  step_mean n c beta target (fun l => ind (l = gs')) gs =
  metropolis beta (cost_of n target gs' - cost_of n target gs) * proposed n c gs gs'.
Proof.
  intros N.
  assert (A : forall gs1, accept_mean n beta target (fun l => ind (l = gs')) gs gs1 =
    metropolis beta (cost_of n target gs' - cost_of n target gs) * ind (gs1 = gs')).
  { intros gs1. unfold accept_mean. cbv zeta. rewrite (ind_false (gs = gs')) by auto.
    destruct (Classical_Prop.classic (gs1 = gs')) as [->|N1]; [rewrite ind_true by auto|rewrite ind_false by auto]; ring. }
  unfold step_mean, single_mean, proposed. cbv zeta. rewrite !A.
  rewrite (offer_mean_ext n (c_prims c) (c_probs c) _ (fun g => metropolis beta (cost_of n target gs' - cost_of n target gs) * ind (g :: gs = gs')) (fun g => A _)).
  rewrite (offer_mean_ext n (c_prims c) (c_probs c) _ (fun g => metropolis beta (cost_of n target gs' - cost_of n target gs) * ind (gs ++ [g] = gs')) (fun g => A _)).
  rewrite !offer_mean_scal. ring.
Qed.

Lemma C68_mean_lemma : forall n st c s target F,
  exact_world (r_world st) -> list_sequence (r_world st) s (2 ^ n) -> good_compiler 0 n c -> fixed_gates c ->
  built 0 target -> u_dim target = (2 ^ n)%nat ->
  average (r_draws st) (fun g => F (step_contents st c s target g)) []
    (step_mean n c (Rmin (c_beta c + c_rate c) (c_max_beta c)) target F (contents (r_world st) s)).
Proof. intros n st c s target F HX HL HC HF HT HD. now apply step_average. Qed.

Lemma C68_chance_lemma : forall n st c s target gs',
  exact_world (r_world st) -> list_sequence (r_world st) s (2 ^ n) -> good_compiler 0 n c -> fixed_gates c ->
  built 0 target -> u_dim target = (2 ^ n)%nat ->
  let gs := contents (r_world st) s in gs <> gs' ->
  chance (r_draws st) (fun g => step_contents st c s target g = gs')
    (metropolis (Rmin (c_beta c + c_rate c) (c_max_beta c)) (cost_of n target gs' - cost_of n target gs) *
     proposed n c gs gs')%R.
Proof.
  intros n st c s target gs' HX HL HC HF HT HD gs N. rewrite <- step_chance_eq by exact N.
  unfold chance. apply (step_average n c target HC HF HT HD st s (fun l => ind (l = gs')) HX HL).
Qed.

Lemma C68_unique_lemma : forall r E p p', chance r E p -> chance r E p' -> p = p' /\ (0 <= p <= 1)%R.
Proof.
  intros r E p p' H H'. split.
  - eapply average_unique; eauto. constructor.
  - eapply average_bounds; [exact H|constructor|]. intros g _ _. apply ind_range.
Qed.

(** * Detailed balance *)
Section Balance.
Variables (n : nat) (c : compiler).
Hypothesis Hap : 0 < c_append c < 1.
Notation ap := (c_append c).
Notation q := (gate_chance n c).
Notation om := (offer_mean n (c_prims c) (c_probs c)).
Notation prior := (fun gs => fold_right Rmult 1 (map (fun g => ap / (1 - ap) * q g) gs)).

Lemma offer_none F : (forall g, F g = 0) -> om F = 0.
Proof.
  intros H. rewrite (offer_mean_ext _ _ _ F (fun g => 0 * F g)); [rewrite offer_mean_scal; ring|].
  intros g. rewrite H. ring.
Qed.

Lemma prior_app l l' : prior (l ++ l') = prior l * prior l'.
Proof. induction l as [|x t IH]; cbn [app map fold_right]; [ring|]. rewrite IH. ring. Qed.

Lemma first_balance gs gs' : gs <> gs' ->
  prior gs * (ap / 2 * om (fun g => ind (g :: gs = gs'))) = prior gs' * ((1 - ap) / 2 * ind (tl gs' = gs)).
Proof.
  intros N. destruct gs' as [|x t].
  - rewrite offer_none by (intros; apply ind_false; discriminate). cbn [tl]. rewrite ind_false by congruence. ring.
  - cbn [tl]. destruct (Classical_Prop.classic (t = gs)) as [->|NE].
    + rewrite (ind_true (gs = gs)) by auto.
      rewrite (offer_mean_ext _ _ _ _ (fun g => ind (g = x))).
      * change (om (fun g => ind (g = x))) with (q x). cbn [map fold_right]. field. lra.
      * intros g. apply ind_iff. split; [congruence|intros ->; reflexivity].
    + rewrite (ind_false (t = gs)) by auto. rewrite offer_none by (intros; apply ind_false; congruence). ring.
Qed.

Lemma last_balance gs gs' : gs <> gs' ->
  prior gs * (ap / 2 * om (fun g => ind (gs ++ [g] = gs'))) = prior gs' * ((1 - ap) / 2 * ind (removelast gs' = gs)).
Proof.
  intros N. destruct gs' as [|x t] using rev_ind.
  - rewrite offer_none by (intros; apply ind_false; intros E; now apply app_eq_nil in E). cbn [removelast].
    rewrite ind_false by congruence. ring.
  - rewrite removelast_last. destruct (Classical_Prop.classic (t = gs)) as [->|NE].
    + rewrite (ind_true (gs = gs)) by auto.
      rewrite (offer_mean_ext _ _ _ _ (fun g => ind (g = x))).
      * change (om (fun g => ind (g = x))) with (q x). rewrite (prior_app gs [x]). cbn [map fold_right]. field. lra.
      * intros g. apply ind_iff. split; [intros E; now apply app_inj_tail in E|intros ->; reflexivity].
    + rewrite (ind_false (t = gs)) by auto. rewrite offer_none; [ring|].
      intros g. apply ind_false. intros E. apply app_inj_tail in E. destruct E; congruence.
Qed.

Lemma proposed_balance gs gs' : gs <> gs' -> prior gs * proposed n c gs gs' = prior gs' * proposed n c gs' gs.
Proof.
  intros N. assert (N' : gs' <> gs) by congruence. unfold proposed.
  rewrite !Rmult_plus_distr_l.
  rewrite (first_balance gs gs' N), (last_balance gs gs' N), (first_balance gs' gs N'), (last_balance gs' gs N'). ring.
Qed.

Lemma metropolis_balance beta x y :
  exp (- beta * x) * metropolis beta (y - x) = exp (- beta * y) * metropolis beta (x - y).
Proof.
  assert (A : forall x y, exp (- beta * x) * metropolis beta (y - x) = Rmin (exp (- beta * x)) (exp (- beta * y))).
  { clear. intros x y. unfold metropolis.
    replace (exp (- beta * y)) with (exp (- beta * x) * exp (- beta * (y - x))) by (rewrite <- exp_plus; f_equal; ring).
    pose proof (exp_pos (- beta * x)) as P. unfold Rmin.
    destruct (Rle_dec 1 (exp (- beta * (y - x)))), (Rle_dec (exp (- beta * x)) (exp (- beta * x) * exp (- beta * (y - x)))); nra. }
  rewrite !A. apply Rmin_comm.
Qed.
End Balance.

Lemma C68_balance_lemma : forall n c beta target gs gs', 0 < c_append c < 1 -> gs <> gs' ->
  boltzmann n c beta target gs *
    (metropolis beta (cost_of n target gs' - cost_of n target gs) * proposed n c gs gs') =
  boltzmann n c beta target gs' *
    (metropolis beta (cost_of n target gs - cost_of n target gs') * proposed n c gs' gs).
Proof.
  intros n c beta target gs gs' Hap N. unfold boltzmann.
  set (P := fold_right Rmult 1 (map (fun g => c_append c / (1 - c_append c) * gate_chance n c g) gs)).
  set (P' := fold_right Rmult 1 (map (fun g => c_append c / (1 - c_append c) * gate_chance n c g) gs')).
  assert (B1 := metropolis_balance beta (cost_of n target gs) (cost_of n target gs')).
  assert (B2 := proposed_balance n c Hap gs gs' N). cbv beta in B2. fold P P' in B2.
  transitivity ((exp (- beta * cost_of n target gs) * metropolis beta (cost_of n target gs' - cost_of n target gs)) *
    (P * proposed n c gs gs')); [ring|]. rewrite B1, B2. ring.
Qed.

Lemma C68_detailed_lemma : forall n c target st s st' s' p p',
  good_compiler 0 n c -> fixed_gates c -> (0 < c_append c < 1)%R -> built 0 target -> u_dim target = (2 ^ n)%nat ->
  exact_world (r_world st) -> list_sequence (r_world st) s (2 ^ n) ->
  exact_world (r_world st') -> list_sequence (r_world st') s' (2 ^ n) ->
  let gs := contents (r_world st) s in let gs' := contents (r_world st') s' in
  let beta := Rmin (c_beta c + c_rate c) (c_max_beta c) in gs <> gs' ->
  chance (r_draws st) (fun g => step_contents st c s target g = gs') p ->
  chance (r_draws st') (fun g => step_contents st' c s' target g = gs) p' ->
  (boltzmann n c beta target gs * p = boltzmann n c beta target gs' * p')%R.
Proof.
  intros n c target st s st' s' p p' HC HF Hap HT HD HX HL HX' HL' gs gs' beta N H H'.
  rewrite (proj1 (C68_unique_lemma _ _ _ _ H (C68_chance_lemma n st c s target gs' HX HL HC HF HT HD N))).
  rewrite (proj1 (C68_unique_lemma _ _ _ _ H' (C68_chance_lemma n st' c s' target gs HX' HL' HC HF HT HD (not_eq_sym N)))).
  now apply C68_balance_lemma.
Qed.

(** * A case *)
Lemma one_fixed u ap rate : fixed_gates (one_compiler u ap rate).
Proof. intros p [<-|[]]. exists u. reflexivity. Qed.

Lemma ex_C68_lemma : exists st c s target gs',
  exact_world (r_world st) /\ list_sequence (r_world st) s (2 ^ 1) /\ good_compiler 0 1 c /\ fixed_gates c /\
  built 0 target /\ u_dim target = (2 ^ 1)%nat /\ (0 < c_append c < 1)%R /\
  contents (r_world st) s = [] /\ List.length gs' = 1%nat /\
  chance (r_draws st) (fun g => step_contents st c s target g = gs') (exp (-16 * (2 / 5)) * (1 / 2))%R.
Proof.
  destruct (rot345_built 0 ltac:(lra)) as (u & B & D & Mu & _).
  destruct (u_identity_ok 0 2 ltac:(lia) ltac:(lra)) as (t & Et & Dt & _ & _ & _ & _ & Mt).
  assert (Bt : built 0 t).
  { exists 2%nat, mid, (Some "I"%string), [], false, []. split; [apply unitary_mid|]. split; [apply eps_clean_mid; lra|exact Et]. }
  set (c := one_compiler u (1 / 2) 16).
  assert (GC : good_compiler 0 1 c) by (apply one_good; auto; lra).
  exists one_seq, c, 0%nat, t, [(u, [0%nat])].
  do 6 (split; [first [assumption|exact one_seq_exact|exact one_seq_list|exact (one_fixed _ _ _)]|]).
  split; [simpl; lra|]. split; [reflexivity|]. split; [reflexivity|].
  assert (A := C68_chance_lemma 1 one_seq c 0 t [(u, [0%nat])] one_seq_exact one_seq_list GC (one_fixed _ _ _) Bt Dt).
  cbv zeta in A. change (contents (r_world one_seq) 0) with (@nil gate_on) in A.
  specialize (A ltac:(discriminate)).
  replace (Rmin (c_beta c + c_rate c) (c_max_beta c)) with 16 in A by (simpl; rewrite Rmin_left; lra).
  assert (Oc : cost_of 1 t [] = 0).
  { unfold cost_of. change (2 ^ 1)%nat with 2%nat. replace (overlap 2 (u_mat t) (ordered 1 [])) with (overlap 2 mid mid).
    - unfold overlap. cbn -[Rdiv].
      replace (_ + _)%C with (RtoC 2) by (apply C_eq; simpl; ring).
      rewrite Cmod_R, Rabs_pos_eq by lra. field.
    - apply overlap_proper; [now symmetry|reflexivity]. }
  assert (Op : cost_of 1 t [(u, [0%nat])] = 2 / 5).
  { unfold cost_of. change (2 ^ 1)%nat with 2%nat. replace (overlap 2 (u_mat t) (ordered 1 [(u, [0%nat])])) with (overlap 2 mid rot345).
    - unfold overlap. cbn -[Rdiv].
      replace (_ + _)%C with (RtoC (6 / 5)) by (apply C_eq; simpl; field).
      rewrite Cmod_R, Rabs_pos_eq by lra. field.
    - apply overlap_proper; [now symmetry|]. unfold ordered. cbn [fold_left fst snd].
      change (2 ^ 1)%nat with 2%nat. rewrite mmul_1_r, embed_one. now symmetry. }
  rewrite Oc, Op in A. replace (metropolis 16 (2 / 5 - 0)) with (exp (-16 * (2 / 5))) in A.
  2:{ unfold metropolis. rewrite Rmin_right.
      - f_equal. lra.
      - pose proof exp_quarter. replace (- (16) * (2 / 5 - 0)) with (-16 * (2 / 5)) by lra. lra. }
  replace (proposed 1 c [] [(u, [0%nat])]) with (1 / 2) in A; [exact A|].
  unfold proposed. cbn [app tl removelast c_append c one_compiler].
  rewrite (ind_false ([] = _)) by discriminate.
  assert (O : forall F, offer_mean 1 (c_prims c) (c_probs c) F = F (u, [0%nat])).
  { intros F. unfold offer_mean, gate_mean, c, meanl. cbn -[INR Nat.log2]. unfold places. cbn -[INR Nat.log2].
    rewrite D. change (Nat.log2 2) with 1%nat. cbn -[INR]. simpl INR. field. }
  rewrite !O. rewrite ind_true by reflexivity. lra.
Qed.
