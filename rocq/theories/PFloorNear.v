(** Gates that differ little up to a phase, and what that does to a product and its cost. *)
From Coq Require Import Reals List Arith Lia Lra Bool ZArith Permutation.
From Coquelicot Require Import Coquelicot.
From Verif Require Import Base CMat CMatFacts Det DetFacts Norms ModelUnitary ModelEntry ModelPrimitive
  ModelSequence ModelCompiler Spec SpecModel SpecCompiler PBits PUnitary PUnitaryProps PEmbed PEntry PSeqNear PSeqInv
  PCompRun PExample PDecimalOp PReach SpecChain SpecFloor PAlmostComp.
Import ListNotations.
Open Scope R_scope.
Set Bullet Behavior "Strict Subproofs".

Definition gate_near (e : R) (gt gt' : gatety) : Prop :=
  snd gt' = snd gt /\ u_dim (fst gt') = u_dim (fst gt) /\
  exists z, Cmod z = 1 /\ forall i j, (i < u_dim (fst gt))%nat -> (j < u_dim (fst gt))%nat ->
    Cmod (u_mat (fst gt') i j - z * u_mat (fst gt) i j)%C <= e.

Lemma gate_near_refl e gt : 0 <= e -> gate_near e gt gt.
Proof.
  intros He. split; [|split]; auto. exists (RtoC 1). split; [apply Cmod_1|]. intros i j _ _.
  replace (u_mat (fst gt) i j - 1 * u_mat (fst gt) i j)%C with (RtoC 0) by ring. now rewrite Cmod_0.
Qed.

(** The members of a family at close values. *)
Lemma family_near pu vs u e : good_source 0 (Family pu) -> continuous_family pu -> in_range (pu_params pu) vs ->
  as_unitary 0 pu vs = Ok u -> 0 < e ->
  exists d, 0 < d /\ forall vs' u', in_range (pu_params pu) vs' -> Forall2 (fun v v' => Rabs (v' - v) < d) vs vs' ->
    as_unitary 0 pu vs' = Ok u' -> forall qs, gate_near e (u, qs) (u', qs).
Proof.
  intros [_ GS] HC HV HU He.
  assert (X : forall vs u, in_range (pu_params pu) vs -> as_unitary 0 pu vs = Ok u -> exists M c, pu_matrix pu vs = Ok (square (pu_dim pu) M) /\
    Cmod c = 1 /\ u_dim u = pu_dim pu /\ meq (pu_dim pu) (u_mat u) (mscale c M)).
  { clear - GS. intros vs u HV HU. destruct (GS vs HV) as (M & EM & HM). assert (UM : unitary_mx (pu_dim pu) M).
    { destruct HM as [U|(v & (d & M' & nm & ps & iv & ap & U & E) & Dv & <-)]; auto. rewrite <- Dv.
      apply (built_wf 0). exists d, M', nm, ps, iv, ap. split; [|split]; auto. apply eps_clean_0. }
    assert (CM := eps_clean_0 (pu_dim pu) M). apply as_unitary_ok_inv in HU.
    destruct HU as (_ & dd & m & _ & Em & E). rewrite EM in Em. injection Em as <-.
    assert (Hd : (0 < pu_dim pu)%nat) by (apply mk_unitary_inv in E; tauto).
    destruct (mk_unitary_exact 0 _ M (Some (pu_name pu)) dd false [] Hd UM CM) as (u1 & E1 & D1 & _ & _ & _ & _ & M1 & C1 & _).
    rewrite E in E1. injection E1 as <-. eauto 8. }
  destruct (X _ _ HV HU) as (M & c & EM & Hc & Du & Mu). destruct (HC vs M HV EM e He) as (d & Hd & H).
  exists d. split; auto. intros vs' u' HV' HF HU' qs. destruct (X _ _ HV' HU') as (M' & c' & EM' & Hc' & Du' & Mu').
  destruct (H vs' M' HV' HF EM') as (z & Hz & H').
  split; [reflexivity|]. split; [cbn [fst]; congruence|]. exists (z * c' / c)%C. assert (C0 : c <> RtoC 0) by (intros ->; rewrite Cmod_0 in Hc; lra).
  split; [rewrite Cmod_div, Cmod_mult, Hz, Hc, Hc'; [field|auto]|]. cbn [fst]. rewrite Du. intros i j Hi Hj. rewrite (Mu' i j Hi Hj), (Mu i j Hi Hj). unfold mscale.
  replace (c' * M' i j - z * c' / c * (c * M i j))%C with (c' * (M' i j - z * M i j))%C by (field; auto).
  rewrite Cmod_mult, Hc', Rmult_1_l. left. now apply H'.
Qed.

(** * Products *)
Section Words.
Variable n : nat.
Notation D := (2 ^ n)%nat.

Lemma fro_small (A : mat) t : 0 <= t -> (forall i j, (i < D)%nat -> (j < D)%nat -> Cmod (A i j) <= t) -> fro D A <= INR D * t.
Proof.
  intros Ht H. assert (N : forall m, 0 <= INR m) by (intros; apply pos_INR). apply sqr_le_le; [apply Rmult_le_pos; auto|]. rewrite fro_sqr.
  replace ((INR D * t) ^ 2) with (INR D * (INR D * t ^ 2)) by ring. unfold fro2, vnorm2.
  assert (S : forall m (f : nat -> R) b, (forall i, (i < m)%nat -> f i <= b) -> rsum m f <= INR m * b).
  { clear. induction m as [|m IH]; intros f b H; [cbn; lra|]. cbn [rsum]. rewrite S_INR.
    assert (X := IH f b (fun i Hi => H i (Nat.lt_lt_succ_r _ _ Hi))). assert (Y := H m (Nat.lt_succ_diag_r m)). lra. }
  apply S. intros i Hi. apply S. intros j Hj. assert (X := H i j Hi Hj). assert (Y := Cmod_ge_0 (A i j)). nra.
Qed.

Definition word_near (e : R) (a b : list gatety) : Prop :=
  exists z, Cmod z = 1 /\ fro D (mminus (ordered n b) (mscale z (ordered n a))) <= e.

Lemma gate_word_near e gt gt' : 0 <= e -> (2 ^ List.length (snd gt))%nat = u_dim (fst gt) ->
  gate_near e gt gt' -> word_near (INR D * e) [gt] [gt'].
Proof.
  intros He HL (Hq & Hd & z & Hz & H). exists z. split; auto. apply fro_small; auto. intros i j Hi Hj.
  unfold mminus, mscale. rewrite (ordered_one n gt' i j Hi Hj), (ordered_one n gt i j Hi Hj). rewrite Hq. unfold embed.
  destruct (agree_off n (snd gt) i j).
  - apply H; rewrite <- HL; apply subindex_lt.
  - replace (0 - z * 0)%C with (RtoC 0) by ring. now rewrite Cmod_0.
Qed.

Lemma word_near_app e1 e2 a b a' b' : unitary_mx D (ordered n a) -> unitary_mx D (ordered n b') ->
  word_near e1 a a' -> word_near e2 b b' -> word_near (e1 + e2) (a ++ b) (a' ++ b').
Proof.
  intros Ua Ub' (z1 & Z1 & H1) (z2 & Z2 & H2). exists (z2 * z1)%C. split; [rewrite Cmod_mult, Z1, Z2; ring|].
  set (A := ordered n a) in *. set (B := ordered n b) in *. set (A' := ordered n a') in *. set (B' := ordered n b') in *.
  eapply Rle_trans; [apply fro_minus_triangle with (B := mmul D B' (mscale z1 A))|]. apply Rplus_le_compat.
  - eapply Rle_trans; [|exact H1]. right. rewrite <- (fro_unitary_l D B' (mminus A' (mscale z1 A)) Ub').
    apply fro_proper. rewrite mmul_mminus_r. now rewrite ordered_app.
  - eapply Rle_trans; [|exact H2]. right. transitivity (fro D (mscale z1 (mmul D (mminus B' (mscale z2 B)) A))).
    + apply fro_proper. rewrite mmul_mminus_l, mmul_mscale_l, mmul_mscale_r. rewrite (ordered_app n a b).
      intros i j Hi Hj. fold A B. unfold mminus, mscale. ring.
    + rewrite fro_mscale, Z1, Rmult_1_l. now apply fro_unitary_r.
Qed.

Lemma word_near_refl e a : 0 <= e -> word_near e a a.
Proof.
  intros He. exists (RtoC 1). split; [apply Cmod_1|]. rewrite fro_minus_self; auto. intros i j _ _. unfold mscale. ring.
Qed.

Lemma words_near e gs gs' : 0 <= e -> Forall2 (gate_near e) gs gs' -> (forall g, In g gs -> fits n g) -> (forall g, In g gs' -> fits n g) ->
  word_near (INR (List.length gs) * (INR D * e)) gs gs'.
Proof.
  intros He H. assert (N : forall m, 0 <= INR m) by (intros; apply pos_INR). induction H as [|x y a b Hxy Hab IH]; intros Fa Fb.
  - apply word_near_refl. cbn. lra.
  - cbn [List.length]. rewrite S_INR. replace ((INR (List.length a) + 1) * (INR D * e)) with (INR D * e + INR (List.length a) * (INR D * e)) by ring.
    change (x :: a) with ([x] ++ a). change (y :: b) with ([y] ++ b). apply word_near_app.
    + apply (ordered_special n). intros g [<-|[]]. apply Fa. now left.
    + apply (ordered_special n). intros g Hg. apply Fb. now right.
    + apply gate_word_near; auto. apply (Fa x). now left.
    + apply IH; intros; [apply Fa|apply Fb]; now right.
Qed.

Lemma near_cost target e a gs gs' : unitary_mx D (u_mat target) -> 0 <= e -> Forall2 (gate_near e) gs gs' ->
  (forall g, In g a -> fits n g) -> (forall g, In g gs -> fits n g) -> (forall g, In g gs' -> fits n g) ->
  cost_of n target (a ++ gs') <= cost_of n target (a ++ gs) + INR (List.length gs) * (INR D * e).
Proof.
  intros HT He H Fa Fg Fg'.
  assert (W : word_near (0 + INR (List.length gs) * (INR D * e)) (a ++ gs) (a ++ gs')).
  { apply word_near_app; [now apply (ordered_special n)|now apply (ordered_special n)|apply word_near_refl; lra|now apply words_near]. }
  destruct W as (z & Hz & W). rewrite Rplus_0_l in W. unfold cost_of.
  assert (Dp : (0 < D)%nat) by (apply Nat.neq_0_lt_0, Nat.pow_nonzero; lia).
  assert (X := overlap_gap D (u_mat target) (ordered n (a ++ gs')) (mscale z (ordered n (a ++ gs))) Dp HT).
  rewrite (overlap_sym D _ (mscale z _)), overlap_phase, (overlap_sym D _ (u_mat target)) in X by auto.
  assert (Q : 1 <= sqrt (INR D)). { rewrite <- sqrt_1. apply sqrt_le_1_alt. change 1 with (INR 1). apply le_INR. lia. }
  set (x := overlap D _ (ordered n (a ++ gs'))) in *. set (y := overlap D _ (ordered n (a ++ gs))) in *.
  assert (P := Rabs_pos (x - y)). assert (Y := Rle_abs (-(x - y))). rewrite Rabs_Ropp in Y.
  assert (1 * Rabs (x - y) <= sqrt (INR D) * Rabs (x - y)) by (apply Rmult_le_compat_r; auto). lra.
Qed.
End Words.
