(** A compilation does not see the global phase of its target: proofs for C110. *)
From Coq Require Import Reals List Arith Lia Lra Bool String Setoid Morphisms.
From Coquelicot Require Import Complex.
From Verif Require Import Base CMat CMatFacts Det DetFacts Norms CRoot ModelUnitary ModelSequence ModelCompiler ModelRound
  Spec SpecModel SpecCompiler SpecAgree SpecRepro PUnitary PDrift PSu2 PRepro.
Import ListNotations.
Open Scope R_scope.
Open Scope C_scope.

Lemma allclose_same n A A' : meq n A A' -> allclose n A mid = allclose n A' mid.
Proof.
  intros E. apply Bool.eq_iff_eq_true. rewrite !allclose_spec. split; intros H i j Hi Hj; specialize (H i j Hi Hj);
    [rewrite <- (E i j Hi Hj)|rewrite (E i j Hi Hj)]; exact H.
Qed.
Lemma Cmult_zero (a b : C) : a * b = 0 -> a = 0 \/ b = 0.
Proof.
  intros H. assert (M : (Cmod a * Cmod b = 0)%R) by (rewrite <- Cmod_mult, H; apply Cmod_0).
  destruct (Rmult_integral _ _ M) as [X|X]; [left|right]; now apply Cmod_eq_0.
Qed.
Lemma phase_square d c A B : Cmod c = 1%R -> meq d B (mscale c A) -> meq d (mmul d B (adj B)) (mmul d A (adj A)).
Proof.
  intros Hc E. rewrite E, adj_mscale, mmul_mscale_l, mmul_mscale_r, mscale_mscale, Cmod_one_conj, mscale_1 by exact Hc. reflexivity.
Qed.

Lemma mk_phase eps d A1 A2 c nm1 ps1 iv1 ap1 nm2 ps2 iv2 ap2 :
  Cmod c = 1%R -> meq d (clean eps A2) (mscale c (clean eps A1)) ->
  match mk_unitary eps d (Some (square d A1)) nm1 ps1 iv1 ap1, mk_unitary eps d (Some (square d A2)) nm2 ps2 iv2 ap2 with
  | Ok u1, Ok u2 => u_dim u1 = d /\ u_dim u2 = d /\ phase_eq d (u_mat u2) (u_mat u1)
  | Raise e, Raise f => e = f
  | _, _ => False
  end.
Proof.
  intros Hc E. unfold mk_unitary, assert, bind. destruct (Nat.ltb 0 d); [|reflexivity].
  cbn [nrows ncols elt square]. rewrite Nat.eqb_refl. cbn [andb].
  rewrite (allclose_same d _ _ (phase_square d c _ _ Hc E)).
  destruct (allclose d (mmul d (clean eps A1) (adj (clean eps A1))) mid); [|reflexivity].
  assert (D : det d (clean eps A2) = cpow c d * det d (clean eps A1)) by now rewrite (@det_ext _ _ _ E), det_mscale.
  assert (C0 : c <> 0) by now apply Cmod_one_neq0. assert (CD := cpow_neq0 c d C0).
  assert (CM : Cmod (cpow c d) = 1%R) by (rewrite Cmod_cpow, Hc; apply pow1).
  destruct (Ceq_dec (det d (clean eps A1)) 0) as [Z|Z].
  { destruct (Ceq_dec (det d (clean eps A2)) 0) as [_|X]; [reflexivity|]. exfalso. apply X. rewrite D, Z. ring. }
  destruct (Ceq_dec (det d (clean eps A2)) 0) as [X|X].
  { exfalso. apply Z. rewrite D in X. destruct (Cmult_zero _ _ X); [contradiction|assumption]. }
  cbn [u_dim u_mat]. split; [reflexivity|]. split; [reflexivity|].
  set (g1 := croot d (/ det d (clean eps A1))). set (g2 := croot d (/ det d (clean eps A2))).
  assert (G1 : g1 <> 0) by apply croot_neq0.
  assert (GM : Cmod g2 = Cmod g1).
  { unfold g1, g2. rewrite !Cmod_croot. f_equal. rewrite !Cmod_inv by auto. rewrite D, Cmod_mult, CM. now rewrite Rmult_1_l. }
  exists (g2 * c / g1). split.
  - rewrite Cmod_div by exact G1. rewrite Cmod_mult, GM, Hc. field. intros H. apply G1. now apply Cmod_eq_0.
  - rewrite E, !mscale_mscale. intros i j _ _. unfold mscale. field. exact G1.
Qed.

Lemma trace_left d c X Y Z : Cmod c = 1%R -> meq d Y (mscale c X) -> Cmod (mtrace d (mmul d Y Z)) = Cmod (mtrace d (mmul d X Z)).
Proof.
  intros Hc E. assert (K : meq d (mmul d Y Z) (mscale c (mmul d X Z))) by (rewrite E; apply mmul_mscale_l).
  assert (T : mtrace d (mmul d Y Z) = mtrace d (mscale c (mmul d X Z))) by (apply csum_ext; intros i Hi; now apply K).
  rewrite T, mtrace_mscale, Cmod_mult, Hc. ring.
Qed.
Lemma trace_right d c X Y Z : Cmod c = 1%R -> meq d Y (mscale c X) -> Cmod (mtrace d (mmul d Z Y)) = Cmod (mtrace d (mmul d Z X)).
Proof. intros Hc E. rewrite (mtrace_mmul_comm d Z Y), (mtrace_mmul_comm d Z X). eapply trace_left; eauto. Qed.

Lemma distance_left eps t1 t2 c p : u_dim t2 = u_dim t1 -> Cmod c = 1%R ->
  meq (u_dim t1) (clean eps (adj (u_mat t2))) (mscale c (clean eps (adj (u_mat t1)))) ->
  u_distance_from eps t1 p = u_distance_from eps t2 p.
Proof.
  intros D Hc E. unfold u_distance_from, u_distance_from_array. rewrite D. destruct (assert (Nat.eqb _ _ && _)) as [[]|e]; [|reflexivity]. cbn [bind].
  unfold u_inverse. rewrite D.
  assert (X := mk_phase eps (u_dim t1) _ _ c (Some (u_name t1)) (u_params t1) (negb (u_inv t1)) (u_apply t1)
    (Some (u_name t2)) (u_params t2) (negb (u_inv t2)) (u_apply t2) Hc E).
  destruct (mk_unitary eps (u_dim t1) (Some (square (u_dim t1) (adj (u_mat t1)))) _ _ _ _) as [i1|e1],
    (mk_unitary eps (u_dim t1) (Some (square (u_dim t1) (adj (u_mat t2)))) _ _ _ _) as [i2|e2]; try contradiction; [|now subst].
  destruct X as (_ & _ & k & Hk & Ek). cbn [bind elt square]. now rewrite (trace_left _ k _ _ _ Hk Ek).
Qed.
Lemma distance_right eps t1 t2 p : u_dim t2 = u_dim t1 -> phase_eq (u_dim t1) (u_mat t2) (u_mat t1) ->
  u_distance_from eps p t1 = u_distance_from eps p t2.
Proof.
  intros D (c & Hc & E). unfold u_distance_from, u_distance_from_array. cbn [nrows ncols elt square]. rewrite D.
  destruct (Nat.eqb_spec (u_dim t1) (u_dim p)) as [Q|Q]; [|reflexivity]. cbn [andb assert bind].
  destruct (u_inverse eps p) as [i|e]; [|reflexivity]. cbn [bind]. rewrite <- Q. now rewrite (trace_right _ c _ _ _ Hc E).
Qed.

(** The quarter turns commute with the clean-up. *)
Definition quarter (c : C) : Prop := c = 1 \/ c = - (1) \/ c = Ci \/ c = - Ci.
Lemma clean_quarter eps c z : quarter c -> clean_C eps (c * z) = c * clean_C eps z.
Proof.
  destruct z as [x y]. intros [->|[->|[->| ->]]].
  - now rewrite !Cmult_1_l.
  - replace (- (1) * (x, y)) with (- (x, y)) by ring. rewrite clean_C_opp. ring.
  - replace (Ci * (x, y)) with ((- y)%R, x) by (apply injective_projections; cbn; ring).
    unfold clean_C. cbn [fst snd]. rewrite clean_R_opp. apply injective_projections; cbn; ring.
  - replace (- Ci * (x, y)) with (y, (- x)%R) by (apply injective_projections; cbn; ring).
    unfold clean_C. cbn [fst snd]. rewrite clean_R_opp. apply injective_projections; cbn; ring.
Qed.
Lemma quarter_conj c : quarter c -> quarter (Cconj c).
Proof.
  intros [->|[->|[->| ->]]]; [left|right; left|right; right; right|right; right; left]; apply injective_projections; cbn; ring.
Qed.
Lemma quarter_root c : cpow c 2 = 1 \/ cpow c 4 = 1 -> quarter c.
Proof.
  intros H. assert (H4 : c * c * (c * c) = 1).
  { destruct H as [H|H]; cbn [cpow] in H.
    - replace (c * c) with (c * (c * 1)) by ring. rewrite H. ring.
    - rewrite <- H. ring. }
  assert (F : (c - 1) * ((c + 1) * ((c - Ci) * (c + Ci))) = 0).
  { assert (I2 : Ci * Ci = - (1)) by (apply injective_projections; cbn; ring).
    transitivity (c * c * (c * c) - 1 - (c * c - 1) * (1 + Ci * Ci)); [ring|]. rewrite H4, I2. ring. }
  assert (S : forall a b : C, a - b = 0 -> a = b).
  { intros a b E. replace a with (a - b + b) by ring. rewrite E. ring. }
  assert (P : forall a b : C, a + b = 0 -> a = - b).
  { intros a b E. replace a with (a + b + - b) by ring. rewrite E. ring. }
  destruct (Cmult_zero _ _ F) as [X|X]; [left; now apply S|].
  destruct (Cmult_zero _ _ X) as [Y|Y]; [right; left; now apply P|].
  destruct (Cmult_zero _ _ Y) as [Z|Z]; [right; right; left; now apply S|right; right; right; now apply P].
Qed.

Lemma constructed_det eps u : constructed eps u -> det (u_dim u) (u_mat u) = 1.
Proof.
  intros (d & a & nm & ps & iv & ap & H). destruct a as [a|]; [|rewrite mk_unitary_none in H];
    destruct (mk_unitary_det _ _ _ _ _ _ _ _ H) as (<- & E); exact E.
Qed.

Lemma twins_alike eps t1 t2 : phase_twins eps t1 t2 -> no_difference eps t1 t2.
Proof.
  intros (D & P & H). split.
  - intros p. destruct P as (c & Hc & E).
    assert (A : meq (u_dim t1) (adj (u_mat t2)) (mscale (Cconj c) (adj (u_mat t1)))) by (rewrite E; apply adj_mscale).
    apply (distance_left eps t1 t2 (Cconj c)); [exact D|now rewrite Cmod_conj|].
    destruct H as [(C1 & C2)|(K1 & K2 & Q)].
    + rewrite !clean_id by (now apply eps_clean_adj). exact A.
    + assert (X := constructed_det _ _ K2). rewrite D, (@det_ext _ _ _ E), det_mscale, (constructed_det _ _ K1), Cmult_1_r in X.
      assert (QC : quarter (Cconj c)).
      { apply quarter_conj, quarter_root. destruct Q as [Q|Q]; rewrite Q in X; auto. }
      intros i j Hi Hj. unfold clean. rewrite (A i j Hi Hj). unfold mscale. now apply clean_quarter.
  - intros p thr. unfold u_close_to. now rewrite (distance_right eps t1 t2 p D P).
Qed.

Theorem compile_phase : forall g1 g2 eps t1 t2 thr K c st1 st2, phase_twins eps t1 t2 ->
  rng_ok g1 -> same_answers g1 (r_draws st1) g2 (r_draws st2) ->
  reachable eps (r_world st1) -> reachable eps (r_world st2) ->
  same_compilation (r_draws st1) (r_draws st2) (compile g1 eps t1 thr K (st1, c)) (compile g2 eps t2 thr K (st2, c)).
Proof. intros. eapply alike_same; [apply compile_alike2; auto; now apply twins_alike|now apply kin_start]. Qed.
Theorem layered_phase : forall g1 g2 eps t1 t2 counts thr K c st1 st2, phase_twins eps t1 t2 ->
  rng_ok g1 -> same_answers g1 (r_draws st1) g2 (r_draws st2) ->
  reachable eps (r_world st1) -> reachable eps (r_world st2) ->
  same_compilation (r_draws st1) (r_draws st2) (compile_layered g1 eps t1 counts thr K (st1, c)) (compile_layered g2 eps t2 counts thr K (st2, c)).
Proof. intros. eapply alike_same; [apply layered_alike2; auto; now apply twins_alike|now apply kin_start]. Qed.

(** From the matrices given to the constructor. *)
Theorem arrays_phase : forall d M c nm ps iv ap nm' ps' iv' ap' t1, Cmod c = 1%R ->
  mk_unitary 0 d (Some (square d M)) nm ps iv ap = Ok t1 ->
  exists t2, mk_unitary 0 d (Some (square d (mscale c M))) nm' ps' iv' ap' = Ok t2 /\ phase_twins 0 t1 t2.
Proof.
  intros d M c nm ps iv ap nm' ps' iv' ap' t1 Hc E.
  assert (X := mk_phase 0 d M (mscale c M) c nm ps iv ap nm' ps' iv' ap' Hc).
  rewrite E in X. destruct (mk_unitary 0 d (Some (square d (mscale c M))) nm' ps' iv' ap') as [t2|e].
  - destruct X as (D1 & D2 & P). { rewrite !clean_id by apply eps_clean_0. reflexivity. }
    exists t2. split; [reflexivity|]. split; [congruence|]. rewrite D1. split; [exact P|]. left; split; apply eps_clean_0.
  - exfalso. apply X. rewrite !clean_id by apply eps_clean_0. reflexivity.
Qed.
Theorem small_phase : forall eps d M c nm ps iv ap nm' ps' iv' ap' t1, d = 2%nat \/ d = 4%nat -> cpow c 4 = 1 ->
  mk_unitary eps d (Some (square d M)) nm ps iv ap = Ok t1 ->
  exists t2, mk_unitary eps d (Some (square d (mscale c M))) nm' ps' iv' ap' = Ok t2 /\ phase_twins eps t1 t2.
Proof.
  intros eps d M c nm ps iv ap nm' ps' iv' ap' t1 HD H4 E.
  assert (Q : quarter c) by (apply quarter_root; auto).
  assert (Hc : Cmod c = 1%R).
  { destruct Q as [->|[->|[->| ->]]]; rewrite ?Cmod_opp, ?Cmod_1; auto; unfold Cmod, Ci; cbn [fst snd];
      replace (0 ^ 2 + 1 ^ 2)%R with 1%R by ring; apply sqrt_1. }
  assert (KK : meq d (clean eps (mscale c M)) (mscale c (clean eps M))).
  { intros i j _ _. unfold clean, mscale. now apply clean_quarter. }
  assert (X := mk_phase eps d M (mscale c M) c nm ps iv ap nm' ps' iv' ap' Hc KK).
  rewrite E in X. destruct (mk_unitary eps d (Some (square d (mscale c M))) nm' ps' iv' ap') as [t2|e] eqn:E2; [|contradiction].
  destruct X as (D1 & D2 & P). exists t2. split; [reflexivity|]. split; [congruence|]. rewrite D1. split; [exact P|].
  right. split; [repeat eexists; exact E|]. split; [repeat eexists; exact E2|exact HD].
Qed.
