(** The library's parameterised gates depend continuously on their parameters. *)
From Coq Require Import Reals List Arith Bool String ZArith Lra Lia.
From Coquelicot Require Import Coquelicot.
From Verif Require Import Base CMat CMatFacts Det DetFacts Norms CRoot Expm ExpmFacts ExpmBounds ModelUnitary ModelEntry
  ModelPrimitive ModelSequence ModelCompiler ModelVerification ModelGates ModelHamiltonian Spec SpecModel
  SpecCompiler SpecGates SpecHamiltonian PUnitary PUnitaryProps PDrift PEmbed PEntry PSu2 PSeqNear PCompProps PGates PGms PFamilies PHam PHamTerm PHamRun
  PDecimalOp SpecChain SpecFloor.
Import ListNotations.
Open Scope R_scope.
Set Bullet Behavior "Strict Subproofs".

Lemma family_continuous pu (F : list R -> mat) K : 0 <= K ->
  (forall vs M, in_range (pu_params pu) vs -> pu_matrix pu vs = Ok (square (pu_dim pu) M) -> phase_eq (pu_dim pu) M (F vs)) ->
  (forall vs vs' d, in_range (pu_params pu) vs -> in_range (pu_params pu) vs' -> 0 < d < 1 -> Forall2 (fun v v' => Rabs (v' - v) < d) vs vs' ->
     fro (pu_dim pu) (mminus (F vs') (F vs)) <= K * d) ->
  continuous_family pu.
Proof.
  intros HK H1 H2 vs M HV HM e He. destruct (H1 vs M HV HM) as (z & Hz & EM).
  exists (Rmin (1 / 2) (e / (K + 1))). assert (P : 0 < e / (K + 1)) by (apply Rdiv_lt_0_compat; lra).
  assert (A := Rmin_l (1 / 2) (e / (K + 1))). assert (B := Rmin_r (1 / 2) (e / (K + 1))).
  assert (D : 0 < Rmin (1 / 2) (e / (K + 1))) by (apply Rmin_glb_lt; lra). split; auto.
  assert (X : Rmin (1 / 2) (e / (K + 1)) < 1) by lra.
  intros vs' M' HV' HF HM'. destruct (H1 vs' M' HV' HM') as (z' & Hz' & EM').
  assert (C0 : z <> RtoC 0) by (intros ->; rewrite Cmod_0 in Hz; lra).
  exists (z' / z)%C. split; [rewrite Cmod_div, Hz, Hz'; [field|auto]|]. intros i j Hi Hj. rewrite (EM' i j Hi Hj), (EM i j Hi Hj). unfold mscale.
  replace (z' * F vs' i j - z' / z * (z * F vs i j))%C with (z' * mminus (F vs') (F vs) i j)%C by (unfold mminus; field; auto).
  rewrite Cmod_mult, Hz', Rmult_1_l. eapply Rle_lt_trans; [now apply (fro_entry (pu_dim pu))|].
  eapply Rle_lt_trans; [apply (H2 vs vs' _ HV HV' (conj D X) HF)|].
  eapply Rle_lt_trans; [apply Rmult_le_compat_l; [exact HK|exact B]|].
  replace (K * (e / (K + 1))) with (e - e / (K + 1)) by (field; lra). lra.
Qed.

Lemma phase_refl d A B : meq d A B -> phase_eq d A B.
Proof. intros H. exists (RtoC 1). split; [apply Cmod_1|]. now rewrite mscale_1. Qed.

(** The matrix of a gate of the library. *)
Lemma stored_phase d r A nm ps B M : (0 < d)%nat -> r = mk_unitary 0 d (Some (square d A)) nm ps false [] -> meq d A B -> unitary_mx d B ->
  matrix_of r = Ok (square d M) -> phase_eq d M B.
Proof.
  intros Hd -> E U H. assert (UA : unitary_mx d A) by (eapply unitary_meq; [symmetry; exact E|exact U]).
  destruct (mk_unitary_exact 0 d A nm ps false [] Hd UA (eps_clean_0 _ _)) as (u & Eu & Du & _ & _ & _ & _ & Mu & Cu & _).
  rewrite Eu in H. unfold matrix_of in H. cbn [bind] in H. injection H as _ _ HM. exists (croot d (/ det d A)%C). split; auto.
  rewrite <- HM, Mu. intros i j Hi Hj. unfold mscale. now rewrite (E i j Hi Hj).
Qed.

Lemma xy_continuous : forall pu, pd_rotation_xy 0 = Ok pu -> continuous_family pu.
Proof.
  intros pu H. unfold pd_rotation_xy in H. rewrite !angle_ok in H by reflexivity. injection H as <-.
  apply (family_continuous _ (fun vs => rotation (cos (nth 1 vs 0)) (sin (nth 1 vs 0)) 0 (nth 0 vs 0)) (sqrt 2 * 2)); cbn [pu_params pu_dim pu_matrix].
  - assert (X := sqrt_pos 2). lra.
  - intros vs M H HM. inversion H as [|? t ? ? Ht T]; subst. inversion T as [|? p ? ? Hp T']; subst. inversion T'; subst. cbn [nth rotation_xy_matrix] in *.
    eapply (stored_phase 2 (g_rphi 0 t p)); [lia|unfold g_rphi; reflexivity|apply rphi_matrix|apply rotation_special, unit_xy|exact HM].
  - intros vs vs' d H H' Hd HF. inversion H as [|? t ? ? Ht T]; subst. inversion T as [|? p ? ? Hp T']; subst. inversion T'; subst.
    inversion HF as [|? t' ? ? Ht' U]; subst. inversion U as [|? p' ? ? Hp' U']; subst. inversion U'; subst. cbn [nth].
    eapply Rle_trans; [apply rotation_xy_turn|]. rewrite Rmult_assoc. apply Rmult_le_compat_l; [apply sqrt_pos|]. lra.
Qed.

Lemma xyz_continuous : forall pu, pd_rotation_xyz = Ok pu -> continuous_family pu.
Proof.
  intros pu H. unfold pd_rotation_xyz in H. rewrite !angle_ok in H by reflexivity. injection H as <-.
  apply (family_continuous _ (fun vs => euler (nth 0 vs 0) (nth 1 vs 0) (nth 2 vs 0)) (sqrt 2 * 2)); cbn [pu_params pu_dim pu_matrix].
  - assert (X := sqrt_pos 2). lra.
  - intros vs M H HM. inversion H as [|? a ? ? Ha T]; subst. inversion T as [|? b ? ? Hb T']; subst.
    inversion T' as [|? c ? ? Hc T2]; subst. inversion T2; subst. cbn [nth rotation_xyz_matrix] in *. apply phase_refl.
    injection HM as HM. rewrite <- HM. apply xyz_matrix.
  - intros vs vs' d H H' Hd HF. inversion H as [|? a ? ? Ha T]; subst. inversion T as [|? b ? ? Hb T']; subst.
    inversion T' as [|? c ? ? Hc T2]; subst. inversion T2; subst.
    inversion HF as [|? a' ? ? Ha' U]; subst. inversion U as [|? b' ? ? Hb' U']; subst. inversion U' as [|? c' ? ? Hc' U2]; subst. inversion U2; subst. cbn [nth].
    eapply Rle_trans; [apply euler_turn|]. rewrite Rmult_assoc. apply Rmult_le_compat_l; [apply sqrt_pos|]. lra.
Qed.

Lemma xx_continuous : forall pu, pd_xx 0 = Ok pu -> continuous_family pu.
Proof.
  intros pu H. unfold pd_xx in H. rewrite !angle_ok in H by reflexivity. injection H as <-.
  apply (family_continuous _ (fun vs => xx_coupling (nth 0 vs 0)) 2); cbn [pu_params pu_dim pu_matrix].
  - lra.
  - intros vs M H HM. inversion H as [|? t ? ? Ht T]; subst. inversion T; subst. cbn [nth xx_matrix] in *.
    eapply (stored_phase 4 (g_xx 0 t)); [lia|unfold g_xx; reflexivity|apply xx_matrix_eq|apply xx_special|exact HM].
  - intros vs vs' d H H' Hd HF. inversion H as [|? t ? ? Ht T]; subst. inversion T; subst.
    inversion HF as [|? t' ? ? Ht' U]; subst. inversion U; subst. cbn [nth]. eapply Rle_trans; [apply coupling_turn|]. lra.
Qed.

Lemma couplings_turn n s t L : List.Forall (pair_ok n) L ->
  fro (2 ^ n) (mminus (couplings n s L) (couplings n t L)) <= INR (List.length L) * (sqrt (INR (2 ^ n)) * (2 * Rabs (s - t))).
Proof.
  intros H. induction H as [|p L Hp HL IH].
  - cbn [couplings fold_right List.length INR]. rewrite Rmult_0_l. right. rewrite <- (fro_mzero (2 ^ n)). apply fro_proper. intros i j _ _. unfold mminus, mzero. ring.
  - change (couplings n s (p :: L)) with (mmul (2 ^ n) (coupling n s p) (couplings n s L)). change (couplings n t (p :: L)) with (mmul (2 ^ n) (coupling n t p) (couplings n t L)).
    eapply Rle_trans; [apply fro_minus_triangle with (B := mmul (2 ^ n) (coupling n s p) (couplings n t L))|].
    assert (A : fro (2 ^ n) (mminus (mmul (2 ^ n) (coupling n s p) (couplings n s L)) (mmul (2 ^ n) (coupling n s p) (couplings n t L))) = fro (2 ^ n) (mminus (couplings n s L) (couplings n t L))).
    { rewrite <- (fro_unitary_l (2 ^ n) (coupling n s p) (mminus (couplings n s L) (couplings n t L))) by (now apply (coupling_special n s p)). apply fro_proper. now rewrite mmul_mminus_r. }
    assert (B : fro (2 ^ n) (mminus (mmul (2 ^ n) (coupling n s p) (couplings n t L)) (mmul (2 ^ n) (coupling n t p) (couplings n t L))) = fro (2 ^ n) (mminus (coupling n s p) (coupling n t p))).
    { rewrite <- (fro_unitary_r (2 ^ n) (couplings n t L) (mminus (coupling n s p) (coupling n t p))) by (now apply (couplings_special n t L)). apply fro_proper. now rewrite mmul_mminus_l. }
    rewrite A, B. cbn [List.length]. rewrite S_INR, Rmult_plus_distr_r, Rmult_1_l. apply Rplus_le_compat; [exact IH|].
    unfold coupling. rewrite embed_fro by (now apply place2). cbn [List.length]. change (2 ^ 2)%nat with 4%nat.
    apply Rmult_le_compat; [apply sqrt_pos|apply fro_nonneg| |apply coupling_turn].
    apply sqrt_le_1_alt, le_INR. apply Nat.pow_le_mono_r; lia.
Qed.

Lemma gms_continuous : forall n pu, pd_gms 0 n = Ok pu -> continuous_family pu.
Proof.
  intros n pu H. unfold pd_gms in H. rewrite !angle_ok in H by reflexivity. cbn [bind] in H. unfold mk_punitary in H.
  destruct (Nat.ltb 0 (2 ^ n)); [|discriminate]. cbn [assert bind] in H. injection H as <-.
  apply (family_continuous _ (fun vs => global_coupling n (nth 0 vs 0)) (INR (List.length (all_pairs n)) * (sqrt (INR (2 ^ n)) * 2))); cbn [pu_params pu_dim pu_matrix].
  - apply Rmult_le_pos; [apply pos_INR|]. assert (X := sqrt_pos (INR (2 ^ n))). lra.
  - intros vs M H HM. inversion H as [|? t ? ? Ht T]; subst. inversion T; subst. cbn [nth gms_matrix] in *.
    destruct (gms_lemma 0 n (n * n + 2) t ltac:(assert (B := gms_count n); lia) (proj1 (drift_0 n (n * n + 2))) (eps_clean_0 _ _)) as [(u & Eu & D & _ & F) _].
    rewrite Eu in HM. unfold matrix_of in HM. cbn [bind] in HM. injection HM as _ _ HM. apply phase_refl. rewrite <- HM.
    rewrite (proj2 (drift_0 n (n * n + 2))) in F. assert (Z := fro_0 _ _ (Rle_antisym _ _ F (fro_nonneg _ _))). intros i j Hi Hj.
    specialize (Z i j Hi Hj). unfold mminus, mzero in Z. transitivity (u_mat u i j - global_coupling n t i j + global_coupling n t i j)%C; [ring|].
    rewrite Z. ring.
  - intros vs vs' d H H' Hd HF. inversion H as [|? t ? ? Ht T]; subst. inversion T; subst.
    inversion HF as [|? t' ? ? Ht' U]; subst. inversion U; subst. cbn [nth].
    eapply Rle_trans; [exact (couplings_turn n t' t _ (all_pairs_ok n))|]. rewrite !Rmult_assoc.
    apply Rmult_le_compat_l; [apply pos_INR|]. apply Rmult_le_compat_l; [apply sqrt_pos|]. lra.
Qed.

Lemma ev_turn d h s t : hermitian_mx d h -> fro d (mminus (ev d h s) (ev d h t)) <= exp (Rabs (s - t) * fro d h) - 1.
Proof.
  intros HH. assert (U := ev_unitary d h t HH).
  assert (E : fro d (mminus (ev d h s) (ev d h t)) = fro d (mminus (ev d h (s - t)) mid)).
  { rewrite <- (fro_unitary_r d (ev d h t) (mminus (ev d h (s - t)) mid)) by exact U. apply fro_proper.
    rewrite mmul_mminus_l, mmul_1_l, <- ev_add. now replace (s - t + t) with s by ring. }
  rewrite E. eapply Rle_trans; [apply expm_first|]. right. f_equal. f_equal. rewrite !fro_mscale, Cmod_R. f_equal.
  replace (Cmod Ci) with 1; [ring|]. unfold Cmod, Ci. cbn. rewrite Rmult_0_l, Rplus_0_l, !Rmult_1_r. now rewrite sqrt_1.
Qed.

Lemma exp_lip x y : 0 <= x <= y -> exp x - 1 <= x * exp y.
Proof.
  intros H. destruct (Req_dec x 0) as [->|N]; [rewrite exp_0; lra|].
  destruct (MVT_gen exp 0 x exp) as (c & Hc & E).
  - intros z _. apply is_derive_Reals, derivable_pt_lim_exp.
  - intros z _. apply derivable_continuous_pt, derivable_pt_exp.
  - rewrite Rmin_left, Rmax_right in Hc by lra. rewrite exp_0 in E. rewrite E, Rminus_0_r, Rmult_comm. apply Rmult_le_compat_l; [lra|].
    destruct (Rle_lt_or_eq_dec c y ltac:(lra)) as [L|L]; [left; now apply exp_increasing|right; now rewrite L].
Qed.

Lemma evolution_continuous : forall d h t_min t_max sfx pu, (0 < d)%nat -> hermitian_mx d h -> t_min <= t_max ->
  pd_time_evolution 0 d h t_min t_max sfx = Ok pu -> continuous_family pu.
Proof.
  intros d h a b sfx pu Hd HH Hab H. rewrite (pd_te_ok 0 d h a b sfx Hd HH Hab) in H. injection H as <-.
  assert (P := fro_nonneg d h). assert (Q := exp_pos (fro d h)).
  apply (family_continuous _ (fun vs => ev d h (nth 0 vs 0)) (fro d h * exp (fro d h))); cbn [pu_params pu_dim pu_matrix].
  - apply Rmult_le_pos; lra.
  - intros vs M H HM. inversion H as [|? t ? ? Ht T]; subst. inversion T; subst. cbn [nth evolution_matrix] in *.
    destruct (te_exact d h t sfx Hd HH) as (u & c & Eu & Du & Hc & _ & Mu). rewrite Eu in HM. cbn [bind] in HM. injection HM as _ _ HM.
    exists c. split; auto. now rewrite <- HM.
  - intros vs vs' e H H' He HF. inversion H as [|? t ? ? Ht T]; subst. inversion T; subst.
    inversion HF as [|? t' ? ? Ht' U]; subst. inversion U; subst. cbn [nth].
    eapply Rle_trans; [now apply ev_turn|]. assert (A := Rabs_pos (t' - t)). set (r := Rabs (t' - t)) in *.
    assert (B : 0 <= r * fro d h <= fro d h) by (split; [apply Rmult_le_pos; lra|]; rewrite <- (Rmult_1_l (fro d h)) at 2; apply Rmult_le_compat_r; lra).
    eapply Rle_trans; [apply (exp_lip _ _ B)|]. replace (fro d h * exp (fro d h) * e) with (e * fro d h * exp (fro d h)) by ring.
    apply Rmult_le_compat_r; [lra|]. apply Rmult_le_compat_r; lra.
Qed.

Lemma C98_library_lemma :
  (forall pu, pd_rotation_xy 0 = Ok pu -> continuous_source (Family pu)) /\
  (forall pu, pd_rotation_xyz = Ok pu -> continuous_source (Family pu)) /\
  (forall pu, pd_xx 0 = Ok pu -> continuous_source (Family pu)) /\
  (forall n pu, pd_gms 0 n = Ok pu -> continuous_source (Family pu)) /\
  (forall d h t_min t_max sfx pu, (0 < d)%nat -> hermitian_mx d h -> t_min <= t_max ->
     pd_time_evolution 0 d h t_min t_max sfx = Ok pu -> continuous_source (Family pu)).
Proof.
  split; [exact xy_continuous|]. split; [exact xyz_continuous|]. split; [exact xx_continuous|]. split; [exact gms_continuous|exact evolution_continuous].
Qed.
