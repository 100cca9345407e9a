(** Proofs about the estimators of the paper's notebooks: comparisons, the simulation of
    figure 4, the default sums. *)
From Coq Require Import Reals List Arith Bool Lia Lra Psatz.
From Coquelicot Require Import Complex.
From Verif Require Import Base CMat CMatFacts DetFacts Norms PDrift ModelPaper SpecPaper PPaper.
Import ListNotations.
Open Scope R_scope.

(** ** The default sums *)
Lemma default_sums_lemma : forall d p, distribution d p ->
  ~ (power_sum d p 2 = 1 / 2 /\ power_sum d p 3 = 1 / 3 /\ power_sum d p 4 = 1 / 4).
Proof.
  intros d p D [_ [E3 E4]].
  (* the largest probability is at least 3/4 ... *)
  assert (X : exists k, (k < d)%nat /\ 3 / 4 <= p k).
  { destruct (Exists_dec (fun k => 3 / 4 <= p k) (seq 0 d)) as [H | H].
    - intros k. apply Rle_dec.
    - apply Exists_exists in H. destruct H as [k [Hk H]]. apply in_seq in Hk. exists k. split; [lia | exact H].
    - exfalso.
      assert (B : power_sum d p 4 <= 3 / 4 * power_sum d p 3).
      { unfold power_sum. rewrite <- rsum_mult_l. apply rsum_le. intros k Hk.
        assert (0 <= p k) by (apply D; exact Hk).
        assert (p k <= 3 / 4).
        { left. apply Rnot_le_lt. intros G. apply H. apply Exists_exists. exists k.
          split; [apply in_seq; lia | exact G]. }
        replace (p k ^ 4) with (p k * p k ^ 3) by ring.
        apply Rmult_le_compat_r; [apply pow_le; assumption | assumption]. }
      assert (B' : power_sum d p 4 < 3 / 4 * power_sum d p 3 \/ power_sum d p 4 = 3 / 4 * power_sum d p 3) by lra.
      destruct B' as [B' | B']; [rewrite E3, E4 in B'; lra |].
      (* equality: every p k is 0 or 3/4 *)
      assert (Z : rsum d (fun k => p k ^ 3 * (3 / 4 - p k)) = 0).
      { rewrite (rsum_ext d _ (fun k => 3 / 4 * p k ^ 3 - p k ^ 4)) by (intros; ring).
        rewrite rsum_minus, rsum_mult_l. unfold power_sum in B'. lra. }
      assert (Y : forall k, (k < d)%nat -> p k = 0).
      { intros k Hk.
        assert (LT : forall j, (j < d)%nat -> p j < 3 / 4).
        { intros j Hj. apply Rnot_le_lt. intros G. apply H. apply Exists_exists. exists j.
          split; [apply in_seq; lia | exact G]. }
        assert (T : p k ^ 3 * (3 / 4 - p k) = 0).
        { apply Rle_antisym.
          - rewrite <- Z. apply (rsum_term_le d (fun k => p k ^ 3 * (3 / 4 - p k)) k); [| exact Hk].
            intros j Hj. specialize (LT j Hj). apply Rmult_le_pos; [apply pow_le; apply D; exact Hj | lra].
          - specialize (LT k Hk). apply Rmult_le_pos; [apply pow_le; apply D; exact Hk | lra]. }
        apply Rmult_integral in T. destruct T as [T | T]; [| specialize (LT k Hk); lra].
        destruct (Req_dec (p k) 0) as [E | N]; [exact E |]. exfalso. revert T. apply pow_nonzero. exact N. }
      assert (S := proj2 D). rewrite (rsum_ext d p (fun _ => 0)) in S by exact Y.
      rewrite rsum_const in S. lra. }
  (* ... and so the sum of the fourth powers exceeds 1/4. *)
  destruct X as [k [Hk H]].
  assert (T : p k ^ 4 <= power_sum d p 4).
  { apply (rsum_term_le d (fun k => p k ^ 4) k); [| exact Hk]. intros j Hj. apply pow_le. apply D. exact Hj. }
  assert (p k ^ 4 >= (3 / 4) ^ 4) by (apply Rle_ge; apply pow_incr; lra).
  rewrite E4 in T. lra.
Qed.

Lemma default_two_lemma : forall K lam, std_f_xeb_default K 2 lam = None.
Proof.
  intros K lam. unfold std_f_xeb_default, std_f_xeb.
  replace (1 / 2 * 2 - 1) with 0 by field.
  destruct (np_div 1 K); [| reflexivity]. unfold np_div at 1.
  destruct (Req_EM_T 0 0); [reflexivity | congruence].
Qed.

Lemma figure3_lemma : forall K N lam, 0 < K -> 4 <= N -> 0 <= lam <= 1 ->
  exists a b, std_f_rav K N lam eps_default = Some a /\ std_f_xeb_default K N lam = Some b /\ a <= b.
Proof.
  intros K N lam HK HN L.
  set (u := lam / N).
  assert (U : 0 <= u <= 1 / 4).
  { unfold u. split.
    - apply Rmult_le_pos; [lra | left; apply Rinv_0_lt_compat; lra].
    - apply (Rmult_le_reg_r N); [lra |]. unfold Rdiv at 1. rewrite Rmult_assoc, Rinv_l, Rmult_1_r by lra. lra. }
  assert (Ul : u <= lam).
  { unfold u. apply (Rmult_le_reg_r N); [lra |]. unfold Rdiv. rewrite Rmult_assoc, Rinv_l, Rmult_1_r by lra. nra. }
  set (A := (1 - lam) * (1 - eps_default) + u).
  set (B := 1 / 2 * (u - u ^ 2) + 1 / 3 * (1 - lam) * (1 - 2 * lam / N) - 1 / 4 * (1 - lam) ^ 2).
  assert (EB : 1 - 2 * lam / N = 1 - 2 * u) by (unfold u; field; lra).
  assert (HA : 0 <= A <= 1).
  { unfold A, eps_default. split; nra. }
  assert (HB : A * (1 - A) <= (192 / 100) ^ 2 * B).
  { unfold A, B, eps_default. rewrite EB.
    assert (Q : 0 <= 8432 / 10000 * (u * (1 - u)) + 2688 / 10000 * ((1 - lam) * (1 - 2 * u))).
    { assert (0 <= u * (1 - u)) by (apply Rmult_le_pos; lra).
      assert (0 <= (1 - lam) * (1 - 2 * u)) by (apply Rmult_le_pos; lra). lra. }
    nra. }
  assert (PA : 0 <= A * (1 - A)) by (apply Rmult_le_pos; lra).
  set (s := N / (N * (1 - eps_default) - 1)). set (t := N / (1 / 2 * N - 1)).
  assert (Ds : 0 < N * (1 - eps_default) - 1) by (unfold eps_default; lra).
  assert (Dt : 0 < 1 / 2 * N - 1) by lra.
  assert (Hst : 0 <= 192 / 100 * s <= t).
  { unfold s, t. split.
    - apply Rmult_le_pos; [lra |]. apply Rmult_le_pos; [lra | left; apply Rinv_0_lt_compat; exact Ds].
    - apply (Rmult_le_reg_r (1 / 2 * N - 1)); [exact Dt |].
      replace (N / (1 / 2 * N - 1) * (1 / 2 * N - 1)) with N by (field; lra).
      apply (Rmult_le_reg_r (N * (1 - eps_default) - 1)); [exact Ds |].
      replace (192 / 100 * (N / (N * (1 - eps_default) - 1)) * (1 / 2 * N - 1) * (N * (1 - eps_default) - 1))
        with (192 / 100 * N * (1 / 2 * N - 1)) by (field; lra).
      unfold eps_default. nra. }
  assert (Hs2 : s ^ 2 * (A * (1 - A)) <= t ^ 2 * B).
  { apply Rle_trans with (s ^ 2 * ((192 / 100) ^ 2 * B)).
    - apply Rmult_le_compat_l; [apply pow2_ge_0 | exact HB].
    - assert (0 <= B) by lra.
      replace (s ^ 2 * ((192 / 100) ^ 2 * B)) with ((192 / 100 * s) ^ 2 * B) by ring.
      apply Rmult_le_compat_r; [assumption |]. apply pow_incr. exact Hst. }
  assert (Kp : 0 < 1 / K) by (apply Rdiv_lt_0_compat; lra).
  assert (P1 : 0 <= 1 / K * s ^ 2 * A * (1 - A)).
  { replace (1 / K * s ^ 2 * A * (1 - A)) with (1 / K * (s ^ 2 * (A * (1 - A)))) by ring.
    apply Rmult_le_pos; [lra |]. apply Rmult_le_pos; [apply pow2_ge_0 | exact PA]. }
  assert (P2 : 1 / K * s ^ 2 * A * (1 - A) <= 1 / K * t ^ 2 * B).
  { replace (1 / K * s ^ 2 * A * (1 - A)) with (1 / K * (s ^ 2 * (A * (1 - A)))) by ring.
    replace (1 / K * t ^ 2 * B) with (1 / K * (t ^ 2 * B)) by ring.
    apply Rmult_le_compat_l; [lra | exact Hs2]. }
  exists (sqrt (1 / K * s ^ 2 * A * (1 - A))), (sqrt (1 / K * t ^ 2 * B)).
  split; [| split].
  - unfold std_f_rav. rewrite !np_div_some by lra. fold s u.
    replace (1 - (1 - lam) * (1 - eps_default) - u) with (1 - A) by (unfold A; ring). fold A.
    apply np_sqrt_some. exact P1.
  - unfold std_f_xeb_default, std_f_xeb. rewrite !np_div_some by lra. fold t u B.
    apply np_sqrt_some. lra.
  - apply sqrt_le_1_alt. exact P2.
Qed.

(** ** RAV and XEB compared *)
Lemma rav_var d K r i lam F : (0 < K)%nat -> distribution d r -> (i < d)%nat -> r i <> 1 / INR d ->
  0 <= lam <= 1 ->
  (forall l, shots_of d K l -> exists m, measured_prob l i = Some m /\ rav_fidelity d m (r i) = Some (F l)) ->
  shots_var d (output_probs d r lam) K F =
  ((1 - lam) * r i + lam / INR d) * (1 - ((1 - lam) * r i + lam / INR d)) / (r i - 1 / INR d) ^ 2 / INR K.
Proof.
  intros HK D Hi Hr L HF. set (q := output_probs d r lam).
  assert (Dq : distribution d q) by (apply mix_distribution; assumption).
  assert (Hd : 0 < INR d) by (apply lt_0_INR; lia).
  assert (HK' : 0 < INR K) by (apply lt_0_INR; lia).
  assert (Hx : r i - 1 / INR d <> 0) by lra.
  assert (Hx' : INR d * r i - 1 <> 0).
  { intros E. apply Hx. apply (Rmult_eq_reg_l (INR d)); [| lra]. field_simplify; lra. }
  destruct (estimator d q (proj2 Dq) (ind i) K (/ (r i - 1 / INR d))
              (- (1 / INR d) / (r i - 1 / INR d)) F HK) as [M V].
  { intros l Hl. destruct (HF l Hl) as [m [Hm E]]. rewrite (measured_some d K l i HK Hl) in Hm.
    injection Hm as <-. unfold rav_fidelity in E. rewrite np_div_some in E by exact Hx. injection E as <-.
    field. nz. }
  rewrite V, variance_alt by exact (proj2 Dq).
  rewrite (rsum_ext d (fun k => q k * ind i k ^ 2) (fun k => q k * ind i k))
    by (intros k _; unfold ind; destruct (Nat.eqb k i); ring).
  rewrite (rsum_ind d i q Hi). unfold q, output_probs. field. nz.
Qed.

Lemma xeb_var d K p lam G : (0 < K)%nat -> distribution d p -> power_sum d p 2 <> 1 / INR d ->
  0 <= lam <= 1 ->
  (forall l, shots_of d K l -> exists m, (forall k, (k < d)%nat -> measured_prob l k = Some (m k)) /\
     xeb_fidelity d p m = Some (G l)) ->
  shots_var d (output_probs d p lam) K G =
  ((1 - lam) * (power_sum d p 3 - power_sum d p 2 ^ 2) / (power_sum d p 2 - 1 / INR d) ^ 2 +
   lam / (INR d * (power_sum d p 2 - 1 / INR d)) + lam * (1 - lam)) / INR K.
Proof.
  intros HK D Hx L HG. set (q := output_probs d p lam).
  assert (Dq : distribution d q) by (apply mix_distribution; assumption).
  assert (Hdn := dist_pos d p D).
  assert (Hd : 0 < INR d) by (apply lt_0_INR; lia).
  assert (HK' : 0 < INR K) by (apply lt_0_INR; lia).
  set (S2 := power_sum d p 2) in *. set (S3 := power_sum d p 3).
  assert (Hx0 : S2 - 1 / INR d <> 0) by lra.
  assert (Hx' : S2 * INR d - 1 <> 0).
  { intros E. apply Hx0. apply (Rmult_eq_reg_l (INR d)); [| lra]. field_simplify; lra. }
  destruct (estimator d q (proj2 Dq) p K (/ (S2 - 1 / INR d))
              (- (1 / INR d) / (S2 - 1 / INR d)) G HK) as [M V].
  { intros l Hl. destruct (HG l Hl) as [m [Hm E]]. unfold xeb_fidelity in E. fold S2 in E.
    rewrite (proj2 D) in E. rewrite np_div_some in E by (apply pow_nonzero; exact Hx0).
    rewrite (rsum_ext d (fun k => p k * m k) (fun k => p k * np_sum (map (ind k) l) * / INR K)) in E.
    - rewrite rsum_mult_r, rsum_swap_list in E by (apply Hl). injection E as <-. field. nz.
    - intros k Hk. specialize (Hm k Hk). rewrite (measured_some d K l k HK Hl) in Hm. injection Hm as <-.
      unfold Rdiv. ring. }
  rewrite V, variance_alt by exact (proj2 Dq).
  assert (E1 : rsum d (fun k => q k * p k) = (1 - lam) * S2 + lam / INR d).
  { rewrite (rsum_ext d _ (fun k => (1 - lam) * p k ^ 2 + lam / INR d * p k)).
    - rewrite rsum_plus, !rsum_mult_l, (proj2 D). unfold S2, power_sum. ring.
    - intros k _. unfold q, output_probs. field. lra. }
  assert (E2 : rsum d (fun k => q k * p k ^ 2) = (1 - lam) * S3 + lam / INR d * S2).
  { rewrite (rsum_ext d _ (fun k => (1 - lam) * p k ^ 3 + lam / INR d * p k ^ 2)).
    - rewrite rsum_plus, !rsum_mult_l. reflexivity.
    - intros k _. unfold q, output_probs. field. lra. }
  rewrite E1, E2. field. nz.
Qed.

Lemma power2_ge d p : distribution d p -> 1 / INR d <= power_sum d p 2 <= 1.
Proof.
  intros D. assert (Hdn := dist_pos d p D). assert (Hd : 0 < INR d) by (apply lt_0_INR; lia). split.
  - assert (Z : 0 <= rsum d (fun k => (p k - 1 / INR d) ^ 2)) by (apply rsum_nonneg; intros; apply pow2_ge_0).
    rewrite (rsum_ext d _ (fun k => p k ^ 2 - (2 * (1 / INR d) * p k - (1 / INR d) ^ 2))) in Z by (intros; ring).
    rewrite !rsum_minus, rsum_mult_l, rsum_const, (proj2 D) in Z. unfold power_sum.
    replace (INR d * (1 / INR d) ^ 2) with (1 / INR d) in Z by (field; lra). lra.
  - unfold power_sum. rewrite <- (proj2 D). apply rsum_le. intros k Hk.
    assert (0 <= p k) by (apply D; exact Hk). assert (p k <= 1) by (apply (dist_le1 d); assumption).
    simpl. rewrite Rmult_1_r. rewrite <- (Rmult_1_r (p k)) at 3. apply Rmult_le_compat_l; assumption.
Qed.

Lemma power3_ge d p : distribution d p -> power_sum d p 2 ^ 2 <= power_sum d p 3.
Proof.
  intros D. set (S2 := power_sum d p 2).
  assert (Z : 0 <= rsum d (fun k => p k * (p k - S2) ^ 2)).
  { apply rsum_nonneg. intros k Hk. apply Rmult_le_pos; [apply D; exact Hk | apply pow2_ge_0]. }
  rewrite (rsum_ext d _ (fun k => p k ^ 3 - (2 * S2 * p k ^ 2 - S2 ^ 2 * p k))) in Z by (intros; ring).
  rewrite !rsum_minus, !rsum_mult_l, (proj2 D) in Z. unfold S2 in Z at 2. unfold power_sum in *. fold S2 in Z.
  unfold S2 in *. lra.
Qed.

Lemma compare_lemma : forall d K r i p lam F G,
  (0 < K)%nat -> (2 <= d)%nat -> distribution d r -> (i < d)%nat -> r i = 1 ->
  distribution d p -> power_sum d p 2 <> 1 / INR d -> 0 <= lam <= 1 ->
  (forall l, shots_of d K l -> exists m, measured_prob l i = Some m /\ rav_fidelity d m (r i) = Some (F l)) ->
  (forall l, shots_of d K l -> exists m, (forall k, (k < d)%nat -> measured_prob l k = Some (m k)) /\
     xeb_fidelity d p m = Some (G l)) ->
  shots_var d (output_probs d r lam) K F <= shots_var d (output_probs d p lam) K G.
Proof.
  intros d K r i p lam F G HK Hd2 Dr Hi Hr Dp Hx L HF HG.
  assert (Hd : 2 <= INR d) by (apply le_INR in Hd2; exact Hd2).
  assert (HK' : 0 < INR K) by (apply lt_0_INR; lia).
  assert (H1d : 0 < 1 / INR d <= 1 / 2).
  { split; [apply Rdiv_lt_0_compat; lra |]. unfold Rdiv. rewrite !Rmult_1_l. apply Rinv_le_contravar; lra. }
  rewrite (rav_var d K r i lam F), (xeb_var d K p lam G); try assumption; [| lra].
  rewrite Hr. assert (B2 := power2_ge d p Dp). assert (B3 := power3_ge d p Dp).
  set (S2 := power_sum d p 2) in *. set (S3 := power_sum d p 3) in *.
  apply Rmult_le_compat_r; [left; apply Rinv_0_lt_compat; exact HK' |].
  replace (((1 - lam) * 1 + lam / INR d) * (1 - ((1 - lam) * 1 + lam / INR d)) / (1 - 1 / INR d) ^ 2)
    with (0 + lam / (INR d * (1 - 1 / INR d)) + lam * (1 - lam)).
  2:{ field. split; [| lra]. intros E. lra. }
  apply Rplus_le_compat_r. apply Rplus_le_compat.
  - apply Rmult_le_pos; [apply Rmult_le_pos; lra |]. left. apply Rinv_0_lt_compat.
    assert (0 < S2 - 1 / INR d) by lra. apply pow_lt. assumption.
  - apply Rmult_le_compat_l; [lra |]. apply Rinv_le_contravar.
    + apply Rmult_lt_0_compat; lra.
    + apply Rmult_le_compat_l; lra.
Qed.
