(** Facts about the matrix exponential. *)
From Coq Require Import Reals List Arith Lia Lra Setoid Morphisms.
From Coquelicot Require Import Coquelicot.
From Verif Require Import CMat CMatFacts Det DetFacts Norms Expm.
Open Scope R_scope.
Open Scope C_scope.

(** ** Complex series *)
Definition cseries (f : nat -> C) (l : C) : Prop :=
  is_series (fun k => fst (f k)) (fst l) /\ is_series (fun k => snd (f k)) (snd l).

Lemma cseries_unique f l l' : cseries f l -> cseries f l' -> l = l'.
Proof.
  intros [H1 H2] [H3 H4]. apply C_eq.
  - apply is_series_unique in H1. apply is_series_unique in H3. congruence.
  - apply is_series_unique in H2. apply is_series_unique in H4. congruence.
Qed.

Lemma cseries_ext f g l : (forall k, f k = g k) -> cseries f l -> cseries g l.
Proof.
  intros E [H1 H2]. split; [eapply is_series_ext; [|exact H1]|eapply is_series_ext; [|exact H2]];
    intros k; simpl; now rewrite E.
Qed.

Lemma cseries_plus f g l m : cseries f l -> cseries g m -> cseries (fun k => f k + g k) (l + m).
Proof.
  intros [H1 H2] [H3 H4]. split; simpl.
  - exact (is_series_plus _ _ _ _ H1 H3).
  - exact (is_series_plus _ _ _ _ H2 H4).
Qed.

Lemma cseries_mult c f l : cseries f l -> cseries (fun k => c * f k) (c * l).
Proof.
  intros [H1 H2]. split; simpl.
  - exact (is_series_minus _ _ _ _ (is_series_scal (fst c) _ _ H1) (is_series_scal (snd c) _ _ H2)).
  - exact (is_series_plus _ _ _ _ (is_series_scal (fst c) _ _ H2) (is_series_scal (snd c) _ _ H1)).
Qed.

Lemma cseries_conj f l : cseries f l -> cseries (fun k => Cconj (f k)) (Cconj l).
Proof.
  intros [H1 H2]. split; simpl; [exact H1|]. exact (is_series_opp _ _ H2).
Qed.

Lemma cseries_zero : cseries (fun _ => 0) 0.
Proof.
  assert (H : is_series (fun _ : nat => 0%R) 0%R).
  { unfold is_series. apply filterlim_ext with (f := fun _ : nat => 0%R).
    - intros n. symmetry. rewrite sum_n_const. now rewrite Rmult_0_r.
    - apply filterlim_const. }
  split; exact H.
Qed.

Lemma cseries_csum n (f : nat -> nat -> C) (l : nat -> C) :
  (forall i, (i < n)%nat -> cseries (f i) (l i)) -> cseries (fun k => csum n (fun i => f i k)) (csum n l).
Proof.
  induction n as [|n IH]; intros H; simpl.
  - apply cseries_zero.
  - apply cseries_plus; [apply IH; intros; apply H; lia|]. apply H. lia.
Qed.

(** ** Bounds on powers *)
Lemma fro_mid_mmul n A : fro n (mmul n A mid) = fro n A.
Proof. now rewrite (mmul_1_r n A). Qed.

Lemma fro_mpow n A k : (fro n (mpow n A (S k)) <= fro n A ^ S k)%R.
Proof.
  induction k as [|k IH].
  - simpl. rewrite fro_mid_mmul. lra.
  - change (mpow n A (S (S k))) with (mmul n A (mpow n A (S k))).
    eapply Rle_trans; [apply fro_mmul|].
    change (fro n A ^ S (S k))%R with (fro n A * fro n A ^ S k)%R.
    apply Rmult_le_compat_l; [apply fro_nonneg|exact IH].
Qed.

Lemma mpow_entry n A k i j : (i < n)%nat -> (j < n)%nat -> (Cmod (mpow n A k i j) <= fro n A ^ k)%R.
Proof.
  intros Hi Hj. destruct k as [|k].
  - simpl. unfold mid. destruct (Nat.eqb i j); rewrite ?Cmod_1, ?Cmod_0; lra.
  - eapply Rle_trans; [apply fro_entry; eassumption|]. apply fro_mpow.
Qed.

Lemma fact_pos k : (0 < INR (fact k))%R.
Proof. apply lt_0_INR, lt_O_fact. Qed.

Lemma exp_partial x : (0 <= x)%R -> forall N, (sum_n (fun k => (/ INR (fact k) * x ^ k)%R) N <= exp x)%R.
Proof.
  intros Hx N. assert (H := is_exp_Reals x). apply is_pseries_R in H.
  eapply (is_lim_seq_le (fun _ => sum_n (fun k => (/ INR (fact k) * x ^ k)%R) N)
           (fun M => sum_n (fun k => (/ INR (fact k) * x ^ k)%R) (N + M))%nat
           (sum_n (fun k => (/ INR (fact k) * x ^ k)%R) N) (exp x)).
  - intros M. induction M as [|M IH]; [rewrite Nat.add_0_r; lra|].
    rewrite Nat.add_succ_r, sum_Sn. unfold plus; simpl.
    assert (0 <= / INR (fact (S (N + M))) * x ^ S (N + M))%R.
    { apply Rmult_le_pos; [left; apply Rinv_0_lt_compat, fact_pos|]. now apply pow_le. }
    simpl in *. lra.
  - apply is_lim_seq_const.
  - apply is_lim_seq_ext with (u := fun M => sum_n (fun k => (/ INR (fact k) * x ^ k)%R) (M + N)%nat).
    + intros M. f_equal. lia.
    + apply (is_lim_seq_incr_n (fun M => sum_n (fun k => (/ INR (fact k) * x ^ k)%R) M) N). exact H.
Qed.

Lemma exp_term_le x k : (0 <= x)%R -> (/ INR (fact k) * x ^ k <= exp x)%R.
Proof.
  intros Hx. eapply Rle_trans; [|apply (exp_partial x Hx k)].
  destruct k as [|k]; [rewrite sum_O; lra|].
  rewrite sum_Sn. unfold plus; cbn [AbelianGroup.plus].
  assert (0 <= sum_n (fun k => (/ INR (fact k) * x ^ k)%R) k)%R; [|simpl in *; lra].
  induction k as [|k IH].
  - rewrite sum_O. simpl. lra.
  - rewrite sum_Sn. unfold plus; simpl.
    assert (0 <= / INR (fact (S k)) * x ^ S k)%R; [|simpl in *; lra].
    apply Rmult_le_pos; [left; apply Rinv_0_lt_compat, fact_pos|]. now apply pow_le.
Qed.

(** Coefficients bounded by [M a^k / k!] give an everywhere convergent power series. *)
Lemma cv_infinite (c : nat -> R) a : (0 <= a)%R ->
  (forall k, (Rabs (c k) <= / INR (fact k) * a ^ k)%R) -> CV_radius c = p_infty.
Proof.
  intros Ha Hc. destruct (CV_radius_bounded c) as [H _].
  assert (K : forall r : R, Rbar_le r (CV_radius c)).
  { intros r. apply H. exists (exp (a * Rabs r)). intros k.
    rewrite Rabs_mult, <- RPow_abs.
    eapply Rle_trans; [apply Rmult_le_compat_r; [apply pow_le, Rabs_pos|apply Hc]|].
    rewrite Rmult_assoc, <- Rpow_mult_distr. apply exp_term_le.
    apply Rmult_le_pos; [exact Ha|apply Rabs_pos]. }
  destruct (CV_radius c) as [r| |]; [|reflexivity|exact (False_ind _ (K 0%R))].
  specialize (K (r + 1)%R). simpl in K. lra.
Qed.

(** ** The exponential is the sum of its series *)
Definition cre n A i j (k : nat) : R := (/ INR (fact k) * fst (mpow n A k i j))%R.
Definition cim n A i j (k : nat) : R := (/ INR (fact k) * snd (mpow n A k i j))%R.

Lemma cre_cv n A i j : (i < n)%nat -> (j < n)%nat -> CV_radius (cre n A i j) = p_infty.
Proof.
  intros Hi Hj. apply cv_infinite with (a := fro n A); [apply fro_nonneg|]. intros k. unfold cre.
  assert (P := Rinv_0_lt_compat _ (fact_pos k)).
  rewrite Rabs_mult, (Rabs_right (/ _)) by lra. apply Rmult_le_compat_l; [lra|].
  eapply Rle_trans; [apply Re_le_Cmod|]. now apply mpow_entry.
Qed.

Lemma cim_cv n A i j : (i < n)%nat -> (j < n)%nat -> CV_radius (cim n A i j) = p_infty.
Proof.
  intros Hi Hj. apply cv_infinite with (a := fro n A); [apply fro_nonneg|]. intros k. unfold cim.
  assert (P := Rinv_0_lt_compat _ (fact_pos k)).
  rewrite Rabs_mult, (Rabs_right (/ _)) by lra. apply Rmult_le_compat_l; [lra|].
  eapply Rle_trans; [apply Im_le_Cmod|]. now apply mpow_entry.
Qed.

Lemma mpow_mscale n (t : R) A k : meq n (mpow n (mscale (RtoC t) A) k) (mscale (RtoC (t ^ k)) (mpow n A k)).
Proof.
  induction k as [|k IH].
  - simpl. intros i j _ _. unfold mscale. ring.
  - cbn [mpow]. rewrite IH, mmul_mscale_l, mmul_mscale_r, mscale_mscale.
    change (t ^ S k)%R with (t * t ^ k)%R. now rewrite RtoC_mult.
Qed.

Lemma exp_term_scaled n A (t : R) i j k : (i < n)%nat -> (j < n)%nat ->
  exp_term n (mscale (RtoC t) A) k i j = ((cre n A i j k * t ^ k)%R, (cim n A i j k * t ^ k)%R).
Proof.
  intros Hi Hj. unfold exp_term, mscale at 1. rewrite (mpow_mscale n t A k i j Hi Hj).
  unfold mscale, cre, cim. apply C_eq; simpl; ring.
Qed.

Lemma mpow_meq n A B k : meq n A B -> meq n (mpow n A k) (mpow n B k).
Proof. intros E. induction k as [|k IH]; simpl; [reflexivity|]. now rewrite IH, E. Qed.

Lemma expm_meq n A B : meq n A B -> meq n (expm n A) (expm n B).
Proof.
  intros E i j Hi Hj. unfold expm. f_equal; apply Series_ext; intros k; unfold exp_term, mscale;
    now rewrite (mpow_meq n A B k E i j Hi Hj).
Qed.

#[global] Instance expm_Proper n : Proper (meq n ==> meq n) (expm n).
Proof. intros A B E. now apply expm_meq. Qed.

Lemma scale_one n A : meq n A (mscale (RtoC 1) A).
Proof. symmetry. apply mscale_1. Qed.

Lemma ex_cre n A i j t : (i < n)%nat -> (j < n)%nat -> ex_series (fun k => (cre n A i j k * t ^ k)%R).
Proof.
  intros Hi Hj. apply ex_series_Rabs, CV_disk_inside. now rewrite cre_cv.
Qed.

Lemma ex_cim n A i j t : (i < n)%nat -> (j < n)%nat -> ex_series (fun k => (cim n A i j k * t ^ k)%R).
Proof.
  intros Hi Hj. apply ex_series_Rabs, CV_disk_inside. now rewrite cim_cv.
Qed.

Lemma expm_scaled n A t i j : (i < n)%nat -> (j < n)%nat ->
  expm n (mscale (RtoC t) A) i j = (PSeries (cre n A i j) t, PSeries (cim n A i j) t).
Proof.
  intros Hi Hj. unfold expm, PSeries. f_equal; apply Series_ext; intros k;
    now rewrite exp_term_scaled.
Qed.

Lemma expm_scaled_series n A t i j : (i < n)%nat -> (j < n)%nat ->
  cseries (fun k => exp_term n (mscale (RtoC t) A) k i j) (expm n (mscale (RtoC t) A) i j).
Proof.
  intros Hi Hj. rewrite expm_scaled by assumption.
  apply cseries_ext with (f := fun k => ((cre n A i j k * t ^ k)%R, (cim n A i j k * t ^ k)%R)).
  - intros k. symmetry. now apply exp_term_scaled.
  - split; simpl; apply Series_correct; [now apply ex_cre|now apply ex_cim].
Qed.

Lemma exp_term_meq n A B k : meq n A B -> meq n (exp_term n A k) (exp_term n B k).
Proof. intros E. unfold exp_term. now rewrite (mpow_meq n A B k E). Qed.

Lemma expm_series n A i j : (i < n)%nat -> (j < n)%nat ->
  cseries (fun k => exp_term n A k i j) (expm n A i j).
Proof.
  intros Hi Hj. rewrite (expm_meq n A _ (scale_one n A) i j Hi Hj).
  eapply cseries_ext; [|apply expm_scaled_series; assumption].
  intros k. simpl. symmetry. apply exp_term_meq; [apply scale_one| |]; assumption.
Qed.

Lemma expm_unique n A E : (forall i j, (i < n)%nat -> (j < n)%nat ->
  cseries (fun k => exp_term n A k i j) (E i j)) -> meq n E (expm n A).
Proof.
  intros H i j Hi Hj. eapply cseries_unique; [apply H|apply expm_series]; assumption.
Qed.

Lemma csum_fst N f : fst (csum (S N) f) = sum_n (fun k => fst (f k)) N.
Proof.
  induction N as [|N IH].
  - rewrite sum_O. simpl. ring.
  - rewrite sum_Sn, <- IH. reflexivity.
Qed.
Lemma csum_snd N f : snd (csum (S N) f) = sum_n (fun k => snd (f k)) N.
Proof.
  induction N as [|N IH].
  - rewrite sum_O. simpl. ring.
  - rewrite sum_Sn, <- IH. reflexivity.
Qed.

Lemma div_fact z k : z / RtoC (INR (fact k)) = RtoC (/ INR (fact k)) * z.
Proof.
  unfold Cdiv. rewrite <- RtoC_inv; [ring|]. apply Rgt_not_eq, fact_pos.
Qed.

Lemma cseries_lim f l : cseries f l <->
  (is_lim_seq (fun N => fst (csum N f)) (fst l) /\ is_lim_seq (fun N => snd (csum N f)) (snd l)).
Proof.
  unfold cseries. split; intros [H1 H2]; split.
  - apply is_lim_seq_incr_1. eapply is_lim_seq_ext; [|exact H1]. intros N. symmetry. apply csum_fst.
  - apply is_lim_seq_incr_1. eapply is_lim_seq_ext; [|exact H2]. intros N. symmetry. apply csum_snd.
  - apply is_lim_seq_incr_1 in H1. eapply is_lim_seq_ext in H1; [exact H1|]. intros N. apply csum_fst.
  - apply is_lim_seq_incr_1 in H2. eapply is_lim_seq_ext in H2; [exact H2|]. intros N. apply csum_snd.
Qed.

Lemma is_expm_series n A E : is_expm n A E <->
  (forall i j, (i < n)%nat -> (j < n)%nat -> cseries (fun k => exp_term n A k i j) (E i j)).
Proof.
  unfold is_expm. split; intros H i j Hi Hj.
  - apply cseries_lim. destruct (H i j Hi Hj) as [H1 H2].
    split; [eapply is_lim_seq_ext; [|exact H1]|eapply is_lim_seq_ext; [|exact H2]];
      intros N; simpl; f_equal; apply csum_ext; intros k _; apply div_fact.
  - specialize (H i j Hi Hj). apply cseries_lim in H. destruct H as [H1 H2].
    split; [eapply is_lim_seq_ext; [|exact H1]|eapply is_lim_seq_ext; [|exact H2]];
      intros N; simpl; f_equal; apply csum_ext; intros k _; symmetry; apply div_fact.
Qed.

Lemma is_expm_expm n A : is_expm n A (expm n A).
Proof. apply is_expm_series. intros. now apply expm_series. Qed.

Lemma is_expm_unique n A E : is_expm n A E -> meq n E (expm n A).
Proof. intros H. apply expm_unique. now apply is_expm_series. Qed.

(** ** Derivatives *)
Definition cderiv (f : R -> C) (t : R) (l : C) : Prop :=
  is_derive (fun x => fst (f x)) t (fst l) /\ is_derive (fun x => snd (f x)) t (snd l).
Definition mderiv (n : nat) (F : R -> mat) (t : R) (L : mat) : Prop :=
  forall i j, (i < n)%nat -> (j < n)%nat -> cderiv (fun x => F x i j) t (L i j).

Lemma cderiv_ext f g t l : (forall x, f x = g x) -> cderiv f t l -> cderiv g t l.
Proof.
  intros E [H1 H2]. split; [eapply is_derive_ext; [|exact H1]|eapply is_derive_ext; [|exact H2]];
    intros x; simpl; now rewrite E.
Qed.
Lemma cderiv_const c t : cderiv (fun _ => c) t 0.
Proof. split; simpl; apply (is_derive_const (V := R_NormedModule)). Qed.
Lemma cderiv_plus f g t l m : cderiv f t l -> cderiv g t m -> cderiv (fun x => f x + g x) t (l + m).
Proof.
  intros [H1 H2] [H3 H4]. split; simpl.
  - exact (is_derive_plus _ _ _ _ _ H1 H3).
  - exact (is_derive_plus _ _ _ _ _ H2 H4).
Qed.
Lemma cderiv_mult f g t l m :
  cderiv f t l -> cderiv g t m -> cderiv (fun x => f x * g x) t (l * g t + f t * m).
Proof.
  intros [H1 H2] [H3 H4]. split.
  - evar_last.
    + exact (is_derive_minus _ _ _ _ _ (is_derive_mult _ _ _ _ _ H1 H3 Rmult_comm)
              (is_derive_mult _ _ _ _ _ H2 H4 Rmult_comm)).
    + unfold minus, plus, opp, mult; simpl. ring.
  - evar_last.
    + exact (is_derive_plus _ _ _ _ _ (is_derive_mult _ _ _ _ _ H1 H4 Rmult_comm)
              (is_derive_mult _ _ _ _ _ H2 H3 Rmult_comm)).
    + unfold plus, mult; simpl. ring.
Qed.
Lemma cderiv_csum n (f : nat -> R -> C) t (l : nat -> C) :
  (forall i, (i < n)%nat -> cderiv (f i) t (l i)) -> cderiv (fun x => csum n (fun i => f i x)) t (csum n l).
Proof.
  induction n as [|n IH]; intros H; simpl.
  - apply cderiv_const.
  - apply cderiv_plus; [apply IH; intros; apply H; lia|]. apply H. lia.
Qed.

Lemma mderiv_ext n F G t L : (forall x, meq n (F x) (G x)) -> mderiv n F t L -> mderiv n G t L.
Proof.
  intros E H i j Hi Hj. eapply cderiv_ext; [|apply H; assumption]. intros x. simpl. now apply E.
Qed.
Lemma mderiv_val n F t L M : meq n L M -> mderiv n F t L -> mderiv n F t M.
Proof. intros E H i j Hi Hj. rewrite <- (E i j Hi Hj). now apply H. Qed.
Lemma mderiv_const n A t : mderiv n (fun _ => A) t mzero.
Proof. intros i j _ _. apply cderiv_const. Qed.
Lemma mderiv_mmul n F G t L M : mderiv n F t L -> mderiv n G t M ->
  mderiv n (fun x => mmul n (F x) (G x)) t (mplus (mmul n L (G t)) (mmul n (F t) M)).
Proof.
  intros HF HG i j Hi Hj. unfold mmul, mplus. rewrite <- csum_plus.
  apply (cderiv_csum n (fun k x => F x i k * G x k j) t).
  intros k Hk. apply (cderiv_mult (fun x => F x i k) (fun x => G x k j)); [apply HF|apply HG]; assumption.
Qed.

Lemma mmul_zero_l n A : meq n (mmul n mzero A) mzero.
Proof. intros i j Hi Hj. unfold mmul, mzero. apply csum_zero. intros. ring. Qed.
Lemma mmul_zero_r n A : meq n (mmul n A mzero) mzero.
Proof. intros i j Hi Hj. unfold mmul, mzero. apply csum_zero. intros. ring. Qed.

Lemma is_derive_zero (f : R -> R) : (forall t, is_derive f t 0%R) -> forall t, f t = f 0%R.
Proof.
  intros H t. destruct (Rtotal_order t 0) as [L|[->|L]]; [|reflexivity|].
  - apply (eq_is_derive (V := R_NormedModule) f t 0%R); [|exact L]. intros x _. apply H.
  - symmetry. apply (eq_is_derive (V := R_NormedModule) f 0%R t); [|exact L]. intros x _. apply H.
Qed.

Lemma mderiv_zero n F : (forall t, mderiv n F t mzero) -> forall t, meq n (F t) (F 0%R).
Proof.
  intros H t i j Hi Hj. apply C_eq.
  - apply (is_derive_zero (fun x => fst (F x i j))). intros x. destruct (H x i j Hi Hj) as [D _]. exact D.
  - apply (is_derive_zero (fun x => snd (F x i j))). intros x. destruct (H x i j Hi Hj) as [_ D]. exact D.
Qed.

(** ** Multiplying a series by a fixed matrix *)
Lemma mseries_mmul_l n A (T : nat -> mat) S :
  (forall i j, (i < n)%nat -> (j < n)%nat -> cseries (fun k => T k i j) (S i j)) ->
  forall i j, (i < n)%nat -> (j < n)%nat -> cseries (fun k => mmul n A (T k) i j) (mmul n A S i j).
Proof.
  intros H i j Hi Hj. unfold mmul. apply (cseries_csum n (fun l k => A i l * T k l j)).
  intros l Hl. apply cseries_mult. now apply H.
Qed.

Lemma mpow_comm n A k : meq n (mmul n (mpow n A k) A) (mmul n A (mpow n A k)).
Proof.
  induction k as [|k IH]; simpl.
  - now rewrite mmul_1_l, mmul_1_r.
  - rewrite <- (mmul_assoc n A (mpow n A k) A). now rewrite IH.
Qed.

(** The path [t -> exp(tA)]. *)
Definition epath (n : nat) (A : mat) (t : R) : mat := expm n (mscale (RtoC t) A).

Lemma PS_derive_cre n A i j k : (i < n)%nat -> (j < n)%nat ->
  PS_derive (cre n A i j) k = (/ INR (fact k) * fst (mmul n A (mpow n A k) i j))%R.
Proof.
  intros Hi Hj. unfold PS_derive, cre. cbn [mpow].
  rewrite fact_simpl, mult_INR. field. split; [apply Rgt_not_eq, fact_pos|].
  apply not_0_INR. lia.
Qed.
Lemma PS_derive_cim n A i j k : (i < n)%nat -> (j < n)%nat ->
  PS_derive (cim n A i j) k = (/ INR (fact k) * snd (mmul n A (mpow n A k) i j))%R.
Proof.
  intros Hi Hj. unfold PS_derive, cim. cbn [mpow].
  rewrite fact_simpl, mult_INR. field. split; [apply Rgt_not_eq, fact_pos|].
  apply not_0_INR. lia.
Qed.

Lemma epath_deriv n A t : mderiv n (epath n A) t (mmul n A (epath n A t)).
Proof.
  intros i j Hi Hj.
  assert (S := mseries_mmul_l n A _ _ (expm_scaled_series n A t) i j Hi Hj).
  assert (E : forall k, mmul n A (exp_term n (mscale (RtoC t) A) k) i j =
    ((PS_derive (cre n A i j) k * t ^ k)%R, (PS_derive (cim n A i j) k * t ^ k)%R)).
  { intros k. rewrite PS_derive_cre, PS_derive_cim by assumption.
    assert (M : meq n (mmul n A (exp_term n (mscale (RtoC t) A) k))
              (mscale (RtoC (/ INR (fact k) * t ^ k)) (mmul n A (mpow n A k)))).
    { unfold exp_term. rewrite mpow_mscale, mmul_mscale_r, mmul_mscale_r, mscale_mscale.
      now rewrite RtoC_mult. }
    rewrite (M i j Hi Hj). unfold mscale. apply C_eq; simpl; ring. }
  destruct (cseries_ext _ _ _ E S) as [S1 S2]. simpl in S1, S2.
  apply is_series_unique in S1. apply is_series_unique in S2.
  apply (cderiv_ext (fun x => (PSeries (cre n A i j) x, PSeries (cim n A i j) x))).
  { intros x. symmetry. unfold epath. now apply expm_scaled. }
  split; cbn [fst snd].
  - evar_last; [apply is_derive_PSeries; now rewrite cre_cv|]. exact S1.
  - evar_last; [apply is_derive_PSeries; now rewrite cim_cv|]. exact S2.
Qed.

Lemma mpow_mzero n k i j : (i < n)%nat -> (j < n)%nat -> mpow n mzero (S k) i j = 0.
Proof. intros Hi Hj. cbn [mpow]. now rewrite (mmul_zero_l n (mpow n mzero k) i j Hi Hj). Qed.

Lemma expm_zero n : meq n (expm n mzero) mid.
Proof.
  symmetry. apply expm_unique. intros i j Hi Hj.
  assert (K : forall N, csum (S N) (fun k => exp_term n mzero k i j) = mid i j).
  { induction N as [|N IH].
    - cbn [csum]. unfold exp_term, mscale, mpow. change (INR (fact 0)) with 1%R. rewrite Rinv_1. ring.
    - change (csum (S N) (fun k => exp_term n mzero k i j) + exp_term n mzero (S N) i j = mid i j).
      rewrite IH. unfold exp_term, mscale. rewrite mpow_mzero by assumption. ring. }
  apply cseries_lim. split; apply is_lim_seq_incr_1;
    (eapply is_lim_seq_ext; [|apply is_lim_seq_const]); intros N; cbv beta; now rewrite K.
Qed.

Lemma epath_0 n A : meq n (epath n A 0%R) mid.
Proof.
  unfold epath. rewrite <- (expm_zero n). apply expm_meq. intros i j _ _. unfold mscale, mzero. ring.
Qed.

Lemma epath_1 n A : meq n (epath n A 1%R) (expm n A).
Proof. unfold epath. now rewrite mscale_1. Qed.

Lemma epath_comm_self n A t : meq n (mmul n (epath n A t) A) (mmul n A (epath n A t)).
Proof.
  intros i j Hi Hj.
  apply (cseries_unique (fun k => mmul n A (exp_term n (mscale (RtoC t) A) k) i j)).
  - apply cseries_ext with (f := fun k => mmul n (exp_term n (mscale (RtoC t) A) k) A i j).
    + intros k. unfold exp_term.
      assert (M : meq n (mmul n (mscale (RtoC (/ INR (fact k))) (mpow n (mscale (RtoC t) A) k)) A)
        (mmul n A (mscale (RtoC (/ INR (fact k))) (mpow n (mscale (RtoC t) A) k)))).
      { rewrite !mpow_mscale, mmul_mscale_l, mmul_mscale_l, mpow_comm, !mmul_mscale_r. reflexivity. }
      now apply M.
    + unfold mmul. apply (cseries_csum n (fun l k => exp_term n (mscale (RtoC t) A) k i l * A l j)).
      intros l Hl. eapply cseries_ext; [intros k; apply Cmult_comm|]. rewrite Cmult_comm.
      apply cseries_mult. now apply expm_scaled_series.
  - apply mseries_mmul_l; try assumption. intros. now apply expm_scaled_series.
Qed.

Lemma epath_neg n A t : meq n (epath n (mscale (RtoC (-1)) A) t) (epath n A (- t)).
Proof.
  unfold epath. apply expm_meq. intros i j _ _. unfold mscale. apply C_eq; simpl; ring.
Qed.

Lemma epath_neg_deriv n A t :
  mderiv n (fun x => epath n A (- x)) t (mscale (RtoC (-1)) (mmul n A (epath n A (- t)))).
Proof.
  eapply mderiv_ext; [intros x; apply epath_neg|].
  eapply mderiv_val; [|apply epath_deriv].
  now rewrite mmul_mscale_l, epath_neg.
Qed.

(** [X' = A X] has only the solution [exp(tA) X(0)]. *)
Lemma epath_inverse n A t : meq n (mmul n (epath n A (- t)) (epath n A t)) mid.
Proof.
  assert (Z := mderiv_zero n (fun x => mmul n (epath n A (- x)) (epath n A x))).
  rewrite Z.
  - rewrite Ropp_0, epath_0. apply mmul_1_l.
  - intros x. eapply mderiv_val; [|apply mderiv_mmul; [apply epath_neg_deriv|apply epath_deriv]].
    rewrite <- (epath_comm_self n A (- x)).
    rewrite mmul_mscale_l, <- mmul_assoc. intros i j _ _. unfold mplus, mscale, mzero.
    replace (RtoC (-1)) with (- RtoC 1) by (apply C_eq; simpl; ring). ring.
Qed.

Lemma epath_inverse' n A t : meq n (mmul n (epath n A t) (epath n A (- t))) mid.
Proof. rewrite <- (Ropp_involutive t) at 1. apply epath_inverse. Qed.

Lemma ode n A X : (forall t, mderiv n X t (mmul n A (X t))) ->
  forall t, meq n (X t) (mmul n (epath n A t) (X 0%R)).
Proof.
  intros H t.
  assert (Z := mderiv_zero n (fun x => mmul n (epath n A (- x)) (X x))).
  assert (Z' : meq n (mmul n (epath n A (- t)) (X t)) (X 0%R)).
  { rewrite Z.
    - rewrite Ropp_0, epath_0. apply mmul_1_l.
    - intros x. eapply mderiv_val; [|apply mderiv_mmul; [apply epath_neg_deriv|apply H]].
      rewrite <- (epath_comm_self n A (- x)).
      rewrite mmul_mscale_l, <- mmul_assoc. intros i j _ _. unfold mplus, mscale, mzero.
      replace (RtoC (-1)) with (- RtoC 1) by (apply C_eq; simpl; ring). ring. }
  rewrite <- Z', mmul_assoc, epath_inverse'. symmetry. apply mmul_1_l.
Qed.

Lemma epath_commute n A B : meq n (mmul n A B) (mmul n B A) ->
  forall t, meq n (mmul n B (epath n A t)) (mmul n (epath n A t) B).
Proof.
  intros E t. rewrite (ode n A (fun x => mmul n B (epath n A x))).
  - now rewrite epath_0, mmul_1_r.
  - intros x. eapply mderiv_val; [|apply (mderiv_mmul n (fun _ => B)); [apply mderiv_const|apply epath_deriv]].
    rewrite mmul_zero_l, !mmul_assoc, E. intros i j _ _. unfold mplus, mzero. ring.
Qed.

Lemma mplus_mmul_l n A B D : meq n (mmul n (mplus A B) D) (mplus (mmul n A D) (mmul n B D)).
Proof. intros i j Hi Hj. unfold mmul, mplus. rewrite <- csum_plus. apply csum_ext. intros. ring. Qed.

Lemma epath_plus n A B : meq n (mmul n A B) (mmul n B A) ->
  forall t, meq n (epath n (mplus A B) t) (mmul n (epath n A t) (epath n B t)).
Proof.
  intros E t. symmetry. rewrite (ode n (mplus A B) (fun x => mmul n (epath n A x) (epath n B x))).
  - now rewrite !epath_0, !mmul_1_r.
  - intros x. eapply mderiv_val; [|apply mderiv_mmul; apply epath_deriv].
    rewrite mplus_mmul_l, (mmul_assoc n (epath n A x) B), <- (epath_commute n A B E x), !mmul_assoc.
    reflexivity.
Qed.

Lemma expm_plus n A B : meq n (mmul n A B) (mmul n B A) ->
  meq n (expm n (mplus A B)) (mmul n (expm n A) (expm n B)).
Proof. intros E. rewrite <- !epath_1. now apply epath_plus. Qed.

Lemma epath_add n A s t : meq n (epath n A (s + t)) (mmul n (epath n A s) (epath n A t)).
Proof.
  unfold epath. rewrite <- expm_plus.
  - apply expm_meq. intros i j _ _. unfold mplus, mscale. rewrite RtoC_plus. ring.
  - now rewrite !mmul_mscale_l, !mmul_mscale_r, !mscale_mscale, (Cmult_comm (RtoC s)).
Qed.

(** ** Adjoint *)
Lemma adj_mpow n A k : meq n (adj (mpow n A k)) (mpow n (adj A) k).
Proof.
  induction k as [|k IH]; [apply adj_mid|].
  cbn [mpow]. now rewrite adj_mmul, IH, mpow_comm.
Qed.

Lemma expm_adj n A : meq n (adj (expm n A)) (expm n (adj A)).
Proof.
  apply expm_unique. intros i j Hi Hj.
  apply cseries_ext with (f := fun k => Cconj (exp_term n A k j i)).
  - intros k. unfold exp_term, mscale. rewrite Cconj_mult, Cconj_R. f_equal.
    now apply (adj_mpow n A k).
  - unfold adj. apply cseries_conj. now apply expm_series.
Qed.

(** [exp(iH)] is unitary for a Hermitian [H]. *)
Lemma expm_unitary n H : hermitian_mx n H -> unitary_mx n (expm n (mscale Ci H)).
Proof.
  intros Hh. unfold unitary_mx. rewrite expm_adj.
  assert (E : meq n (adj (mscale Ci H)) (mscale (RtoC (-1)) (mscale Ci H))).
  { rewrite adj_mscale. red in Hh. rewrite <- Hh. intros i j _ _. unfold mscale.
    apply C_eq; simpl; ring. }
  rewrite E. assert (I := epath_inverse' n (mscale Ci H) 1). rewrite epath_1 in I.
  exact I.
Qed.
