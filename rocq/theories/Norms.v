(** Euclidean norm of vectors and Frobenius norm of matrices. *)
From Coq Require Import Reals List Arith Lia Lra Setoid Morphisms.
From Coquelicot Require Import Complex.
From Verif Require Import CMat CMatFacts Det DetFacts.
Open Scope R_scope.
Open Scope C_scope.

Definition vnorm2 (n : nat) (v : nat -> C) : R := rsum n (fun i => (Cmod (v i) ^ 2)%R).
Definition vnorm (n : nat) (v : nat -> C) : R := sqrt (vnorm2 n v).
Definition fro2 (n : nat) (A : mat) : R := rsum n (fun i => vnorm2 n (A i)).
Definition fro (n : nat) (A : mat) : R := sqrt (fro2 n A).

(** ** Cauchy-Schwarz and triangle inequality *)
Lemma sqr_le_le (x y : R) : (0 <= y -> x ^ 2 <= y ^ 2 -> x <= y)%R.
Proof. intros. apply Rnot_lt_le. intros Hlt. nra. Qed.

Lemma rsum_cauchy n f g :
  ((rsum n (fun i => f i * g i)) ^ 2
   <= rsum n (fun i => f i ^ 2) * rsum n (fun i => g i ^ 2))%R.
Proof.
  induction n as [|n IH]; simpl; [lra|].
  set (S := rsum n (fun i => (f i * g i)%R)) in *.
  assert (HA : (0 <= rsum n (fun i => f i ^ 2))%R) by (apply rsum_nonneg; intros; nra).
  assert (HB : (0 <= rsum n (fun i => g i ^ 2))%R) by (apply rsum_nonneg; intros; nra).
  change (fun i => (f i * (f i * 1))%R) with (fun i => (f i ^ 2)%R).
  change (fun i => (g i * (g i * 1))%R) with (fun i => (g i ^ 2)%R).
  set (A := rsum n (fun i => (f i ^ 2)%R)) in *.
  set (B := rsum n (fun i => (g i ^ 2)%R)) in *.
  set (a := f n) in *. set (b := g n) in *. clearbody S A B a b.
  assert (H : (2 * S * a * b <= A * b ^ 2 + B * a ^ 2)%R).
  { assert (H1 : ((2 * S * a * b) ^ 2 <= (A * b ^ 2 + B * a ^ 2) ^ 2)%R).
    { assert (H2 : (S ^ 2 * (a * b) ^ 2 <= A * B * (a * b) ^ 2)%R).
      { apply Rmult_le_compat_r; [apply pow2_ge_0|simpl in *; lra]. }
      assert (H3 : (0 <= (A * b ^ 2 - B * a ^ 2) ^ 2)%R) by apply pow2_ge_0.
      replace ((2 * S * a * b) ^ 2)%R with (4 * (S ^ 2 * (a * b) ^ 2))%R by ring.
      replace ((A * b ^ 2 + B * a ^ 2) ^ 2)%R
        with ((A * b ^ 2 - B * a ^ 2) ^ 2 + 4 * (A * B * (a * b) ^ 2))%R by ring.
      lra. }
    assert (0 <= A * b ^ 2)%R by (apply Rmult_le_pos; [lra|apply pow2_ge_0]).
    assert (0 <= B * a ^ 2)%R by (apply Rmult_le_pos; [lra|apply pow2_ge_0]).
    apply sqr_le_le; lra. }
  lra.
Qed.

Lemma vnorm2_nonneg n v : (0 <= vnorm2 n v)%R.
Proof. apply rsum_nonneg. intros; nra. Qed.
Lemma vnorm_nonneg n v : (0 <= vnorm n v)%R.
Proof. apply sqrt_pos. Qed.
Lemma vnorm_sqr n v : (vnorm n v ^ 2 = vnorm2 n v)%R.
Proof. unfold vnorm. simpl. rewrite Rmult_1_r. apply sqrt_sqrt, vnorm2_nonneg. Qed.
Lemma vnorm_ext n (v w : nat -> C) : (forall i, (i < n)%nat -> v i = w i) -> vnorm n v = vnorm n w.
Proof. intros H. unfold vnorm, vnorm2. f_equal. apply rsum_ext. intros. now rewrite H. Qed.

Lemma rsum_cauchy_vnorm n (v w : nat -> C) :
  (rsum n (fun i => Cmod (v i) * Cmod (w i)) <= vnorm n v * vnorm n w)%R.
Proof.
  assert (0 <= vnorm n v)%R by apply vnorm_nonneg. assert (0 <= vnorm n w)%R by apply vnorm_nonneg.
  apply sqr_le_le; [nra|]. rewrite Rpow_mult_distr, !vnorm_sqr.
  apply (rsum_cauchy n (fun i => Cmod (v i)) (fun i => Cmod (w i))).
Qed.

Lemma csum_cauchy n (v w : nat -> C) :
  (Cmod (csum n (fun i => (v i * w i)%C)) <= vnorm n v * vnorm n w)%R.
Proof.
  eapply Rle_trans; [apply Cmod_csum_le|].
  erewrite rsum_ext; [apply rsum_cauchy_vnorm|]. intros. apply Cmod_mult.
Qed.

Lemma vnorm_triangle n (v w : nat -> C) : (vnorm n (fun i => (v i + w i)%C) <= vnorm n v + vnorm n w)%R.
Proof.
  assert (0 <= vnorm n v)%R by apply vnorm_nonneg. assert (0 <= vnorm n w)%R by apply vnorm_nonneg.
  apply sqr_le_le; [lra|].
  rewrite vnorm_sqr. unfold vnorm2.
  apply Rle_trans with (rsum n (fun i => Cmod (v i) ^ 2 + (2 * (Cmod (v i) * Cmod (w i)) + Cmod (w i) ^ 2))%R).
  - apply rsum_le. intros i _. assert (T := Cmod_triangle (v i) (w i)).
    assert (0 <= Cmod (v i + w i)%C)%R by apply Cmod_ge_0.
    assert (0 <= Cmod (v i))%R by apply Cmod_ge_0. assert (0 <= Cmod (w i))%R by apply Cmod_ge_0.
    nra.
  - rewrite !rsum_plus, rsum_mult_l. fold (vnorm2 n v) (vnorm2 n w).
    rewrite <- !vnorm_sqr. assert (K := rsum_cauchy_vnorm n v w). nra.
Qed.

Lemma vnorm2_scale n (c : C) (v : nat -> C) : vnorm2 n (fun i => c * v i) = (Cmod c ^ 2 * vnorm2 n v)%R.
Proof.
  unfold vnorm2. rewrite <- rsum_mult_l. apply rsum_ext. intros. rewrite Cmod_mult. ring.
Qed.
Lemma vnorm_scale n (c : C) (v : nat -> C) : vnorm n (fun i => c * v i) = (Cmod c * vnorm n v)%R.
Proof.
  unfold vnorm. rewrite vnorm2_scale, sqrt_mult_alt by nra.
  f_equal. rewrite <- Rsqr_pow2. apply sqrt_Rsqr, Cmod_ge_0.
Qed.
Lemma vnorm_0 n (v : nat -> C) : vnorm n v = 0%R -> forall i, (i < n)%nat -> v i = 0.
Proof.
  intros H i Hi. assert (E : vnorm2 n v = 0%R) by (rewrite <- vnorm_sqr, H; ring).
  apply Cmod_eq_0. assert (K := rsum_zero_all n _ (fun i _ => pow2_ge_0 (Cmod (v i))) E i Hi).
  simpl in K. nra.
Qed.
Lemma vnorm_entry n (v : nat -> C) i : (i < n)%nat -> (Cmod (v i) <= vnorm n v)%R.
Proof.
  intros Hi. apply sqr_le_le; [apply vnorm_nonneg|]. rewrite vnorm_sqr.
  apply (rsum_term_le n (fun i => (Cmod (v i) ^ 2)%R) i); auto. intros; nra.
Qed.

(** ** Frobenius norm *)
Lemma fro2_nonneg n A : (0 <= fro2 n A)%R.
Proof. apply rsum_nonneg. intros. apply vnorm2_nonneg. Qed.
Lemma fro_nonneg n A : (0 <= fro n A)%R.
Proof. apply sqrt_pos. Qed.
Lemma fro_sqr n A : (fro n A ^ 2 = fro2 n A)%R.
Proof. unfold fro. simpl. rewrite Rmult_1_r. apply sqrt_sqrt, fro2_nonneg. Qed.

#[export] Instance fro2_proper n : Proper (meq n ==> eq) (fro2 n).
Proof.
  intros A B H. unfold fro2, vnorm2. apply rsum_ext. intros i Hi. apply rsum_ext.
  intros j Hj. now rewrite H.
Qed.
#[export] Instance fro_proper n : Proper (meq n ==> eq) (fro n).
Proof. intros A B H. unfold fro. now rewrite H. Qed.

Lemma rsum_app n m f : (rsum (n + m) f = rsum n f + rsum m (fun i => f (n + i)%nat))%R.
Proof.
  induction m as [|m IH]; simpl; [rewrite Nat.add_0_r; lra|].
  rewrite Nat.add_succ_r. simpl. rewrite IH. lra.
Qed.
Lemma rsum_prod n m f :
  (0 < m)%nat ->
  rsum (n * m) f = rsum n (fun i => rsum m (fun j => f (i * m + j)%nat)).
Proof.
  intros Hm. induction n as [|n IH]; simpl; auto.
  rewrite (Nat.add_comm m), rsum_app, IH. reflexivity.
Qed.

Lemma fro2_flat n A : fro2 n A = vnorm2 (n * n) (fun k => A (k / n)%nat (k mod n)%nat).
Proof.
  destruct n as [|n']; [reflexivity|]. remember (S n') as n.
  unfold fro2, vnorm2. rewrite rsum_prod by lia.
  apply rsum_ext. intros i Hi. apply rsum_ext. intros j Hj.
  rewrite Nat.div_add_l by lia. rewrite Nat.div_small by auto.
  rewrite (Nat.add_comm (i * n)), Nat.mod_add by lia. rewrite Nat.mod_small by auto.
  now rewrite Nat.add_0_r.
Qed.

Lemma fro_triangle n A B : (fro n (mplus A B) <= fro n A + fro n B)%R.
Proof.
  unfold fro. rewrite !fro2_flat.
  apply (vnorm_triangle (n * n) (fun k => A (k / n)%nat (k mod n)%nat)
                        (fun k => B (k / n)%nat (k mod n)%nat)).
Qed.

Lemma fro_mscale n c A : fro n (mscale c A) = (Cmod c * fro n A)%R.
Proof.
  unfold fro. rewrite !fro2_flat.
  apply (vnorm_scale (n * n) c (fun k => A (k / n)%nat (k mod n)%nat)).
Qed.

Lemma fro_0 n A : fro n A = 0%R -> meq n A mzero.
Proof.
  intros H i j Hi Hj. assert (E : fro2 n A = 0%R) by (rewrite <- fro_sqr, H; ring).
  assert (K := rsum_zero_all n _ (fun i _ => vnorm2_nonneg n (A i)) E i Hi). simpl in K.
  assert (K2 := rsum_zero_all n _ (fun j _ => pow2_ge_0 (Cmod (A i j))) K j Hj). simpl in K2.
  apply Cmod_eq_0. nra.
Qed.

Lemma fro_mzero n : fro n mzero = 0%R.
Proof.
  transitivity (fro n (mscale 0 mzero)).
  - apply fro_proper. intros i j _ _. unfold mscale, mzero. ring.
  - rewrite fro_mscale, Cmod_0. ring.
Qed.

Lemma fro_entry n A i j : (i < n)%nat -> (j < n)%nat -> (Cmod (A i j) <= fro n A)%R.
Proof.
  intros Hi Hj. apply sqr_le_le; [apply fro_nonneg|]. rewrite fro_sqr.
  apply Rle_trans with (vnorm2 n (A i)).
  - apply (rsum_term_le n (fun j => (Cmod (A i j) ^ 2)%R) j); auto. intros; nra.
  - apply (rsum_term_le n (fun i => vnorm2 n (A i)) i); auto. intros; apply vnorm2_nonneg.
Qed.

Lemma fro2_trace n A : RtoC (fro2 n A) = mtrace n (mmul n A (adj A)).
Proof.
  unfold fro2, mtrace, mmul, vnorm2. rewrite <- csum_RtoC. apply csum_ext. intros i Hi.
  rewrite <- csum_RtoC. apply csum_ext. intros j Hj. unfold adj. symmetry. apply Cmult_conj.
Qed.

Lemma fro2_adj n A : fro2 n (adj A) = fro2 n A.
Proof.
  unfold fro2, vnorm2. rewrite rsum_swap. apply rsum_ext. intros i Hi. apply rsum_ext.
  intros j Hj. unfold adj. now rewrite Cmod_conj.
Qed.
Lemma fro_adj n A : fro n (adj A) = fro n A.
Proof. unfold fro. now rewrite fro2_adj. Qed.

Lemma fro2_trace' n A : RtoC (fro2 n A) = mtrace n (mmul n (adj A) A).
Proof. rewrite fro2_trace. apply mtrace_mmul_comm. Qed.

Lemma fro_unitary_l n U A : unitary_mx n U -> fro n (mmul n U A) = fro n A.
Proof.
  intros H. unfold fro. f_equal. apply RtoC_inj. rewrite !fro2_trace'.
  rewrite adj_mmul. rewrite mmul_assoc, <- (mmul_assoc n (adj A)).
  assert (HU := unitary_left n U H). rewrite HU, mmul_1_r. reflexivity.
Qed.

Lemma fro_unitary_r n U A : unitary_mx n U -> fro n (mmul n A U) = fro n A.
Proof.
  intros H. rewrite <- fro_adj, adj_mmul, fro_unitary_l, fro_adj by now apply unitary_adj.
  reflexivity.
Qed.

Lemma fro2_unitary n U : unitary_mx n U -> fro2 n U = INR n.
Proof.
  unfold unitary_mx. intros H. apply RtoC_inj. rewrite fro2_trace, H. apply mtrace_mid.
Qed.
Lemma fro_unitary n U : unitary_mx n U -> fro n U = sqrt (INR n).
Proof. intros H. unfold fro. now rewrite fro2_unitary. Qed.

Lemma fro_mmul n A B : (fro n (mmul n A B) <= fro n A * fro n B)%R.
Proof.
  apply sqr_le_le.
  - assert (0 <= fro n A)%R by apply fro_nonneg. assert (0 <= fro n B)%R by apply fro_nonneg. nra.
  - rewrite Rpow_mult_distr, !fro_sqr. rewrite <- (fro2_adj n B).
    unfold fro2 at 1 2. rewrite <- rsum_mult_r. apply rsum_le. intros i Hi.
    unfold fro2. rewrite <- rsum_mult_l. unfold vnorm2 at 1. apply rsum_le. intros j Hj.
    rewrite <- !vnorm_sqr, <- Rpow_mult_distr. apply pow_incr. split; [apply Cmod_ge_0|].
    unfold mmul. eapply Rle_trans; [apply csum_cauchy|]. apply Rmult_le_compat_l; [apply vnorm_nonneg|].
    right. unfold vnorm, vnorm2. f_equal. apply rsum_ext. intros k Hk. unfold adj. now rewrite Cmod_conj.
Qed.

Lemma fro_minus_sym n A B : fro n (mminus A B) = fro n (mminus B A).
Proof.
  transitivity (fro n (mscale (- (1)) (mminus B A))).
  - apply fro_proper. intros i j _ _. unfold mscale, mminus. ring.
  - rewrite fro_mscale, Cmod_opp, Cmod_1. ring.
Qed.

Lemma fro_minus_triangle n A B D :
  (fro n (mminus A D) <= fro n (mminus A B) + fro n (mminus B D))%R.
Proof.
  eapply Rle_trans; [|apply fro_triangle]. right. apply fro_proper.
  intros i j _ _. unfold mplus, mminus. ring.
Qed.

Lemma fro_minus_self n A B : meq n A B -> fro n (mminus A B) = 0%R.
Proof.
  intros H. rewrite <- (fro_mzero n). apply fro_proper. intros i j Hi Hj.
  unfold mminus, mzero. rewrite H by auto. ring.
Qed.
