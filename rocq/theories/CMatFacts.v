(** Algebra of complex numbers, finite sums and function matrices. *)
From Coq Require Import Reals List Arith Lia Lra Setoid Morphisms.
From Coquelicot Require Import Complex.
From Verif Require Import CMat.
Import ListNotations.
Open Scope R_scope.
Open Scope C_scope.

(** ** Complex numbers *)
Lemma C_eq (x y : C) : fst x = fst y -> snd x = snd y -> x = y.
Proof. destruct x, y; simpl; congruence. Qed.

Ltac c_ext := apply C_eq; simpl; try ring.

Lemma Cconj_plus x y : Cconj (x + y) = Cconj x + Cconj y.
Proof. c_ext. Qed.
Lemma Cconj_minus x y : Cconj (x - y) = Cconj x - Cconj y.
Proof. c_ext. Qed.
Lemma Cconj_opp x : Cconj (- x) = - Cconj x.
Proof. c_ext. Qed.
Lemma Cconj_mult x y : Cconj (x * y) = Cconj x * Cconj y.
Proof. c_ext. Qed.
Lemma Cconj_invol x : Cconj (Cconj x) = x.
Proof. c_ext. Qed.
Lemma Cconj_R (r : R) : Cconj r = r.
Proof. c_ext. Qed.
Lemma Cmod_conj x : Cmod (Cconj x) = Cmod x.
Proof. unfold Cmod, Cconj. simpl. f_equal. ring. Qed.
Lemma Cmult_conj x : x * Cconj x = RtoC ((Cmod x)^2).
Proof.
  unfold Cmod. rewrite pow2_sqrt.
  - c_ext.
  - nra.
Qed.
Lemma Cmod2 x : ((Cmod x)^2 = fst x ^ 2 + snd x ^ 2)%R.
Proof. unfold Cmod. rewrite pow2_sqrt; nra. Qed.
Lemma Cmod_one_conj c : Cmod c = 1%R -> c * Cconj c = 1.
Proof. intros H. rewrite Cmult_conj, H. c_ext. Qed.
Lemma Cmod_one_conj' c : Cmod c = 1%R -> Cconj c * c = 1.
Proof. intros H. rewrite Cmult_comm. now apply Cmod_one_conj. Qed.
Lemma Cmod_one_neq0 c : Cmod c = 1%R -> c <> 0.
Proof. intros H E. rewrite E, Cmod_0 in H. lra. Qed.
Lemma Re_le_Cmod z : (Rabs (fst z) <= Cmod z)%R.
Proof. eapply Rle_trans; [|apply Rmax_Cmod]. apply Rmax_l. Qed.
Lemma Im_le_Cmod z : (Rabs (snd z) <= Cmod z)%R.
Proof. eapply Rle_trans; [|apply Rmax_Cmod]. apply Rmax_r. Qed.

Lemma cis_plus a b : cis (a + b) = cis a * cis b.
Proof. unfold cis. c_ext; rewrite ?cos_plus, ?sin_plus; ring. Qed.
Lemma cis_0 : cis 0 = 1.
Proof. unfold cis. rewrite cos_0, sin_0. reflexivity. Qed.
Lemma cis_neg a : cis (- a) = Cconj (cis a).
Proof. unfold cis, Cconj. simpl. now rewrite cos_neg, sin_neg. Qed.
Lemma Cmod_cis a : Cmod (cis a) = 1%R.
Proof.
  unfold Cmod, cis. simpl. transitivity (sqrt 1); [f_equal|apply sqrt_1].
  generalize (sin2_cos2 a). unfold Rsqr. lra.
Qed.
Lemma cis_conj_mult a : cis a * Cconj (cis a) = 1.
Proof. apply Cmod_one_conj, Cmod_cis. Qed.
Lemma cis_PI : cis PI = -1.
Proof. unfold cis. rewrite cos_PI, sin_PI. c_ext. Qed.
Lemma cis_2PI : cis (2 * PI) = 1.
Proof. unfold cis. rewrite cos_2PI, sin_2PI. c_ext. Qed.

(** ** Finite sums *)
Lemma csum_ext n (f g : nat -> C) : (forall i, (i < n)%nat -> f i = g i) -> csum n f = csum n g.
Proof.
  induction n as [|n IH]; intros H; simpl; auto.
  rewrite IH, H; auto.
Qed.
Lemma csum_zero n (f : nat -> C) : (forall i, (i < n)%nat -> f i = 0) -> csum n f = 0.
Proof.
  induction n as [|n IH]; intros H; simpl; auto.
  rewrite IH, H; auto. ring.
Qed.
Lemma csum_plus n f g : csum n (fun i => f i + g i) = csum n f + csum n g.
Proof. induction n as [|n IH]; simpl; [ring|]. rewrite IH. ring. Qed.
Lemma csum_minus n f g : csum n (fun i => f i - g i) = csum n f - csum n g.
Proof. induction n as [|n IH]; simpl; [ring|]. rewrite IH. ring. Qed.
Lemma csum_opp n f : csum n (fun i => - f i) = - csum n f.
Proof. induction n as [|n IH]; simpl; [ring|]. rewrite IH. ring. Qed.
Lemma csum_mult_l n c f : csum n (fun i => c * f i) = c * csum n f.
Proof. induction n as [|n IH]; simpl; [ring|]. rewrite IH. ring. Qed.
Lemma csum_mult_r n c f : csum n (fun i => f i * c) = csum n f * c.
Proof. induction n as [|n IH]; simpl; [ring|]. rewrite IH. ring. Qed.
Lemma csum_swap n m f :
  csum n (fun i => csum m (fun j => f i j)) = csum m (fun j => csum n (fun i => f i j)).
Proof.
  induction n as [|n IH]; simpl.
  - symmetry. apply csum_zero; auto.
  - rewrite IH, csum_plus. reflexivity.
Qed.
Lemma csum_conj n f : Cconj (csum n f) = csum n (fun i => Cconj (f i)).
Proof.
  induction n as [|n IH]; simpl.
  - apply Cconj_R.
  - rewrite Cconj_plus, IH. reflexivity.
Qed.
Lemma csum_delta n k (f : nat -> C) :
  (k < n)%nat -> csum n (fun i => (if Nat.eqb k i then 1 else 0) * f i) = f k.
Proof.
  intros Hk. induction n as [|n IH]; [lia|]. simpl.
  destruct (Nat.eqb_spec k n) as [->|Hn].
  - match goal with |- ?x + _ = _ => assert (x = 0) as -> end; [|ring].
    apply csum_zero. intros i Hi.
    destruct (Nat.eqb_spec n i); [lia|]. ring.
  - rewrite IH by lia. ring.
Qed.
Lemma csum_single n k (f : nat -> C) :
  (k < n)%nat -> (forall i, (i < n)%nat -> i <> k -> f i = 0) -> csum n f = f k.
Proof.
  intros Hk H. rewrite <- (csum_delta n k f Hk). apply csum_ext.
  intros i Hi. destruct (Nat.eqb_spec k i) as [->|Hn]; [ring|].
  rewrite H; auto. ring.
Qed.
Lemma csum_app n m f : csum (n + m) f = csum n f + csum m (fun i => f (n + i)%nat).
Proof.
  induction m as [|m IH]; simpl.
  - rewrite Nat.add_0_r. ring.
  - rewrite Nat.add_succ_r. simpl. rewrite IH. ring.
Qed.
Lemma csum_prod n m f :
  csum (n * m) f = csum n (fun i => csum m (fun j => f (i * m + j)%nat)).
Proof.
  induction n as [|n IH]; simpl; auto.
  rewrite Nat.add_comm, csum_app, IH. reflexivity.
Qed.
Lemma csum_const n c : csum n (fun _ => c) = RtoC (INR n) * c.
Proof.
  induction n as [|n IH].
  - simpl. ring.
  - change (csum (S n) (fun _ => c)) with (csum n (fun _ => c) + c).
    rewrite IH, S_INR, RtoC_plus. ring.
Qed.
Lemma csum_RtoC n f : csum n (fun i => RtoC (f i)) = RtoC (rsum n f).
Proof.
  induction n as [|n IH]; simpl; auto. rewrite IH, RtoC_plus. reflexivity.
Qed.

Lemma rsum_ext n f g : (forall i, (i < n)%nat -> f i = g i) -> rsum n f = rsum n g.
Proof.
  induction n as [|n IH]; intros H; simpl; auto. rewrite IH, H; auto.
Qed.
Lemma rsum_le n f g : (forall i, (i < n)%nat -> (f i <= g i)%R) -> (rsum n f <= rsum n g)%R.
Proof.
  induction n as [|n IH]; intros H; simpl; [lra|].
  apply Rplus_le_compat; auto.
Qed.
Lemma rsum_nonneg n f : (forall i, (i < n)%nat -> (0 <= f i)%R) -> (0 <= rsum n f)%R.
Proof.
  induction n as [|n IH]; intros H; simpl; [lra|].
  apply Rplus_le_le_0_compat; auto.
Qed.
Lemma rsum_const n c : rsum n (fun _ => c) = (INR n * c)%R.
Proof.
  induction n as [|n IH]; [simpl; ring|].
  change (rsum (S n) (fun _ => c)) with (rsum n (fun _ => c) + c)%R.
  rewrite IH, S_INR. ring.
Qed.
Lemma rsum_plus n f g : rsum n (fun i => (f i + g i)%R) = (rsum n f + rsum n g)%R.
Proof. induction n as [|n IH]; simpl; [ring|]. rewrite IH. ring. Qed.
Lemma rsum_mult_l n c f : rsum n (fun i => (c * f i)%R) = (c * rsum n f)%R.
Proof. induction n as [|n IH]; simpl; [ring|]. rewrite IH. ring. Qed.
Lemma rsum_mult_r n c f : rsum n (fun i => (f i * c)%R) = (rsum n f * c)%R.
Proof. induction n as [|n IH]; simpl; [ring|]. rewrite IH. ring. Qed.
Lemma rsum_swap n m f :
  rsum n (fun i => rsum m (fun j => f i j)) = rsum m (fun j => rsum n (fun i => f i j)).
Proof.
  induction n as [|n IH]; simpl.
  - symmetry. induction m as [|m IHm]; simpl; auto. rewrite IHm. ring.
  - rewrite IH, rsum_plus. reflexivity.
Qed.
Lemma rsum_term_le n f k :
  (forall i, (i < n)%nat -> (0 <= f i)%R) -> (k < n)%nat -> (f k <= rsum n f)%R.
Proof.
  intros H Hk. induction n as [|n IH]; [lia|]. simpl.
  destruct (Nat.eq_dec k n) as [->|Hn].
  - assert (0 <= rsum n f)%R by (apply rsum_nonneg; auto). lra.
  - assert (f k <= rsum n f)%R by (apply IH; auto; lia).
    assert (0 <= f n)%R by auto. lra.
Qed.
Lemma rsum_zero_all n f :
  (forall i, (i < n)%nat -> (0 <= f i)%R) -> rsum n f = 0%R ->
  forall i, (i < n)%nat -> f i = 0%R.
Proof.
  intros H H0 i Hi. generalize (rsum_term_le n f i H Hi). specialize (H i Hi). lra.
Qed.
Lemma Cmod_csum_le n f : (Cmod (csum n f) <= rsum n (fun i => Cmod (f i)))%R.
Proof.
  induction n as [|n IH]; simpl.
  - rewrite Cmod_0. lra.
  - eapply Rle_trans; [apply Cmod_triangle|]. lra.
Qed.

(** ** Matrices *)
#[export] Instance meq_equiv n : Equivalence (meq n).
Proof.
  split.
  - intros A i j _ _. reflexivity.
  - intros A B H i j Hi Hj. symmetry. auto.
  - intros A B D H1 H2 i j Hi Hj. rewrite H1; auto.
Qed.
#[export] Instance mmul_proper n : Proper (meq n ==> meq n ==> meq n) (mmul n).
Proof.
  intros A A' HA B B' HB i j Hi Hj. unfold mmul. apply csum_ext.
  intros k Hk. rewrite HA, HB; auto.
Qed.
#[export] Instance adj_proper n : Proper (meq n ==> meq n) adj.
Proof. intros A A' HA i j Hi Hj. unfold adj. rewrite HA; auto. Qed.
#[export] Instance mscale_proper n c : Proper (meq n ==> meq n) (mscale c).
Proof. intros A A' HA i j Hi Hj. unfold mscale. rewrite HA; auto. Qed.
#[export] Instance mplus_proper n : Proper (meq n ==> meq n ==> meq n) mplus.
Proof. intros A A' HA B B' HB i j Hi Hj. unfold mplus. rewrite HA, HB; auto. Qed.
#[export] Instance mminus_proper n : Proper (meq n ==> meq n ==> meq n) mminus.
Proof. intros A A' HA B B' HB i j Hi Hj. unfold mminus. rewrite HA, HB; auto. Qed.
#[export] Instance mtrace_proper n : Proper (meq n ==> eq) (mtrace n).
Proof. intros A A' HA. unfold mtrace. apply csum_ext. intros i Hi. auto. Qed.

Lemma meq_refl n A : meq n A A.
Proof. reflexivity. Qed.

Lemma mmul_assoc n A B D : meq n (mmul n A (mmul n B D)) (mmul n (mmul n A B) D).
Proof.
  intros i j _ _. unfold mmul.
  rewrite (csum_ext n _ (fun k => csum n (fun l => A i k * B k l * D l j))).
  2:{ intros k _. rewrite <- csum_mult_l. apply csum_ext. intros; ring. }
  rewrite csum_swap. apply csum_ext. intros l _. now rewrite csum_mult_r.
Qed.
Lemma mmul_1_l n A : meq n (mmul n mid A) A.
Proof. intros i j Hi _. unfold mmul, mid. exact (csum_delta n i (fun k => A k j) Hi). Qed.
Lemma mmul_1_r n A : meq n (mmul n A mid) A.
Proof.
  intros i j _ Hj. unfold mmul, mid.
  rewrite (csum_ext n _ (fun k => (if Nat.eqb j k then 1 else 0) * A i k)).
  - exact (csum_delta n j (fun k => A i k) Hj).
  - intros k _. rewrite Nat.eqb_sym. ring.
Qed.
Lemma adj_mmul n A B : meq n (adj (mmul n A B)) (mmul n (adj B) (adj A)).
Proof.
  intros i j _ _. unfold adj, mmul. rewrite csum_conj. apply csum_ext.
  intros k _. rewrite Cconj_mult. ring.
Qed.
Lemma adj_adj n A : meq n (adj (adj A)) A.
Proof. intros i j _ _. unfold adj. apply Cconj_invol. Qed.
Lemma adj_mid n : meq n (adj mid) mid.
Proof.
  intros i j _ _. unfold adj, mid. rewrite Nat.eqb_sym.
  destruct (Nat.eqb i j); apply Cconj_R.
Qed.
Lemma adj_mscale n c A : meq n (adj (mscale c A)) (mscale (Cconj c) (adj A)).
Proof. intros i j _ _. unfold adj, mscale. apply Cconj_mult. Qed.
Lemma mscale_mscale n c d A : meq n (mscale c (mscale d A)) (mscale (c * d) A).
Proof. intros i j _ _. unfold mscale. ring. Qed.
Lemma mscale_1 n A : meq n (mscale 1 A) A.
Proof. intros i j _ _. unfold mscale. ring. Qed.
Lemma mmul_mscale_l n c A B : meq n (mmul n (mscale c A) B) (mscale c (mmul n A B)).
Proof.
  intros i j _ _. unfold mmul, mscale. rewrite <- csum_mult_l. apply csum_ext.
  intros; ring.
Qed.
Lemma mmul_mscale_r n c A B : meq n (mmul n A (mscale c B)) (mscale c (mmul n A B)).
Proof.
  intros i j _ _. unfold mmul, mscale. rewrite <- csum_mult_l. apply csum_ext.
  intros; ring.
Qed.
Lemma mmul_mplus_l n A B D :
  meq n (mmul n (mplus A B) D) (mplus (mmul n A D) (mmul n B D)).
Proof.
  intros i j _ _. unfold mmul, mplus. rewrite <- csum_plus. apply csum_ext.
  intros; ring.
Qed.
Lemma mmul_mplus_r n A B D :
  meq n (mmul n A (mplus B D)) (mplus (mmul n A B) (mmul n A D)).
Proof.
  intros i j _ _. unfold mmul, mplus. rewrite <- csum_plus. apply csum_ext.
  intros; ring.
Qed.
Lemma mmul_mminus_l n A B D :
  meq n (mmul n (mminus A B) D) (mminus (mmul n A D) (mmul n B D)).
Proof.
  intros i j _ _. unfold mmul, mminus. rewrite <- csum_minus. apply csum_ext.
  intros; ring.
Qed.
Lemma mmul_mminus_r n A B D :
  meq n (mmul n A (mminus B D)) (mminus (mmul n A B) (mmul n A D)).
Proof.
  intros i j _ _. unfold mmul, mminus. rewrite <- csum_minus. apply csum_ext.
  intros; ring.
Qed.

Lemma mtrace_mmul_comm n A B : mtrace n (mmul n A B) = mtrace n (mmul n B A).
Proof.
  unfold mtrace, mmul. rewrite csum_swap. apply csum_ext. intros k _.
  apply csum_ext. intros; ring.
Qed.
Lemma mtrace_mscale n c A : mtrace n (mscale c A) = c * mtrace n A.
Proof. unfold mtrace, mscale. apply csum_mult_l. Qed.
Lemma mtrace_adj n A : mtrace n (adj A) = Cconj (mtrace n A).
Proof. unfold mtrace, adj. symmetry. apply csum_conj. Qed.
Lemma mtrace_mid n : mtrace n mid = RtoC (INR n).
Proof.
  unfold mtrace, mid.
  rewrite (csum_ext n _ (fun _ => 1)) by (intros; now rewrite Nat.eqb_refl).
  rewrite csum_const. ring.
Qed.

(** Kronecker products. *)
Lemma kron_mmul n m A B A' B' :
  (0 < m)%nat ->
  meq (n * m) (mmul (n * m) (kron m A B) (kron m A' B'))
              (kron m (mmul n A A') (mmul m B B')).
Proof.
  intros Hm i j _ _. unfold mmul, kron. rewrite csum_prod.
  rewrite <- csum_mult_r. apply csum_ext. intros a Ha.
  rewrite <- csum_mult_l. apply csum_ext. intros b Hb.
  rewrite Nat.div_add_l by lia. rewrite (Nat.div_small b m) by lia.
  rewrite Nat.add_0_r.
  replace ((a * m + b) mod m)%nat with b.
  2:{ rewrite Nat.add_comm, Nat.mod_add by lia. now rewrite Nat.mod_small. }
  ring.
Qed.
Lemma kron_mid n m : (0 < m)%nat -> meq (n * m) (kron m mid mid) mid.
Proof.
  intros Hm i j _ _. unfold kron, mid.
  destruct (Nat.eqb_spec i j) as [->|Hn].
  - rewrite !Nat.eqb_refl. ring.
  - destruct (Nat.eqb_spec (i / m) (j / m)) as [E|]; [|ring].
    destruct (Nat.eqb_spec (i mod m) (j mod m)) as [E'|]; [|ring].
    exfalso. apply Hn. rewrite (Nat.div_mod i m), (Nat.div_mod j m) by lia. congruence.
Qed.
Lemma kron_adj n m A B : meq (n * m) (adj (kron m A B)) (kron m (adj A) (adj B)).
Proof. intros i j _ _. unfold adj, kron. apply Cconj_mult. Qed.
Lemma kron_proper n m A A' B B' :
  (0 < m)%nat -> meq n A A' -> meq m B B' -> meq (n * m) (kron m A B) (kron m A' B').
Proof.
  intros Hm HA HB i j Hi Hj. unfold kron. rewrite HA, HB; auto.
  - apply Nat.mod_upper_bound; lia.
  - apply Nat.mod_upper_bound; lia.
  - apply Nat.div_lt_upper_bound; lia.
  - apply Nat.div_lt_upper_bound; lia.
Qed.

(** Boolean comparisons. *)
Lemma Rleb_spec x y : Rleb x y = true <-> (x <= y)%R.
Proof. unfold Rleb. destruct (Rle_dec x y); split; intros; auto; try congruence; contradiction. Qed.
Lemma Rltb_spec x y : Rltb x y = true <-> (x < y)%R.
Proof. unfold Rltb. destruct (Rlt_dec x y); split; intros; auto; try congruence; contradiction. Qed.
Lemma Rleb_false x y : Rleb x y = false <-> (y < x)%R.
Proof. unfold Rleb. destruct (Rle_dec x y); split; intros; auto; try congruence; lra. Qed.
Lemma Rltb_false x y : Rltb x y = false <-> (y <= x)%R.
Proof. unfold Rltb. destruct (Rlt_dec x y); split; intros; auto; try congruence; lra. Qed.
