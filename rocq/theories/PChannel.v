(** Averages of random unitary steps against a unitary evolution. *)
From Coq Require Import Reals List Arith Bool ZArith Lra Lia Morphisms Setoid.
From Coquelicot Require Import Coquelicot.
From Verif Require Import CMat CMatFacts Det DetFacts Norms Expm ExpmFacts ModelUnitary ModelHamiltonian Spec SpecGates SpecHamiltonian SpecChannel PGates PHam.
Import ListNotations.
Open Scope R_scope.
Open Scope C_scope.

(** * Taylor's formula with a bound of the second derivative *)
Lemma taylor_upper (f f1 f2 : R -> R) c :
  (forall s, is_derive f s (f1 s)) -> (forall s, is_derive f1 s (f2 s)) ->
  (forall s, (f2 s <= c)%R) -> (f 1 - f 0 - f1 0 <= c / 2)%R.
Proof.
  intros D1 D2 B.
  assert (K1 : forall s, (0 <= s)%R -> (f1 s - f1 0 <= c * s)%R).
  { intros s Hs. destruct (MVT_gen f1 0 s f2) as (z & _ & Ez).
    - intros; apply D2.
    - intros x _. apply derivable_continuous_pt. exists (f2 x). apply is_derive_Reals, D2.
    - rewrite Ez, Rminus_0_r. apply Rmult_le_compat_r; auto. }
  set (g := fun s => (f s - f1 0 * s - c / 2 * (s * s))%R).
  assert (DG : forall s, is_derive g s (f1 s - f1 0 - c * s)%R).
  { intros s. unfold g. assert (X := D1 s).
    auto_derive; [exists (f1 s); exact X|]. change (Derive (fun x => f x) s) with (Derive f s). rewrite (is_derive_unique f s _ X). field. }
  destruct (MVT_gen g 0 1 (fun s => (f1 s - f1 0 - c * s)%R)) as (z & Hz & Ez).
  - intros; apply DG.
  - intros x _. apply derivable_continuous_pt. exists (f1 x - f1 0 - c * x)%R. apply is_derive_Reals, DG.
  - rewrite Rmin_left, Rmax_right in Hz by lra. unfold g in Ez.
    assert (X := K1 z (proj1 Hz)). nra.
Qed.

(** * The real inner product of matrices *)
Definition cip (n : nat) (Z X : mat) : C := csum n (fun i => csum n (fun j => Cconj (Z i j) * X i j)).

Lemma cip_minus n Z X Y : cip n Z (mminus X Y) = cip n Z X - cip n Z Y.
Proof.
  unfold cip. rewrite <- csum_minus. apply csum_ext. intros i Hi. rewrite <- csum_minus. apply csum_ext.
  intros j Hj. unfold mminus. ring.
Qed.
Lemma cip_meq n Z X Y : meq n X Y -> cip n Z X = cip n Z Y.
Proof. intros E. unfold cip. apply csum_ext. intros i Hi. apply csum_ext. intros j Hj. now rewrite E. Qed.
Lemma cip_self n X : cip n X X = RtoC (fro2 n X).
Proof.
  unfold cip, fro2, vnorm2. rewrite <- csum_RtoC. apply csum_ext. intros i Hi. rewrite <- csum_RtoC.
  apply csum_ext. intros j Hj. rewrite Cmult_comm. apply Cmult_conj.
Qed.
Lemma cip_bound n Z X : (Cmod (cip n Z X) <= fro n Z * fro n X)%R.
Proof.
  unfold fro. rewrite !fro2_flat.
  replace (cip n Z X) with (csum (n * n) (fun k => (fun k => Cconj (Z (k / n)%nat (k mod n)%nat)) k * (fun k => X (k / n)%nat (k mod n)%nat) k)).
  - eapply Rle_trans; [apply csum_cauchy|]. unfold vnorm. right. f_equal. f_equal. unfold vnorm2. apply rsum_ext.
    intros k _. now rewrite Cmod_conj.
  - unfold cip. destruct n as [|m]; [reflexivity|]. rewrite csum_prod by lia. apply csum_ext. intros i Hi.
    apply csum_ext. intros j Hj. rewrite Nat.div_add_l, Nat.div_small, Nat.add_0_r by lia.
    rewrite Nat.add_comm, Nat.mod_add, Nat.mod_small by lia. reflexivity.
Qed.

Lemma cip_deriv n Z F t L : mderiv n F t L -> cderiv (fun s => cip n Z (F s)) t (cip n Z L).
Proof.
  intros D. unfold cip.
  apply (cderiv_csum n (fun i s => csum n (fun j => Cconj (Z i j) * F s i j)) t (fun i => csum n (fun j => Cconj (Z i j) * L i j))).
  intros i Hi.
  apply (cderiv_csum n (fun j s => Cconj (Z i j) * F s i j) t (fun j => Cconj (Z i j) * L i j)).
  intros j Hj. replace (Cconj (Z i j) * L i j) with (0 * F t i j + Cconj (Z i j) * L i j) by ring.
  apply (cderiv_mult (fun _ => Cconj (Z i j)) (fun s => F s i j)); [apply cderiv_const|now apply D].
Qed.

Lemma taylor_mat n (F F1 F2 : R -> mat) c : (0 <= c)%R ->
  (forall s, mderiv n F s (F1 s)) -> (forall s, mderiv n F1 s (F2 s)) -> (forall s, (fro n (F2 s) <= c)%R) ->
  (fro n (mminus (mminus (F 1%R) (F 0%R)) (F1 0%R)) <= c / 2)%R.
Proof.
  intros C0 D1 D2 B. set (Z := mminus (mminus (F 1%R) (F 0%R)) (F1 0%R)).
  assert (ZP := fro_nonneg n Z).
  assert (K := taylor_upper (fun s => fst (cip n Z (F s))) (fun s => fst (cip n Z (F1 s)))
                 (fun s => fst (cip n Z (F2 s))) (fro n Z * c)).
  cbv beta in K.
  assert (E : (fst (cip n Z (F 1%R)) - fst (cip n Z (F 0%R)) - fst (cip n Z (F1 0%R)))%R = (fro n Z ^ 2)%R).
  { rewrite fro_sqr. assert (X := cip_self n Z). unfold Z at 2 in X. rewrite !cip_minus in X.
    apply (f_equal fst) in X. cbn [fst RtoC] in X. exact X. }
  rewrite E in K.
  assert (K' : (fro n Z ^ 2 <= fro n Z * c / 2)%R).
  { apply K.
    - intros s. apply (cip_deriv n Z F s _ (D1 s)).
    - intros s. apply (cip_deriv n Z F1 s _ (D2 s)).
    - intros s. eapply Rle_trans; [apply Rle_abs|].
      eapply Rle_trans; [eapply Rle_trans; [apply Rmax_l|apply Rmax_Cmod]|].
      eapply Rle_trans; [apply cip_bound|]. apply Rmult_le_compat_l; auto. }
  destruct (Req_dec (fro n Z) 0) as [->|N]; [lra|]. nra.
Qed.

(** * Operator bounds in the Frobenius norm *)
Definition opb (n : nat) (A : mat) (a : R) : Prop := forall v, (vnorm n (mapply n A v) <= a * vnorm n v)%R.

Lemma opb_l n A a Y : (0 <= a)%R -> opb n A a -> (fro n (mmul n A Y) <= a * fro n Y)%R.
Proof.
  intros A0 H. apply sqr_le_le; [apply Rmult_le_pos; [exact A0|apply fro_nonneg]|].
  replace ((a * fro n Y) ^ 2)%R with (a ^ 2 * fro n Y ^ 2)%R by ring. rewrite !fro_sqr.
  unfold fro2, vnorm2. rewrite (rsum_swap n n), (rsum_swap n n (fun i j => (Cmod (Y i j) ^ 2)%R)).
  rewrite <- rsum_mult_l. apply rsum_le. intros j Hj.
  assert (K := H (fun k => Y k j)).
  assert (K2 : (vnorm n (mapply n A (fun k => Y k j)) ^ 2 <= (a * vnorm n (fun k => Y k j)) ^ 2)%R).
  { apply pow_incr. split; [apply vnorm_nonneg|exact K]. }
  replace ((a * vnorm n (fun k => Y k j)) ^ 2)%R with (a ^ 2 * vnorm n (fun k => Y k j) ^ 2)%R in K2 by ring.
  rewrite !vnorm_sqr in K2. unfold vnorm2 in K2. exact K2.
Qed.

Lemma opb_r n A a Y : (0 <= a)%R -> hermitian_mx n A -> opb n A a -> (fro n (mmul n Y A) <= a * fro n Y)%R.
Proof.
  intros A0 HA H. rewrite <- fro_adj, adj_mmul. rewrite <- (fro_adj n Y).
  replace (fro n (mmul n (adj A) (adj Y))) with (fro n (mmul n A (adj Y))); [now apply opb_l|].
  apply fro_proper. apply mmul_meq; [|reflexivity]. first [exact HA | symmetry; exact HA].
Qed.

Lemma opb_scale n A a (t : R) : opb n A a -> opb n (mscale (RtoC t) A) (Rabs t * a).
Proof.
  intros H v. replace (vnorm n (mapply n (mscale (RtoC t) A) v)) with (Rabs t * vnorm n (mapply n A v))%R.
  - rewrite Rmult_assoc. apply Rmult_le_compat_l; [apply Rabs_pos|apply H].
  - rewrite <- Cmod_R, <- vnorm_scale. apply vnorm_ext. intros i Hi. unfold mapply, mscale.
    rewrite <- csum_mult_l. apply csum_ext. intros. ring.
Qed.
Lemma opb_meq n A B a : meq n A B -> opb n A a -> opb n B a.
Proof.
  intros E H v. eapply Rle_trans; [|apply (H v)]. right. apply vnorm_ext. intros i Hi. unfold mapply.
  apply csum_ext. intros j Hj. now rewrite E.
Qed.

(** * Turning by an evolution *)
#[export] Instance turned_proper n : Proper (meq n ==> meq n ==> meq n) (turned n).
Proof. intros U U' EU X X' EX. unfold turned. now rewrite EU, EX. Qed.

Lemma turned_mid n X : meq n (turned n mid X) X.
Proof. unfold turned. rewrite adj_mid, mmul_1_r, mmul_1_l. reflexivity. Qed.
Lemma turned_mmul n U V X : meq n (turned n (mmul n U V) X) (turned n U (turned n V X)).
Proof. unfold turned. rewrite adj_mmul. now rewrite !mmul_assoc. Qed.
Lemma turned_fro n U X : unitary_mx n U -> fro n (turned n U X) = fro n X.
Proof.
  intros H. unfold turned. rewrite fro_unitary_l by exact H. apply fro_unitary_r. now apply unitary_adj.
Qed.
Lemma turned_minus n U X Y : meq n (turned n U (mminus X Y)) (mminus (turned n U X) (turned n U Y)).
Proof. unfold turned. rewrite mmul_mminus_l, mmul_mminus_r. reflexivity. Qed.

Definition comm_i (n : nat) (A Y : mat) : mat := mminus (mmul n (mscale Ci A) Y) (mmul n Y (mscale Ci A)).

Lemma comm_i_meq n A Y Y' : meq n Y Y' -> meq n (comm_i n A Y) (comm_i n A Y').
Proof.
  intros E. unfold comm_i.
  assert (E1 : meq n (mmul n (mscale Ci A) Y) (mmul n (mscale Ci A) Y')) by now rewrite E.
  assert (E2 : meq n (mmul n Y (mscale Ci A)) (mmul n Y' (mscale Ci A))) by now rewrite E.
  intros i j Hi Hj. unfold mminus. now rewrite (E1 i j Hi Hj), (E2 i j Hi Hj).
Qed.

Lemma comm_i_fro n A a Y : (0 <= a)%R -> hermitian_mx n A -> opb n A a ->
  (fro n (comm_i n A Y) <= 2 * a * fro n Y)%R.
Proof.
  intros A0 HA H. unfold comm_i.
  assert (T : (fro n (mminus (mmul n (mscale Ci A) Y) (mmul n Y (mscale Ci A))) <=
    fro n (mmul n (mscale Ci A) Y) + fro n (mmul n Y (mscale Ci A)))%R).
  { eapply Rle_trans; [apply (fro_minus_triangle n _ mzero)|]. apply Rplus_le_compat; right.
    - apply fro_proper. intros i j _ _. unfold mminus, mzero. ring.
    - rewrite fro_minus_sym. apply fro_proper. intros i j _ _. unfold mminus, mzero. ring. }
  rewrite mmul_mscale_l, mmul_mscale_r, !fro_mscale in T.
  rewrite Cmod_Ci in T. assert (K1 := opb_l n A a Y A0 H). assert (K2 := opb_r n A a Y A0 HA H).
  eapply Rle_trans; [|eapply Rle_trans; [exact T|lra]].
  right. apply fro_proper. rewrite mmul_mscale_l, mmul_mscale_r. reflexivity.
Qed.

Lemma cderiv_conj f t l : cderiv f t l -> cderiv (fun s => Cconj (f s)) t (Cconj l).
Proof.
  intros [D1 D2]. split; [exact D1|]. apply (is_derive_opp (fun s => snd (f s)) t). exact D2.
Qed.
Lemma mderiv_adj n F t L : mderiv n F t L -> mderiv n (fun s => adj (F s)) t (adj L).
Proof. intros D i j Hi Hj. unfold adj. apply (cderiv_conj (fun s => F s j i)). now apply D. Qed.
Lemma cderiv_opp f t l : cderiv f t l -> cderiv (fun s => - f s) t (- l).
Proof.
  intros [D1 D2]. split; [apply (is_derive_opp (fun s => fst (f s)) t)|apply (is_derive_opp (fun s => snd (f s)) t)]; assumption.
Qed.
Lemma mderiv_minus n F G t L M : mderiv n F t L -> mderiv n G t M ->
  mderiv n (fun s => mminus (F s) (G s)) t (mminus L M).
Proof.
  intros D E i j Hi Hj. unfold mminus.
  apply (cderiv_plus (fun s => F s i j) (fun s => - G s i j)); [now apply D|].
  apply (cderiv_opp (fun s => G s i j)). now apply E.
Qed.
Lemma mderiv_mul_l n A F t L : mderiv n F t L -> mderiv n (fun s => mmul n A (F s)) t (mmul n A L).
Proof.
  intros D. eapply mderiv_val; [|apply mderiv_mmul; [apply mderiv_const|exact D]].
  intros i j Hi Hj. unfold mplus. rewrite (mmul_zero_l n (F t) i j Hi Hj). unfold mzero. ring.
Qed.
Lemma mderiv_mul_r n A F t L : mderiv n F t L -> mderiv n (fun s => mmul n (F s) A) t (mmul n L A).
Proof.
  intros D. eapply mderiv_val; [|apply mderiv_mmul; [exact D|apply mderiv_const]].
  intros i j Hi Hj. unfold mplus. rewrite (mmul_zero_r n (F t) i j Hi Hj). unfold mzero. ring.
Qed.
Lemma mderiv_comm n A F t L : mderiv n F t L -> mderiv n (fun s => comm_i n A (F s)) t (comm_i n A L).
Proof. intros D. unfold comm_i. apply mderiv_minus; [now apply mderiv_mul_l|now apply mderiv_mul_r]. Qed.

Lemma adj_iA n A : hermitian_mx n A -> meq n (adj (mscale Ci A)) (mscale (- (1)) (mscale Ci A)).
Proof.
  intros H. unfold hermitian_mx in H. rewrite adj_mscale, <- H, mscale_mscale.
  replace (Cconj Ci) with (- (1) * Ci); [reflexivity|]. apply C_eq; simpl; ring.
Qed.

Lemma turned_deriv n A X s : hermitian_mx n A ->
  mderiv n (fun s => turned n (ev n A s) X) s (comm_i n A (turned n (ev n A s) X)).
Proof.
  intros HA. assert (D := epath_deriv n (mscale Ci A) s).
  eapply mderiv_val; [|apply mderiv_mmul; [exact D|apply mderiv_mul_l, mderiv_adj, D]].
  cbv beta. unfold comm_i, turned, ev. set (E := epath n (mscale Ci A) s). set (B := mscale Ci A).
  assert (EA : meq n (mmul n E (mmul n X (adj (mmul n B E)))) (mscale (- (1)) (mmul n (mmul n E (mmul n X (adj E))) B))).
  { rewrite adj_mmul. unfold B. rewrite (adj_iA n A HA). fold B.
    rewrite !mmul_mscale_r. now rewrite !mmul_assoc. }
  intros i j Hi Hj. unfold mplus, mminus. rewrite (EA i j Hi Hj). unfold mscale at 1.
  rewrite <- (mmul_assoc n B E _ i j Hi Hj). ring.
Qed.

Lemma turned_taylor n A a X : (0 <= a)%R -> hermitian_mx n A -> opb n A a ->
  (fro n (mminus (mminus (turned n (ev n A 1) X) X) (comm_i n A X)) <= 2 * a ^ 2 * fro n X)%R.
Proof.
  intros A0 HA H.
  assert (XP := fro_nonneg n X).
  assert (K := taylor_mat n (fun s => turned n (ev n A s) X) (fun s => comm_i n A (turned n (ev n A s) X))
    (fun s => comm_i n A (comm_i n A (turned n (ev n A s) X))) (4 * a ^ 2 * fro n X)).
  replace (2 * a ^ 2 * fro n X)%R with (4 * a ^ 2 * fro n X / 2)%R by field.
  eapply Rle_trans; [|apply K].
  - right. apply fro_proper. cbv beta.
    assert (E0 : meq n (turned n (ev n A 0) X) X) by (rewrite ev_0; apply turned_mid).
    assert (E1 := comm_i_meq n A _ _ E0).
    intros i j Hi Hj. unfold mminus. now rewrite (E0 i j Hi Hj), (E1 i j Hi Hj).
  - apply Rmult_le_pos; [|exact XP]. nra.
  - intros s. now apply turned_deriv.
  - intros s. apply mderiv_comm. now apply turned_deriv.
  - intros s. eapply Rle_trans; [apply (comm_i_fro n A a _ A0 HA H)|].
    assert (K1 := comm_i_fro n A a (turned n (ev n A s) X) A0 HA H).
    rewrite turned_fro in K1 by (now apply ev_unitary). nra.
Qed.

(** * Weighted sums of matrices *)
Definition wsum (m : nat) (p : nat -> R) (Y : nat -> mat) : mat :=
  fun i j => csum m (fun k => RtoC (p k) * Y k i j).

Lemma wsum_fro n m p Y : (forall k, (k < m)%nat -> (0 <= p k)%R) ->
  (fro n (wsum m p Y) <= rsum m (fun k => p k * fro n (Y k)))%R.
Proof.
  induction m as [|m IH]; intros H.
  - unfold wsum. simpl. right. apply (fro_mzero n).
  - cbn [rsum]. eapply Rle_trans; [|apply Rplus_le_compat_r, IH; intros; apply H; lia].
    replace (p m * fro n (Y m))%R with (fro n (mscale (RtoC (p m)) (Y m))).
    + eapply Rle_trans; [|apply fro_triangle]. right. apply fro_proper. intros i j _ _. reflexivity.
    + rewrite fro_mscale, Cmod_R, Rabs_pos_eq; [reflexivity|apply H; lia].
Qed.
Lemma wsum_meq n m p Y Z : (forall k, (k < m)%nat -> meq n (Y k) (Z k)) -> meq n (wsum m p Y) (wsum m p Z).
Proof. intros H i j Hi Hj. unfold wsum. apply csum_ext. intros k Hk. now rewrite (H k Hk i j Hi Hj). Qed.
Lemma wsum_minus n m p Y Z : meq n (wsum m p (fun k => mminus (Y k) (Z k))) (mminus (wsum m p Y) (wsum m p Z)).
Proof.
  intros i j _ _. unfold wsum, mminus. rewrite <- csum_minus. apply csum_ext. intros. ring.
Qed.
Lemma wsum_const n m p X : rsum m p = 1%R -> meq n (wsum m p (fun _ => X)) X.
Proof.
  intros H i j _ _. unfold wsum. rewrite csum_mult_r. rewrite csum_RtoC, H. ring.
Qed.
Lemma wsum_mmul_l n m p A Y : meq n (mmul n A (wsum m p Y)) (wsum m p (fun k => mmul n A (Y k))).
Proof.
  intros i j _ _. unfold wsum, mmul. rewrite <- (csum_ext m (fun k => csum n (fun q => A i q * (RtoC (p k) * Y k q j)))).
  - rewrite csum_swap. apply csum_ext. intros q _. now rewrite <- csum_mult_l.
  - intros k _. rewrite <- csum_mult_l. apply csum_ext. intros. ring.
Qed.
Lemma wsum_mmul_r n m p A Y : meq n (mmul n (wsum m p Y) A) (wsum m p (fun k => mmul n (Y k) A)).
Proof.
  intros i j _ _. unfold wsum, mmul. rewrite <- (csum_ext m (fun k => csum n (fun q => RtoC (p k) * Y k i q * A q j))).
  - rewrite csum_swap. apply csum_ext. intros q _. now rewrite <- csum_mult_r.
  - intros k _. rewrite <- csum_mult_l. apply csum_ext. intros. ring.
Qed.
Lemma wsum_turned n m p U Y : meq n (turned n U (wsum m p Y)) (wsum m p (fun k => turned n U (Y k))).
Proof. unfold turned. now rewrite wsum_mmul_r, wsum_mmul_l. Qed.

(** * One random step *)
Section Steps.
Variable n m : nat.
Variable p : nat -> R.
Variable A : nat -> mat.
Variable a : R.
Hypothesis a0 : (0 <= a)%R.
Hypothesis p0 : forall k, (k < m)%nat -> (0 <= p k)%R.
Hypothesis p1 : rsum m p = 1%R.
Hypothesis hA : forall k, (k < m)%nat -> hermitian_mx n (A k).
Hypothesis bA : forall k, (k < m)%nat -> opb n (A k) a.

Let B : mat := wsum m p A.

Lemma step_hermitian : hermitian_mx n B.
Proof.
  intros i j Hi Hj. unfold adj, B, wsum. rewrite csum_conj. apply csum_ext. intros k Hk.
  rewrite Cconj_mult, Cconj_R. f_equal. apply (hA k Hk i j Hi Hj).
Qed.

Lemma step_opb : opb n B a.
Proof.
  assert (G : forall q, (q <= m)%nat -> opb n (wsum q p A) (rsum q p * a)).
  { induction q as [|q IH]; intros Hq v.
    - cbn [rsum]. rewrite !Rmult_0_l. right. rewrite <- (Rmult_0_l (vnorm n v)), <- Cmod_0, <- vnorm_scale.
      apply vnorm_ext. intros i Hi. unfold mapply, wsum. rewrite csum_zero; [ring|]. intros k _. simpl. ring.
    - assert (K1 := IH ltac:(lia) v). assert (K2 := bA q ltac:(lia) v). assert (Pq := p0 q ltac:(lia)).
      eapply Rle_trans; [|eapply Rle_trans; [apply (vnorm_triangle n (mapply n (wsum q p A) v) (fun i => RtoC (p q) * mapply n (A q) v i))|]].
      + right. apply vnorm_ext. intros i Hi. unfold mapply, wsum. cbn [csum].
        rewrite <- csum_mult_l, <- csum_plus. apply csum_ext. intros. ring.
      + rewrite vnorm_scale, Cmod_R, Rabs_pos_eq by exact Pq. cbn [rsum].
        assert (V := vnorm_nonneg n v). assert ((p q * vnorm n (mapply n (A q) v) <= p q * (a * vnorm n v))%R).
        { now apply Rmult_le_compat_l. } lra. }
  assert (K := G m (le_n _)). rewrite p1, Rmult_1_l in K. exact K.
Qed.

Lemma step_close X :
  (fro n (mminus (wsum m p (fun k => turned n (ev n (A k) 1) X)) (turned n (ev n B 1) X)) <= 4 * a ^ 2 * fro n X)%R.
Proof.
  assert (T := turned_taylor n B a X a0 step_hermitian step_opb).
  assert (XP := fro_nonneg n X).
  set (R1 := mminus (mminus (turned n (ev n B 1) X) X) (comm_i n B X)) in *.
  set (Rk := fun k => mminus (mminus (turned n (ev n (A k) 1) X) X) (comm_i n (A k) X)).
  assert (EC : meq n (wsum m p (fun k => comm_i n (A k) X)) (comm_i n B X)).
  { unfold comm_i. rewrite (wsum_minus n m p).
    assert (E1 : meq n (mscale Ci B) (wsum m p (fun k => mscale Ci (A k)))).
    { intros i j _ _. unfold mscale, B, wsum. rewrite <- csum_mult_l. apply csum_ext. intros. ring. }
    assert (E2 : meq n (mmul n (mscale Ci B) X) (wsum m p (fun k => mmul n (mscale Ci (A k)) X))).
    { rewrite E1. apply wsum_mmul_r. }
    assert (E3 : meq n (mmul n X (mscale Ci B)) (wsum m p (fun k => mmul n X (mscale Ci (A k))))).
    { rewrite E1. apply wsum_mmul_l. }
    intros i j Hi Hj. unfold mminus. now rewrite (E2 i j Hi Hj), (E3 i j Hi Hj). }
  assert (ES : meq n (wsum m p Rk) (mminus (mminus (wsum m p (fun k => turned n (ev n (A k) 1) X)) X) (comm_i n B X))).
  { unfold Rk. rewrite wsum_minus.
    assert (E1 := wsum_minus n m p (fun k => turned n (ev n (A k) 1) X) (fun _ => X)).
    assert (E2 := wsum_const n m p X p1).
    intros i j Hi Hj. unfold mminus. rewrite <- (EC i j Hi Hj), <- (E2 i j Hi Hj) at 1.
    specialize (E1 i j Hi Hj). unfold mminus in E1. rewrite E1. reflexivity. }
  assert (FS : (fro n (wsum m p Rk) <= 2 * a ^ 2 * fro n X)%R).
  { eapply Rle_trans; [apply wsum_fro, p0|].
    apply Rle_trans with (rsum m (fun k => (2 * a ^ 2 * fro n X) * p k)%R).
    - apply rsum_le. intros k Hk. rewrite Rmult_comm. apply Rmult_le_compat_r; [now apply p0|].
      unfold Rk. apply turned_taylor; auto.
    - rewrite rsum_mult_l, p1. lra. }
  assert (K := fro_minus_triangle n (wsum m p Rk) mzero R1).
  replace (fro n (mminus (wsum m p Rk) mzero)) with (fro n (wsum m p Rk)) in K
    by (apply fro_proper; intros i j _ _; unfold mminus, mzero; ring).
  replace (fro n (mminus mzero R1)) with (fro n R1) in K
    by (rewrite fro_minus_sym; apply fro_proper; intros i j _ _; unfold mminus, mzero; ring).
  eapply Rle_trans; [|eapply Rle_trans; [exact K|lra]].
  right. apply fro_proper. intros i j Hi Hj. unfold mminus at 2. rewrite (ES i j Hi Hj). unfold R1, mminus. ring.
Qed.

(** * Many steps *)
Fixpoint average (N : nat) (X : mat) : mat :=
  match N with O => X | S N' => wsum m p (fun k => average N' (turned n (ev n (A k) 1) X)) end.

Lemma average_close N : forall X,
  (fro n (mminus (average N X) (turned n (ev n B (INR N)) X)) <= INR N * (4 * a ^ 2 * fro n X))%R.
Proof.
  induction N as [|N IH]; intros X.
  - simpl INR. rewrite Rmult_0_l. rewrite fro_minus_self; [lra|]. cbn [average]. now rewrite ev_0, turned_mid.
  - cbn [average]. rewrite S_INR, Rmult_plus_distr_r, Rmult_1_l.
    set (Y := fun k => turned n (ev n (A k) 1) X).
    change (fun k => average N (turned n (ev n (A k) 1) X)) with (fun k => average N (Y k)).
    assert (UB : unitary_mx n (ev n B (INR N))) by (apply ev_unitary, step_hermitian).
    eapply Rle_trans; [apply (fro_minus_triangle n _ (turned n (ev n B (INR N)) (wsum m p Y)))|].
    apply Rplus_le_compat.
    + replace (fro n (mminus (wsum m p (fun k => average N (Y k))) (turned n (ev n B (INR N)) (wsum m p Y))))
        with (fro n (wsum m p (fun k => mminus (average N (Y k)) (turned n (ev n B (INR N)) (Y k))))).
      * eapply Rle_trans; [apply wsum_fro, p0|].
        apply Rle_trans with (rsum m (fun k => (INR N * (4 * a ^ 2 * fro n X)) * p k)%R).
        -- apply rsum_le. intros k Hk. rewrite Rmult_comm. apply Rmult_le_compat_r; [now apply p0|].
           eapply Rle_trans; [apply IH|]. unfold Y. rewrite turned_fro; [lra|]. apply ev_unitary. now apply hA.
        -- rewrite rsum_mult_l, p1. lra.
      * apply fro_proper. rewrite wsum_minus. assert (E := wsum_turned n m p (ev n B (INR N)) Y).
        intros i j Hi Hj. unfold mminus. now rewrite (E i j Hi Hj).
    + eapply Rle_trans; [|apply (step_close X)]. right. fold Y.
      rewrite <- (turned_fro n (ev n B (INR N)) (mminus (wsum m p Y) (turned n (ev n B 1) X))) by exact UB.
      apply fro_proper. rewrite turned_minus.
      assert (E : meq n (turned n (ev n B (INR N + 1)) X) (turned n (ev n B (INR N)) (turned n (ev n B 1) X))).
      { rewrite ev_add. apply turned_mmul. }
      intros i j Hi Hj. unfold mminus. now rewrite (E i j Hi Hj).
Qed.
End Steps.
