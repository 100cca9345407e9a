(** The largest singular value, and the constructor of [HamiltonianTerm]. *)
From Coq Require Import Reals List Arith Bool String ZArith Lra Lia.
From Coquelicot Require Import Coquelicot.
From Verif Require Import Base CMat CMatFacts Det DetFacts Norms CRoot Expm ModelUnitary ModelEntry
  ModelPrimitive ModelSequence ModelCompiler ModelVerification ModelGates ModelHamiltonian Spec SpecModel
  SpecCompiler SpecGates SpecHamiltonian PUnitary.
Import ListNotations.
Open Scope R_scope.
Open Scope C_scope.
Open Scope res_scope.

(** * Inner products *)
Definition ip (n : nat) (v w : nat -> C) : C := csum n (fun i => Cconj (v i) * w i).

Lemma ip_self n v : ip n v v = RtoC (vnorm2 n v).
Proof.
  unfold ip, vnorm2. rewrite <- csum_RtoC. apply csum_ext. intros i _.
  rewrite <- Cmult_conj. ring.
Qed.
Lemma ip_conj n v w : ip n w v = Cconj (ip n v w).
Proof.
  unfold ip. rewrite csum_conj. apply csum_ext. intros i _. rewrite Cconj_mult, Cconj_invol. ring.
Qed.

Lemma vlen_vnorm n v : vlen n v = vnorm n v.
Proof.
  unfold vlen, vnorm. f_equal.
  transitivity (fst (RtoC (vnorm2 n v))); [|reflexivity]. rewrite <- ip_self. unfold ip. f_equal.
  apply csum_ext. intros i _. ring.
Qed.
Lemma image_vnorm n A v : image_len n A v = vnorm n (mapply n A v).
Proof. unfold image_len. rewrite vlen_vnorm. reflexivity. Qed.

Lemma vnorm2_minus n v w (s : R) :
  (vnorm2 n (fun i => v i - RtoC s * w i)%C = vnorm2 n v - 2 * s * fst (ip n v w) + s ^ 2 * vnorm2 n w)%R.
Proof.
  apply RtoC_inj. rewrite RtoC_plus, RtoC_minus, !RtoC_mult, <- !ip_self.
  assert (E : RtoC 2 * RtoC s * RtoC (fst (ip n v w)) = RtoC s * (ip n v w + ip n w v)).
  { rewrite (ip_conj n v w). apply C_eq; simpl; ring. }
  rewrite E. unfold ip.
  rewrite (csum_ext n _ (fun i => Cconj (v i) * v i - RtoC s * (Cconj (v i) * w i + Cconj (w i) * v i)
                            + RtoC (s ^ 2) * (Cconj (w i) * w i))).
  - rewrite csum_plus, csum_minus, !csum_mult_l, csum_plus. ring.
  - intros i _. rewrite Cconj_minus, Cconj_mult, Cconj_R. replace (RtoC (s ^ 2)) with (RtoC s * RtoC s).
    + ring.
    + rewrite <- RtoC_mult. f_equal. ring.
Qed.

Lemma ip_adj n A v w : ip n (mapply n A v) w = ip n v (mapply n (adj A) w).
Proof.
  unfold ip, mapply.
  rewrite (csum_ext n _ (fun i => csum n (fun k => Cconj (A i k) * Cconj (v k) * w i))).
  - rewrite csum_swap. apply csum_ext. intros k _. rewrite <- csum_mult_l. apply csum_ext. intros i _.
    unfold adj. ring.
  - intros i _. rewrite csum_conj, <- csum_mult_r. apply csum_ext. intros k _. now rewrite Cconj_mult.
Qed.

Lemma mapply_mmul n A B v i : (i < n)%nat -> mapply n (mmul n A B) v i = mapply n A (mapply n B v) i.
Proof.
  intros _. unfold mapply, mmul.
  rewrite (csum_ext n _ (fun k => csum n (fun l => A i l * B l k * v k))).
  - rewrite csum_swap. apply csum_ext. intros l _. rewrite <- csum_mult_l. apply csum_ext. intros k _. ring.
  - intros k _. now rewrite <- csum_mult_r.
Qed.

Lemma mapply_minus n A v w (s : R) i :
  mapply n A (fun k => v k - RtoC s * w k) i = mapply n A v i - RtoC s * mapply n A w i.
Proof.
  unfold mapply. rewrite <- csum_mult_l, <- csum_minus. apply csum_ext. intros k _. ring.
Qed.
Lemma mapply_scale n A c v i : mapply n A (fun k => c * v k) i = c * mapply n A v i.
Proof. unfold mapply. rewrite <- csum_mult_l. apply csum_ext. intros k _. ring. Qed.
Lemma mapply_mscale n A c v i : mapply n (mscale c A) v i = c * mapply n A v i.
Proof. unfold mapply, mscale. rewrite <- csum_mult_l. apply csum_ext. intros k _. ring. Qed.

Lemma vnorm_mapply n A v : (vnorm n (mapply n A v) <= fro n A * vnorm n v)%R.
Proof.
  apply sqr_le_le; [apply Rmult_le_pos; [apply fro_nonneg|apply vnorm_nonneg]|].
  rewrite Rpow_mult_distr, vnorm_sqr, fro_sqr. unfold fro2. unfold vnorm2 at 1.
  rewrite <- rsum_mult_r. apply rsum_le. intros i _.
  rewrite <- (vnorm_sqr n (A i)), <- Rpow_mult_distr.
  apply pow_incr. split; [apply Cmod_ge_0|]. unfold mapply. apply csum_cauchy.
Qed.

Definition basis (j : nat) : nat -> C := fun i => if Nat.eqb i j then 1 else 0.
Lemma basis_unit n j : (j < n)%nat -> vnorm n (basis j) = 1%R.
Proof.
  intros Hj. unfold vnorm. rewrite <- sqrt_1. f_equal. apply RtoC_inj. rewrite <- ip_self. unfold ip.
  rewrite (csum_single n j); auto.
  - unfold basis. rewrite Nat.eqb_refl. rewrite Cconj_R. ring.
  - intros k _ Hne. unfold basis. destruct (Nat.eqb_spec k j); [congruence|ring].
Qed.
Lemma mapply_basis n A j i : (j < n)%nat -> mapply n A (basis j) i = A i j.
Proof.
  intros Hj. unfold mapply. rewrite (csum_single n j); auto.
  - unfold basis. rewrite Nat.eqb_refl. ring.
  - intros k _ Hne. unfold basis. destruct (Nat.eqb_spec k j); [congruence|ring].
Qed.

(** * The supremum *)
Lemma max_singular_lub n A : (0 < n)%nat ->
  (forall v, vnorm n v = 1%R -> (vnorm n (mapply n A v) <= max_singular n A)%R) /\
  (forall b, (forall v, vnorm n v = 1%R -> (vnorm n (mapply n A v) <= b)%R) -> (max_singular n A <= b)%R).
Proof.
  intros Hn. unfold max_singular.
  set (S := fun y => exists v, vlen n v = 1%R /\ y = image_len n A v).
  destruct (Lub_Rbar_correct S) as [UB LE].
  assert (S0 : S (vnorm n (mapply n A (basis 0)))).
  { exists (basis 0). rewrite vlen_vnorm, image_vnorm. split; [now apply basis_unit|reflexivity]. }
  assert (B : is_ub_Rbar S (fro n A)).
  { intros y (v & Hv & ->). rewrite vlen_vnorm in Hv. rewrite image_vnorm. simpl.
    eapply Rle_trans; [apply vnorm_mapply|]. rewrite Hv. lra. }
  assert (F : is_finite (Lub_Rbar S)).
  { assert (L1 := UB _ S0). assert (L2 := LE _ B).
    destruct (Lub_Rbar S); simpl in *; [reflexivity|contradiction|contradiction]. }
  split.
  - intros v Hv. assert (L := UB (vnorm n (mapply n A v))). rewrite <- F in L. simpl in L. apply L.
    exists v. rewrite vlen_vnorm, image_vnorm. auto.
  - intros b Hb. assert (L := LE b). rewrite <- F in L. simpl in L. apply L.
    intros y (v & Hv & ->). rewrite vlen_vnorm in Hv. rewrite image_vnorm. simpl. auto.
Qed.

Lemma max_singular_norm n A : (0 < n)%nat -> operator_norm n A (max_singular n A).
Proof.
  intros Hn. destruct (max_singular_lub n A Hn) as [H1 H2]. split.
  - intros v. destruct (Req_dec (vnorm n v) 0) as [Z|Z].
    + rewrite Z, Rmult_0_r. eapply Rle_trans; [apply vnorm_mapply|]. rewrite Z. lra.
    + assert (P := vnorm_nonneg n v).
      assert (H := H1 (fun k => RtoC (/ vnorm n v) * v k)).
      rewrite vnorm_scale, Cmod_R, Rabs_pos_eq in H by (apply Rlt_le, Rinv_0_lt_compat; lra).
      specialize (H (Rinv_l _ Z)).
      rewrite (vnorm_ext n _ (fun i => RtoC (/ vnorm n v) * mapply n A v i)) in H
        by (intros; apply mapply_scale).
      rewrite vnorm_scale, Cmod_R, Rabs_pos_eq in H by (apply Rlt_le, Rinv_0_lt_compat; lra).
      apply (Rmult_le_compat_l (vnorm n v)) in H; [|exact P].
      rewrite <- Rmult_assoc, Rinv_r, Rmult_1_l in H by exact Z. lra.
  - intros b Hb. apply H2. intros v Hv. assert (H := Hb v). rewrite Hv, Rmult_1_r in H. exact H.
Qed.

Lemma max_singular_nonneg n A : (0 < n)%nat -> (0 <= max_singular n A)%R.
Proof.
  intros Hn. destruct (max_singular_lub n A Hn) as [H1 _].
  eapply Rle_trans; [|apply (H1 (basis 0)); now apply basis_unit]. apply vnorm_nonneg.
Qed.

Lemma max_singular_0 n A : (0 < n)%nat -> (max_singular n A = 0%R <-> meq n A mzero).
Proof.
  intros Hn. destruct (max_singular_lub n A Hn) as [H1 H2]. split.
  - intros E i j Hi Hj. apply Cmod_eq_0. apply Rle_antisym; [|apply Cmod_ge_0]. rewrite <- E.
    eapply Rle_trans; [|apply (H1 (basis j)); now apply basis_unit].
    rewrite <- (mapply_basis n A j i Hj). now apply (vnorm_entry n (mapply n A (basis j))).
  - intros Z. apply Rle_antisym; [|now apply max_singular_nonneg].
    apply H2. intros v _. eapply Rle_trans; [apply vnorm_mapply|]. rewrite Z, fro_mzero. lra.
Qed.

(** The supremum is attained at an eigenvector of [A^dagger A]. *)
Lemma max_singular_value n A : (0 < n)%nat -> singular_value n A (max_singular n A).
Proof.
  intros Hn. set (c := max_singular n A). assert (C0 : (0 <= c)%R) by now apply max_singular_nonneg.
  destruct (max_singular_norm n A Hn) as [HN _]. fold c in HN.
  split; [exact C0|].
  destruct (Req_dec c 0) as [Z|Z].
  { exists (basis 0). split; [now apply basis_unit|]. intros i Hi. rewrite Z.
    replace (RtoC (0 ^ 2)) with (RtoC 0) by (f_equal; ring). rewrite Cmult_0_l.
    assert (A0 : meq n A mzero) by (apply max_singular_0; auto).
    rewrite mapply_basis by auto. unfold mmul. apply csum_zero. intros k Hk. unfold adj.
    rewrite (A0 k i Hk Hi). unfold mzero. rewrite Cconj_R. ring. }
  assert (CP : (0 < c)%R) by lra.
  set (Hm := mminus (mscale (RtoC (c ^ 2)) mid) (mmul n (adj A) A)).
  assert (HmE : forall v i, (i < n)%nat ->
            mapply n Hm v i = RtoC (c ^ 2) * v i - mapply n (mmul n (adj A) A) v i).
  { intros v i Hi. unfold mapply, Hm, mminus, mscale.
    rewrite (csum_ext n _ (fun k => RtoC (c ^ 2) * (mid i k * v k) - mmul n (adj A) A i k * v k)) by (intros; ring).
    rewrite csum_minus, csum_mult_l. f_equal. f_equal. rewrite (csum_single n i); auto.
    - unfold mid. rewrite Nat.eqb_refl. ring.
    - intros k _ Hne. unfold mid. destruct (Nat.eqb_spec i k); [congruence|ring]. }
  destruct (Ceq_dec (det n Hm) 0) as [D|D].
  - rewrite <- det_transpose in D. destruct (@det0_kernel n _ D) as (v & (i0 & Hi0 & Hv0) & K).
    assert (NZ : vnorm n v <> 0%R).
    { intros E. apply Hv0. now apply (vnorm_0 n). }
    assert (NP := vnorm_nonneg n v).
    exists (fun i => RtoC (/ vnorm n v) * v i). split.
    + rewrite vnorm_scale, Cmod_R, Rabs_pos_eq by (apply Rlt_le, Rinv_0_lt_compat; lra). now apply Rinv_l.
    + intros i Hi. rewrite mapply_scale.
      assert (K1 := K i Hi). assert (K2 := HmE v i Hi).
      assert (K3 : mapply n Hm v i = 0).
      { rewrite <- K1. unfold mapply. apply csum_ext. intros k _. unfold transpose. ring. }
      rewrite K3 in K2. replace (mapply n (mmul n (adj A) A) v i) with (RtoC (c ^ 2) * v i).
      * ring.
      * transitivity (RtoC (c ^ 2) * v i - 0); [ring|]. rewrite K2. ring.
  - exfalso. destruct (@det_inverse n _ D) as [G HG].
    (* |Hv|^2 <= c^2 (c^2 |v|^2 - |Av|^2) *)
    assert (Q : forall v, (vnorm2 n (mapply n Hm v) <= c ^ 2 * (c ^ 2 * vnorm2 n v - vnorm2 n (mapply n A v)))%R).
    { intros v. set (y := mapply n Hm v).
      assert (B := HN (fun i => v i - RtoC (/ c ^ 2) * y i)).
      assert (B2 := pow_incr _ _ 2 (conj (vnorm_nonneg n _) B)).
      rewrite Rpow_mult_distr, !vnorm_sqr in B2.
      assert (E1 : vnorm2 n (mapply n A (fun i => v i - RtoC (/ c ^ 2) * y i))
                   = vnorm2 n (fun i => mapply n A v i - RtoC (/ c ^ 2) * mapply n A y i)).
      { unfold vnorm2. apply rsum_ext. intros i _. now rewrite mapply_minus. }
      rewrite E1, !vnorm2_minus in B2. clear E1 B.
      (* the cross terms *)
      assert (X : (c ^ 2 * fst (ip n v y) - fst (ip n (mapply n A v) (mapply n A y)) = vnorm2 n y)%R).
      { assert (E2 : ip n (mapply n A v) (mapply n A y) = ip n (mapply n (mmul n (adj A) A) v) y).
        { rewrite ip_conj, ip_adj, <- ip_conj. unfold ip. apply csum_ext. intros i Hi. now rewrite mapply_mmul. }
        rewrite E2. transitivity (fst (RtoC (vnorm2 n y))); [|reflexivity]. rewrite <- ip_self.
        transitivity (fst (RtoC (c ^ 2) * ip n v y - ip n (mapply n (mmul n (adj A) A) v) y)%C); [simpl; ring|].
        f_equal. unfold ip. rewrite <- csum_mult_l, <- csum_minus. apply csum_ext. intros i Hi.
        unfold y at 3. rewrite (HmE v i Hi), Cconj_minus, Cconj_mult, Cconj_R. ring. }
      assert (NA := vnorm2_nonneg n (mapply n A y)).
      set (s := (/ c ^ 2)%R) in *.
      assert (S1 : (s * c ^ 2 = 1)%R) by (unfold s; field; lra).
      assert (SP : (0 < s)%R) by (apply Rinv_0_lt_compat, pow_lt, CP).
      assert (P2 : (0 < c ^ 2)%R) by (apply pow_lt, CP).
      set (a := vnorm2 n v) in *. set (b := vnorm2 n (mapply n A v)) in *. set (yy := vnorm2 n y) in *.
      set (p := fst (ip n v y)) in *. set (q := fst (ip n (mapply n A v) (mapply n A y))) in *.
      set (w := vnorm2 n (mapply n A y)) in *.
      assert (B3 : (0 <= (c ^ 2 * a - b) - 2 * s * yy + s * (s * c ^ 2) * yy)%R).
      { assert (M : (0 <= s ^ 2 * w)%R) by (apply Rmult_le_pos; [apply pow2_ge_0|exact NA]).
        rewrite <- X at 1. nra. }
      rewrite S1 in B3.
      assert (B4 : (s * yy <= c ^ 2 * a - b)%R) by lra.
      apply (Rmult_le_compat_l (c ^ 2)) in B4; [|lra].
      replace (c ^ 2 * (s * yy))%R with ((s * c ^ 2) * yy)%R in B4 by ring. rewrite S1 in B4. lra. }
    assert (LB : forall v, vnorm n v = 1%R -> (1 <= fro n G ^ 2 * (c ^ 2 * (c ^ 2 - vnorm n (mapply n A v) ^ 2)))%R).
    { intros v Hv. assert (Qv := Q v). rewrite <- !vnorm_sqr, Hv in Qv.
      assert (E : vnorm n v = vnorm n (mapply n G (mapply n Hm v))).
      { apply vnorm_ext. intros i Hi. rewrite <- mapply_mmul by auto. unfold mapply.
        rewrite (csum_ext n _ (fun k => mid i k * v k)).
        - rewrite (csum_single n i); auto.
          + unfold mid. rewrite Nat.eqb_refl. ring.
          + intros k _ Hne. unfold mid. destruct (Nat.eqb_spec i k); [congruence|ring].
        - intros k Hk. now rewrite (HG i k Hi Hk). }
      assert (L := vnorm_mapply n G (mapply n Hm v)). rewrite <- E, Hv in L.
      assert (L2 := pow_incr 1 _ 2 (conj Rle_0_1 L)). rewrite pow1, Rpow_mult_distr in L2.
      eapply Rle_trans; [exact L2|]. apply Rmult_le_compat_l; [apply pow2_ge_0|].
      eapply Rle_trans; [exact Qv|]. right. ring. }
    set (g := (fro n G ^ 2 * c ^ 2)%R) in *.
    assert (G0 : (0 <= fro n G ^ 2)%R) by apply pow2_ge_0.
    assert (P2 : (0 < c ^ 2)%R) by (apply pow_lt, CP).
    assert (L0 := LB (basis 0) (basis_unit n 0 Hn)).
    assert (GP : (0 < g)%R).
    { destruct (Rle_lt_or_eq_dec _ _ G0) as [?|E]; [now apply Rmult_lt_0_compat|].
      rewrite <- E in L0. lra. }
    assert (BB : forall v, vnorm n v = 1%R -> (vnorm n (mapply n A v) ^ 2 <= c ^ 2 - / g)%R).
    { intros v Hv. assert (L := LB v Hv).
      replace (fro n G ^ 2 * (c ^ 2 * (c ^ 2 - vnorm n (mapply n A v) ^ 2)))%R
        with (g * (c ^ 2 - vnorm n (mapply n A v) ^ 2))%R in L by (unfold g; ring).
      apply (Rmult_le_compat_l (/ g)) in L; [|apply Rlt_le, Rinv_0_lt_compat, GP].
      rewrite <- Rmult_assoc, Rinv_l, Rmult_1_l, Rmult_1_r in L by lra. lra. }
    assert (IP := Rinv_0_lt_compat _ GP).
    assert (N0 : (0 <= c ^ 2 - / g)%R).
    { eapply Rle_trans; [apply pow2_ge_0|apply (BB (basis 0) (basis_unit n 0 Hn))]. }
    assert (F : (c <= sqrt (c ^ 2 - / g))%R).
    { apply (proj2 (max_singular_lub n A Hn)). intros v Hv. apply sqr_le_le; [apply sqrt_pos|].
      rewrite pow2_sqrt by exact N0. now apply BB. }
    assert (F2 := pow_incr _ _ 2 (conj C0 F)). rewrite pow2_sqrt in F2 by exact N0. lra.
Qed.

(** Every singular value is at most the operator norm. *)
Lemma singular_le n A s c : singular_value n A s -> operator_norm n A c -> (s <= c)%R.
Proof.
  intros (S0 & v & Hv & E) [HN HL].
  assert (C0 : (0 <= c)%R).
  { assert (H := HN v). rewrite Hv, Rmult_1_r in H. eapply Rle_trans; [apply vnorm_nonneg|exact H]. }
  apply sqr_le_le; [exact C0|].
  assert (K : vnorm2 n (mapply n A v) = (s ^ 2)%R).
  { apply RtoC_inj. rewrite <- ip_self, ip_adj.
    transitivity (RtoC (s ^ 2) * ip n v v).
    - unfold ip. rewrite <- csum_mult_l. apply csum_ext. intros i Hi. rewrite <- mapply_mmul by auto.
      rewrite (E i Hi). ring.
    - rewrite ip_self, <- vnorm_sqr, Hv, pow1. ring. }
  rewrite <- K, <- vnorm_sqr. apply pow_incr. split; [apply vnorm_nonneg|].
  assert (H := HN v). rewrite Hv, Rmult_1_r in H. exact H.
Qed.

Lemma operator_norm_unique n A c c' : operator_norm n A c -> operator_norm n A c' -> c = c'.
Proof. intros [H1 H2] [K1 K2]. apply Rle_antisym; auto. Qed.

Lemma operator_norm_scale n A c (a : R) : (0 < a)%R -> operator_norm n A c ->
  operator_norm n (mscale (RtoC a) A) (a * c).
Proof.
  intros Ha [H1 H2].
  assert (E : forall v, vnorm n (mapply n (mscale (RtoC a) A) v) = (a * vnorm n (mapply n A v))%R).
  { intros v. rewrite (vnorm_ext n _ (fun i => RtoC a * mapply n A v i)) by (intros; apply mapply_mscale).
    rewrite vnorm_scale, Cmod_R, Rabs_pos_eq by lra. reflexivity. }
  split.
  - intros v. rewrite E, Rmult_assoc. apply Rmult_le_compat_l; [lra|apply H1].
  - intros b Hb. assert (K : (c <= / a * b)%R).
    { apply H2. intros v. assert (B := Hb v). rewrite E in B.
      apply (Rmult_le_compat_l (/ a)) in B; [|apply Rlt_le, Rinv_0_lt_compat, Ha].
      rewrite <- !Rmult_assoc, Rinv_l, Rmult_1_l in B by lra. exact B. }
    apply (Rmult_le_compat_l a) in K; [|lra].
    rewrite <- Rmult_assoc, Rinv_r, Rmult_1_l in K by lra. exact K.
Qed.

(** * The constructor *)
Lemma mk_term_inv m t : mk_term m = Ok t ->
  ncols m = nrows m /\ (0 < nrows m)%nat /\ allclose (nrows m) (elt m) (adj (elt m)) = true /\
  max_singular (nrows m) (elt m) <> 0%R /\
  t = {| t_dim := nrows m; t_coeff := max_singular (nrows m) (elt m);
         t_norm := mscale (RtoC (/ max_singular (nrows m) (elt m))) (elt m) |}.
Proof.
  unfold mk_term. destruct (Nat.eqb_spec (ncols m) (nrows m)) as [E|]; [|discriminate]. cbn [assert bind].
  destruct (allclose _ _ _) eqn:AC; [|discriminate]. cbn [assert bind].
  destruct (Nat.eqb_spec (nrows m) 0) as [|NZ]; [discriminate|].
  destruct (Req_EM_T _ _) as [|NZ2]; [discriminate|]. cbn [assert bind negb].
  destruct (Rleb _ _); [|discriminate]. cbn [assert bind].
  destruct (allclose _ (elt m) (t_matrix _)); [|discriminate]. cbn [assert bind].
  intros [= <-]. split; [exact E|]. split; [lia|]. split; [reflexivity|]. split; [exact NZ2|reflexivity].
Qed.

Lemma mk_term_ok d M : (0 < d)%nat -> hermitian_mx d M -> ~ meq d M mzero ->
  mk_term (square d M) = Ok {| t_dim := d; t_coeff := max_singular d M;
                               t_norm := mscale (RtoC (/ max_singular d M)) M |}.
Proof.
  intros D H NZ. unfold mk_term, square. cbn [nrows ncols elt]. rewrite Nat.eqb_refl. cbn [assert bind].
  rewrite allclose_meq by exact H. cbn [assert bind].
  destruct (Nat.eqb_spec d 0) as [|_]; [lia|].
  destruct (Req_EM_T (max_singular d M) 0) as [E|E].
  { exfalso. apply NZ. now apply max_singular_0. }
  cbn [assert bind negb]. rewrite (proj2 (Rleb_spec 0 (max_singular d M))) by now apply max_singular_nonneg.
  cbn [assert bind]. rewrite allclose_meq.
  - reflexivity.
  - intros i j _ _. unfold t_matrix, mscale. cbn [t_coeff t_norm].
    rewrite Cmult_assoc, <- RtoC_mult, Rinv_r, Cmult_1_l by exact E. reflexivity.
Qed.
