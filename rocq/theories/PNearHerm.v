(** Matrices that are only nearly Hermitian have an evolution for short times: proofs for C112. *)
From Coq Require Import Reals List Arith Lia Lra Bool String Setoid Morphisms.
From Coquelicot Require Import Coquelicot.
From Verif Require Import Base CMat CMatFacts Det DetFacts Norms CRoot Expm ExpmFacts ExpmBounds ModelUnitary ModelHamiltonian
  Spec SpecModel SpecHamiltonian SpecNearHerm PUnitary PDrift PGates PHam PHamTerm.
Import ListNotations.
Open Scope R_scope.
Open Scope C_scope.

(** * Two exponentials, one of them unitary *)
Lemma fro_meq n A B : meq n A B -> fro n A = fro n B.
Proof. intros E. now rewrite E. Qed.

Lemma power_step n A V P Q : unitary_mx n V -> unitary_mx n Q ->
  (1 + fro n (mminus (mmul n A P) (mmul n V Q)) <= (1 + fro n (mminus A V)) * (1 + fro n (mminus P Q)))%R.
Proof.
  intros UV UQ. set (x := fro n (mminus A V)). set (y := fro n (mminus P Q)).
  assert (E : meq n (mminus (mmul n A P) (mmul n V Q))
    (mplus (mmul n (mminus A V) (mminus P Q)) (mplus (mmul n (mminus A V) Q) (mmul n V (mminus P Q))))).
  { intros i j Hi Hj. unfold mminus at 1, mplus, mmul. rewrite <- !csum_plus, <- csum_minus. apply csum_ext. intros k Hk. unfold mminus. ring. }
  rewrite (fro_meq _ _ _ E).
  assert (T1 := fro_triangle n (mmul n (mminus A V) (mminus P Q)) (mplus (mmul n (mminus A V) Q) (mmul n V (mminus P Q)))).
  assert (T2 := fro_triangle n (mmul n (mminus A V) Q) (mmul n V (mminus P Q))).
  assert (M := fro_mmul n (mminus A V) (mminus P Q)).
  rewrite (fro_unitary_r n Q (mminus A V) UQ), (fro_unitary_l n V (mminus P Q) UV) in T2. fold x y in T2, M. lra.
Qed.

Lemma epath_meq_time n A s t : s = t -> meq n (epath n A s) (epath n A t).
Proof. now intros ->. Qed.
Lemma power_close n A B s (N : nat) : (forall t, unitary_mx n (epath n B t)) ->
  (1 + fro n (mminus (epath n A (INR N * s)) (epath n B (INR N * s)))
   <= (1 + fro n (mminus (epath n A s) (epath n B s))) ^ N)%R.
Proof.
  intros U. induction N as [|N IH].
  - cbn [INR pow]. assert (E : forall X, meq n (epath n X (0 * s)) mid).
    { intros X. rewrite (epath_meq_time n X (0 * s)%R 0%R) by ring. apply epath_0. }
    rewrite (fro_minus_self n (epath n A (0 * s)) (epath n B (0 * s))); [lra|]. now rewrite !E.
  - assert (E : forall X, meq n (epath n X (INR (S N) * s)) (mmul n (epath n X s) (epath n X (INR N * s)))).
    { intros X. rewrite <- epath_add. apply epath_meq_time. rewrite S_INR. ring. }
    assert (EF : fro n (mminus (epath n A (INR (S N) * s)) (epath n B (INR (S N) * s)))
      = fro n (mminus (mmul n (epath n A s) (epath n A (INR N * s))) (mmul n (epath n B s) (epath n B (INR N * s))))).
    { apply fro_meq. intros i j Hi Hj. unfold mminus. now rewrite (E A i j Hi Hj), (E B i j Hi Hj). }
    rewrite EF. eapply Rle_trans; [apply power_step; apply U|]. cbn [pow]. apply Rmult_le_compat_l; [|exact IH].
    assert (H := fro_nonneg n (mminus (epath n A s) (epath n B s))). lra.
Qed.

Lemma exp_times (N : nat) x : (exp (INR N * x) = exp x ^ N)%R.
Proof.
  induction N as [|N IH]; [cbn; rewrite Rmult_0_l; apply exp_0|]. rewrite S_INR. cbn [pow].
  rewrite Rmult_plus_distr_r, Rmult_1_l, exp_plus, IH. ring.
Qed.

Lemma short_step n A B s : (fro n (mminus (epath n A s) (epath n B s)) <= Rabs s * fro n (mminus A B)
  + (exp (Rabs s * fro n A) - 1 - Rabs s * fro n A) + (exp (Rabs s * fro n B) - 1 - Rabs s * fro n B))%R.
Proof.
  assert (SA := expm_second n (mscale (RtoC s) A)). assert (SB := expm_second n (mscale (RtoC s) B)).
  rewrite !fro_mscale, !Cmod_R in SA, SB.
  set (X := mminus (mminus (expm n (mscale (RtoC s) A)) mid) (mscale (RtoC s) A)) in *.
  set (Y := mminus (mminus (expm n (mscale (RtoC s) B)) mid) (mscale (RtoC s) B)) in *.
  assert (E : meq n (mminus (epath n A s) (epath n B s)) (mplus (mscale (RtoC s) (mminus A B)) (mminus X Y))).
  { intros i j Hi Hj. unfold X, Y, epath, mplus, mminus, mscale. ring. }
  rewrite (fro_meq _ _ _ E).
  assert (T1 := fro_triangle n (mscale (RtoC s) (mminus A B)) (mminus X Y)). rewrite fro_mscale, Cmod_R in T1.
  assert (T2 := fro_minus_triangle n X mzero Y).
  assert (Z1 : fro n (mminus X mzero) = fro n X) by (apply fro_meq; intros i j _ _; unfold mminus, mzero; ring).
  assert (Z2 : fro n (mminus mzero Y) = fro n Y).
  { rewrite fro_minus_sym. apply fro_meq. intros i j _ _. unfold mminus, mzero. ring. }
  rewrite Z1, Z2 in T2. lra.
Qed.

Lemma close_each n A B t (N : nat) : (forall t, unitary_mx n (epath n B t)) -> (1 <= N)%nat ->
  let a := (Rabs t * fro n A)%R in let b := (Rabs t * fro n B)%R in
  (1 + fro n (mminus (epath n A t) (epath n B t)) <= exp (Rabs t * fro n (mminus A B) + (a ^ 2 * exp a + b ^ 2 * exp b) / INR N))%R.
Proof.
  intros U HN a b. assert (PN : (0 < INR N)%R) by (apply lt_0_INR; lia). assert (N1 : (1 <= INR N)%R) by (apply (le_INR 1); lia).
  set (s := (t / INR N)%R).
  assert (Es : (INR N * s = t)%R) by (unfold s; field; lra).
  assert (As : (Rabs s = Rabs t / INR N)%R) by (unfold s, Rdiv; rewrite Rabs_mult, (Rabs_pos_eq (/ INR N)); auto; left; now apply Rinv_0_lt_compat).
  assert (P := power_close n A B s N U). rewrite Es in P. eapply Rle_trans; [exact P|].
  set (x := fro n (mminus (epath n A s) (epath n B s))) in *. assert (X0 : (0 <= x)%R) by apply fro_nonneg.
  eapply Rle_trans; [apply pow_incr; split; [lra|apply (exp_ge x)]|]. rewrite <- exp_times.
  destruct (Rle_lt_dec (INR N * x) (Rabs t * fro n (mminus A B) + (a ^ 2 * exp a + b ^ 2 * exp b) / INR N)) as [L|L].
  { destruct L as [L|L]; [left; now apply exp_increasing|rewrite L; apply Rle_refl]. }
  exfalso. assert (S := short_step n A B s). fold x in S.
  assert (Q : forall f, (0 <= f)%R -> (exp (Rabs s * f) - 1 - Rabs s * f <= ((Rabs t * f) ^ 2 * exp (Rabs t * f)) / INR N / INR N)%R).
  { intros f Hf. assert (A0 := Rabs_pos t). assert (H0 : (0 <= Rabs s * f)%R) by (apply Rmult_le_pos; [apply Rabs_pos|exact Hf]).
    eapply Rle_trans; [apply exp_defect_sq; exact H0|].
    assert (Hs : (Rabs s * f = Rabs t * f / INR N)%R) by (rewrite As; field; lra).
    assert (Le : (Rabs s * f <= Rabs t * f)%R).
    { rewrite Hs. assert (0 <= Rabs t * f)%R by now apply Rmult_le_pos. apply Rmult_le_reg_r with (INR N); [exact PN|].
      unfold Rdiv. rewrite Rmult_assoc, Rinv_l by lra. nra. }
    assert (Ex : (exp (Rabs s * f) <= exp (Rabs t * f))%R).
    { destruct Le as [Le|Le]; [left; now apply exp_increasing|rewrite Le; apply Rle_refl]. }
    replace ((Rabs t * f) ^ 2 * exp (Rabs t * f) / INR N / INR N)%R with ((Rabs s * f) ^ 2 * exp (Rabs t * f))%R by (rewrite Hs; field; lra).
    apply Rmult_le_compat_l; [apply pow_le; exact H0|exact Ex]. }
  assert (QA := Q (fro n A) (fro_nonneg n A)). assert (QB := Q (fro n B) (fro_nonneg n B)). fold a in QA. fold b in QB.
  assert (B1 : (x <= Rabs s * fro n (mminus A B) + a ^ 2 * exp a / INR N / INR N + b ^ 2 * exp b / INR N / INR N)%R) by lra.
  apply Rmult_le_compat_l with (r := INR N) in B1; [|lra].
  assert (B2 : (INR N * (Rabs s * fro n (mminus A B) + a ^ 2 * exp a / INR N / INR N + b ^ 2 * exp b / INR N / INR N)
    = Rabs t * fro n (mminus A B) + (a ^ 2 * exp a + b ^ 2 * exp b) / INR N)%R) by (rewrite As; field; lra).
  lra.
Qed.

Lemma exponentials_close n A B t : (forall t, unitary_mx n (epath n B t)) ->
  (fro n (mminus (epath n A t) (epath n B t)) <= exp (Rabs t * fro n (mminus A B)) - 1)%R.
Proof.
  intros U. set (y := fro n (mminus (epath n A t) (epath n B t))). assert (Y0 : (0 <= y)%R) by apply fro_nonneg.
  destruct (Rle_lt_dec y (exp (Rabs t * fro n (mminus A B)) - 1)) as [L|L]; [exact L|exfalso].
  set (k := (Rabs t * fro n (mminus A B))%R) in *.
  assert (K : (k < ln (1 + y))%R) by (rewrite <- (ln_exp k); apply ln_increasing; [apply exp_pos|lra]).
  set (q := ((Rabs t * fro n A) ^ 2 * exp (Rabs t * fro n A) + (Rabs t * fro n B) ^ 2 * exp (Rabs t * fro n B))%R).
  assert (Q0 : (0 <= q)%R).
  { unfold q. apply Rplus_le_le_0_compat; apply Rmult_le_pos; try (left; apply exp_pos); apply pow2_ge_0. }
  set (g := (ln (1 + y) - k)%R). assert (G : (0 < g)%R) by (unfold g; lra).
  destruct (archimed (q / g)) as [AR _]. set (N := Z.to_nat (up (q / g)) ).
  assert (D0 : (0 <= q / g)%R) by (apply Rmult_le_pos; [exact Q0|left; now apply Rinv_0_lt_compat]).
  assert (ZP : (0 < up (q / g))%Z) by (apply lt_IZR; simpl; lra).
  assert (NI : INR N = IZR (up (q / g))) by (unfold N; rewrite INR_IZR_INZ, Z2Nat.id by lia; reflexivity).
  assert (HN : (1 <= N)%nat) by (unfold N; lia).
  assert (C := close_each n A B t N U HN). cbv zeta in C. fold y k q in C.
  assert (PN : (0 < INR N)%R) by (apply lt_0_INR; lia).
  assert (QN : (q / INR N < g)%R).
  { rewrite <- NI in AR. apply Rmult_lt_reg_r with (INR N); [exact PN|]. unfold Rdiv. rewrite Rmult_assoc, Rinv_l by lra.
    apply Rmult_lt_compat_r with (r := g) in AR; [|exact G]. unfold Rdiv in AR. rewrite Rmult_assoc, Rinv_l in AR by lra. lra. }
  assert (E1 : (exp (k + q / INR N) < exp (ln (1 + y)))%R) by (apply exp_increasing; unfold g in QN; lra).
  rewrite exp_ln in E1 by lra. lra.
Qed.

(** * The constructor near a unitary matrix *)
Lemma normalise_near eps d V A e nm ps iv ap : (0 < d)%nat -> (0 <= eps)%R -> unitary_mx d V ->
  (fro d (mminus A V) + sqrt 2 * INR d * eps <= e)%R -> (e <= 45 / 10 ^ 10)%R -> (INR d * e <= / 200)%R ->
  exists u c, mk_unitary eps d (Some (square d A)) nm ps iv ap = Ok u /\ u_dim u = d /\ Cmod c = 1%R /\
    (fro d (mminus (u_mat u) (mscale c V)) <= 22 / 10 * sqrt (INR d) * e)%R.
Proof.
  intros D E0 U HE S1 S2. set (B := clean eps A).
  assert (NB : (fro d (mminus B V) <= e)%R).
  { assert (T := fro_minus_triangle d B A V). assert (K := clean_near eps d A E0). fold B in K. lra. }
  assert (e0 : (0 <= e)%R) by (assert (X := fro_nonneg d (mminus B V)); lra).
  assert (GR := fro_near_gram d V B e U NB).
  assert (NU : near_unitary d B).
  { intros i j Hi Hj. assert (X := fro_entry d (mminus (mmul d B (adj B)) mid) i j Hi Hj). unfold mminus at 1 in X.
    eapply Rle_trans; [exact X|]. eapply Rle_trans; [exact GR|].
    assert (Y : (2 * e + e * e <= / 10 ^ 8)%R).
    { replace (10 ^ 10)%R with 10000000000%R in S1 by ring. replace (10 ^ 8)%R with 100000000%R by ring. nra. }
    assert (Z : (0 <= / 10 ^ 5 * (if Nat.eqb i j then 1 else 0))%R).
    { apply Rmult_le_pos; [left; apply Rinv_0_lt_compat, pow_lt; lra|destruct (Nat.eqb i j); lra]. }
    lra. }
  assert (VM := PDrift.unitary_det_mod d V U).
  assert (DN := det_near_unitary d V V B 0 e D U).
  rewrite fro_minus_self in DN by reflexivity. specialize (DN ltac:(lra) NB ltac:(lra) ltac:(lra)).
  assert (LO : (99 / 100 - 3 / 1000 <= Cmod (det d B))%R).
  { assert (T := Cmod_triangle (det d B) (det d V - det d B)).
    replace (det d B + (det d V - det d B)) with (det d V) in T by ring. rewrite VM in T.
    replace (Cmod (det d V - det d B)) with (Cmod (det d B - det d V)) in T.
    2:{ rewrite <- Cmod_opp. f_equal. ring. } lra. }
  assert (NZ : det d B <> 0) by (intros Z; rewrite Z, Cmod_0 in LO; lra).
  assert (VZ : det d V <> 0) by (intros Z; rewrite Z, Cmod_0 in VM; lra).
  eexists. exists (croot d (/ det d B) / RtoC (Cmod (croot d (/ det d B)))).
  split; [apply mk_unitary_ok; auto|]. cbn [square elt u_dim u_mat]. fold B. split; [reflexivity|].
  set (k := croot d (/ det d B)). assert (KZ : k <> 0) by apply croot_neq0.
  assert (KP : (0 < Cmod k)%R) by now apply Cmod_gt_0.
  assert (RZ : RtoC (Cmod k) <> 0) by (intros Z; apply RtoC_inj in Z; lra).
  split. { rewrite Cmod_div by exact RZ. rewrite Cmod_R, Rabs_pos_eq by lra. field. lra. }
  (* the modulus of the factor *)
  assert (MK : Cmod k = Cmod (croot d (det d V / det d B))).
  { unfold k. rewrite !Cmod_croot. f_equal. unfold Cdiv. now rewrite Cmod_mult, VM, Rmult_1_l. }
  assert (WQ : (Cmod (det d V / det d B - 1)%C <= 105 / 100 * (INR d * e))%R).
  { replace (det d V / det d B - 1) with ((det d V - det d B) / det d B) by (field; exact NZ).
    rewrite Cmod_div by exact NZ. replace (Cmod (det d V - det d B)) with (Cmod (det d B - det d V)) by (rewrite <- Cmod_opp; f_equal; ring).
    apply Rmult_le_reg_r with (Cmod (det d B)); [lra|]. unfold Rdiv at 1. rewrite Rmult_assoc, Rinv_l by lra. rewrite Rmult_1_r.
    assert (0 <= INR d * e)%R by (apply Rmult_le_pos; [apply pos_INR|exact e0]). nra. }
  assert (PD : (0 < INR d)%R) by (apply lt_0_INR; lia).
  assert (CR := croot_near d (det d V / det d B) (/ 100) D ltac:(lra) ltac:(lra)).
  assert (K1 : (Rabs (Cmod k - 1) <= 109 / 100 * e)%R).
  { rewrite MK. set (z := croot d (det d V / det d B)) in *.
    assert (T : (Rabs (Cmod z - 1) <= Cmod (z - 1)%C)%R).
    { rewrite <- Cmod_1 at 1. apply Rabs_le. assert (T1 := Cmod_triangle (z - 1) 1). assert (T2 := Cmod_triangle z (- (z - 1))).
      replace (z - 1 + 1) with z in T1 by ring. replace (z + - (z - 1)) with (RtoC 1) in T2 by ring. rewrite Cmod_opp in T2. lra. }
    eapply Rle_trans; [exact T|]. apply Rmult_le_reg_l with (INR d); [exact PD|].
    assert (0 <= INR d * e)%R by (apply Rmult_le_pos; lra). lra. }
  assert (EQ : fro d (mminus (mscale k B) (mscale (k / RtoC (Cmod k)) V)) = fro d (mminus (mscale (RtoC (Cmod k)) B) V)).
  { transitivity (Cmod (k / RtoC (Cmod k)) * fro d (mminus (mscale (RtoC (Cmod k)) B) V))%R.
    - rewrite <- fro_mscale. apply fro_meq. intros i j _ _. unfold mminus, mscale. field. exact RZ.
    - rewrite Cmod_div by exact RZ. rewrite Cmod_R, (Rabs_pos_eq (Cmod k)) by lra. field. lra. }
  rewrite EQ.
  assert (T := fro_minus_triangle d (mscale (RtoC (Cmod k)) B) B V).
  assert (T2 : fro d (mminus (mscale (RtoC (Cmod k)) B) B) = (Rabs (Cmod k - 1) * fro d B)%R).
  { transitivity (fro d (mscale (RtoC (Cmod k - 1)) B)).
    - apply fro_meq. intros i j _ _. unfold mminus, mscale. rewrite RtoC_minus. ring.
    - now rewrite fro_mscale, Cmod_R. }
  assert (FB : (fro d B <= sqrt (INR d) + e)%R).
  { assert (X := fro_minus_triangle d B V mzero).
    assert (Z : forall Y, fro d (mminus Y mzero) = fro d Y) by (intros Y; apply fro_meq; intros i j _ _; unfold mminus, mzero; ring).
    rewrite !Z, (fro_unitary d V U) in X. lra. }
  assert (SD := sqrt_INR_ge1 d D). assert (F0 := fro_nonneg d B). rewrite T2 in T.
  assert (M1 : (Rabs (Cmod k - 1) * fro d B <= 109 / 100 * e * (sqrt (INR d) + e))%R).
  { apply Rmult_le_compat; auto. apply Rabs_pos. }
  replace (10 ^ 10)%R with 10000000000%R in S1 by ring.
  assert (M2 : (109 / 100 * e * (sqrt (INR d) + e) + e <= 22 / 10 * sqrt (INR d) * e)%R).
  { replace (22 / 10 * sqrt (INR d) * e)%R with (e * (22 / 10 * sqrt (INR d)))%R by ring.
    replace (109 / 100 * e * (sqrt (INR d) + e) + e)%R with (e * (109 / 100 * (sqrt (INR d) + e) + 1))%R by ring.
    apply Rmult_le_compat_l; [exact e0|]. lra. }
  lra.
Qed.

(** * The evolution *)
Lemma near_evolution eps d H t delta e nm : (0 < d)%nat -> (0 <= eps)%R ->
  nearly_hermitian d H -> (fro d (mminus H (adj H)) <= delta)%R ->
  (exp (delta * Rabs t / 2) - 1 + sqrt 2 * INR d * eps <= e)%R -> (e <= 45 / 10 ^ 10)%R -> (INR d * e <= / 200)%R ->
  forall E, evolution d (hermitian_part H) t E ->
  exists u c, time_evolution eps d H t nm = Ok u /\ u_dim u = d /\ Cmod c = 1%R /\
    (fro d (mminus (u_mat u) (mscale c E)) <= 22 / 10 * sqrt (INR d) * e)%R.
Proof.
  intros D E0 HC HD HE S1 S2 E EV.
  assert (HH : hermitian_mx d (hermitian_part H)).
  { intros i j _ _. unfold adj, hermitian_part. apply injective_projections; cbn; ring. }
  assert (U : forall s, unitary_mx d (epath d (mscale Ci (hermitian_part H)) s)) by (intros s; apply (ev_unitary d _ s HH)).
  assert (CL := exponentials_close d (mscale Ci H) (mscale Ci (hermitian_part H)) t U).
  assert (DF : fro d (mminus (mscale Ci H) (mscale Ci (hermitian_part H))) = (fro d (mminus H (adj H)) / 2)%R).
  { transitivity (fro d (mscale (Ci * RtoC (/ 2)) (mminus H (adj H)))).
    - apply fro_meq. intros i j _ _. unfold mminus, mscale, hermitian_part, adj.
      apply injective_projections; cbn; field.
    - rewrite fro_mscale, Cmod_mult, Cmod_Ci, Cmod_R, Rabs_pos_eq by lra. field. }
  rewrite DF in CL.
  assert (MO : (exp (Rabs t * (fro d (mminus H (adj H)) / 2)) <= exp (delta * Rabs t / 2))%R).
  { assert (L : (Rabs t * (fro d (mminus H (adj H)) / 2) <= delta * Rabs t / 2)%R).
    { assert (A0 := Rabs_pos t). assert (X := Rmult_le_compat_l _ _ _ A0 HD). lra. }
    destruct L as [L|L]; [left; now apply exp_increasing|rewrite L; apply Rle_refl]. }
  destruct (normalise_near eps d (ev d (hermitian_part H) t) (ev d H t) e (Some ("H" ++ nm)%string)
    [("t"%string, (t, false))] false [] D E0 (ev_unitary d _ t HH)) as (u & c & Eu & Du & Hc & HF); auto.
  { unfold ev. lra. }
  exists u, c. unfold time_evolution.
  assert (AC : allclose d H (adj H) = true).
  { apply allclose_spec. intros i j Hi Hj. specialize (HC i j Hi Hj). unfold adj. rewrite Cmod_conj. exact HC. }
  rewrite AC. cbn [assert bind]. rewrite <- ev_expm. split; [exact Eu|]. split; [exact Du|]. split; [exact Hc|].
  assert (EE := evolution_ev _ _ _ _ EV).
  replace (fro d (mminus (u_mat u) (mscale c E))) with (fro d (mminus (u_mat u) (mscale c (ev d (hermitian_part H) t)))); [exact HF|].
  apply fro_meq. intros i j Hi Hj. unfold mminus, mscale. now rewrite (EE i j Hi Hj).
Qed.

Lemma F2_sum d Ms ts : Forall2 (fun M t => mk_term (square d M) = Ok t) Ms ts ->
  meq d (sum_matrices ts) (total Ms) /\ List.Forall (fun t => t_dim t = d /\ (0 < d)%nat) ts.
Proof.
  induction 1 as [|M t Ms ts H _ [IH IF]]; [split; [intros i j Hi Hj; reflexivity|constructor]|].
  destruct (mk_term_inv _ _ H) as (_ & D & _ & NZ & ->). cbn [nrows ncols elt square] in *. split.
  - intros i j Hi Hj. cbn [sum_matrices fold_right total]. unfold mplus at 1. fold (sum_matrices ts). rewrite (IH i j Hi Hj).
    unfold t_matrix, mscale. cbn [t_coeff t_norm]. rewrite Cmult_assoc, <- RtoC_mult, Rinv_r, Cmult_1_l by exact NZ. reflexivity.
  - constructor; [now split|exact IF].
Qed.

Theorem accepted_evolution : forall eps d Ms h t delta E, (0 <= eps)%R -> accepted_as d Ms h ->
  nearly_hermitian d (total Ms) -> (fro d (mminus (total Ms) (adj (total Ms))) <= delta)%R ->
  evolution d (hermitian_part (total Ms)) t E ->
  let e := (exp (delta * Rabs t / 2) - 1 + sqrt 2 * INR d * eps)%R in
  (e <= 45 / 10 ^ 10)%R -> (INR d * e <= / 200)%R ->
  exists u c, time_evolution_operator eps h t = Ok u /\ u_dim u = d /\ Cmod c = 1%R /\
    (fro d (mminus (u_mat u) (mscale c E)) <= 22 / 10 * sqrt (INR d) * e)%R.
Proof.
  intros eps d Ms h t delta E E0 (ts & F & HM) NH HD EV e S1 S2. destruct (F2_sum d Ms ts F) as [SM FD].
  destruct ts as [|t0 ts]; [discriminate|]. unfold mk_hamiltonian in HM. destruct (forallb _ _); [|discriminate].
  cbn [assert bind] in HM. injection HM as <-. inversion FD as [|? ? [D0 D] _]; subst.
  unfold time_evolution_operator. cbn [h_dim h_terms].
  set (S := sum_matrices (t0 :: ts)) in *.
  apply (near_evolution eps (t_dim t0) S t delta e ""); auto; try lra.
  - intros i j Hi Hj. rewrite (SM i j Hi Hj), (SM j i Hj Hi). now apply NH.
  - replace (fro (t_dim t0) (mminus S (adj S))) with (fro (t_dim t0) (mminus (total Ms) (adj (total Ms)))); [exact HD|].
    apply fro_meq. intros i j Hi Hj. unfold mminus, adj. now rewrite (SM i j Hi Hj), (SM j i Hj Hi).
  - unfold e. lra.
  - intros i j Hi Hj. specialize (EV i j Hi Hj).
    assert (K : forall k, mpow (t_dim t0) (fun i0 j0 => Ci * RtoC t * hermitian_part S i0 j0) k i j
      = mpow (t_dim t0) (fun i0 j0 => Ci * RtoC t * hermitian_part (total Ms) i0 j0) k i j).
    { intros k. apply mpow_meq; auto. intros a b Ha Hb. unfold hermitian_part. now rewrite (SM a b Ha Hb), (SM b a Hb Ha). }
    destruct EV as [EV1 EV2]. split; [eapply is_lim_seq_ext; [|exact EV1]|eapply is_lim_seq_ext; [|exact EV2]];
      intros N; cbv beta; f_equal; apply csum_ext; intros k _; now rewrite K.
Qed.

Theorem accepted_term : forall eps d M tm h t delta E, (0 <= eps)%R -> mk_term (square d M) = Ok tm -> mk_hamiltonian [tm] = Ok h ->
  (fro d (mminus M (adj M)) <= delta)%R -> evolution d (hermitian_part M) t E ->
  let e := (exp (delta * Rabs t / 2) - 1 + sqrt 2 * INR d * eps)%R in
  (e <= 45 / 10 ^ 10)%R -> (INR d * e <= / 200)%R ->
  exists u c, time_evolution_operator eps h t = Ok u /\ u_dim u = d /\ Cmod c = 1%R /\
    (fro d (mminus (u_mat u) (mscale c E)) <= 22 / 10 * sqrt (INR d) * e)%R.
Proof.
  intros eps d M tm h t delta E E0 HT HM HD EV e S1 S2.
  assert (T1 : forall i j, total [M] i j = M i j) by (intros; unfold total; cbn; ring).
  apply (accepted_evolution eps d [M] h t delta E); auto.
  - exists [tm]. split; [constructor; [exact HT|constructor]|exact HM].
  - destruct (mk_term_inv _ _ HT) as (_ & _ & AC & _). cbn [nrows elt square] in AC. rewrite allclose_spec in AC.
    intros i j Hi Hj. rewrite !T1. specialize (AC i j Hi Hj). unfold adj in AC. rewrite Cmod_conj in AC. exact AC.
  - replace (fro d (mminus (total [M]) (adj (total [M])))) with (fro d (mminus M (adj M))); [exact HD|].
    apply fro_meq. intros i j _ _. unfold mminus, adj. now rewrite !T1.
  - intros i j Hi Hj. specialize (EV i j Hi Hj).
    assert (K : forall k, mpow d (fun i0 j0 => Ci * RtoC t * hermitian_part (total [M]) i0 j0) k i j
      = mpow d (fun i0 j0 => Ci * RtoC t * hermitian_part M i0 j0) k i j).
    { intros k. apply mpow_meq; auto. intros a b Ha Hb. unfold hermitian_part. now rewrite !T1. }
    destruct EV as [EV1 EV2]. split; [eapply is_lim_seq_ext; [|exact EV1]|eapply is_lim_seq_ext; [|exact EV2]];
      intros N; cbv beta; f_equal; apply csum_ext; intros k _; now rewrite K.
Qed.

(** How long a term can be evolved that the constructor accepted, in terms of its largest entry. *)
Lemma fro_of_entries d A m : (0 <= m)%R -> (forall i j, (i < d)%nat -> (j < d)%nat -> (Cmod (A i j) <= m)%R) -> (fro d A <= INR d * m)%R.
Proof.
  intros M0 H. apply sqr_le_le; [apply Rmult_le_pos; [apply pos_INR|exact M0]|]. rewrite fro_sqr. unfold fro2, vnorm2.
  eapply Rle_trans; [apply rsum_le; intros i Hi; apply (rsum_le d _ (fun _ => (m ^ 2)%R)); intros j Hj; apply pow_incr;
    split; [apply Cmod_ge_0|now apply H]|].
  rewrite !rsum_const. simpl. lra.
Qed.
Theorem accepted_time : forall eps d M tm h t m, (0 <= eps)%R -> mk_term (square d M) = Ok tm -> mk_hamiltonian [tm] = Ok h ->
  (forall i j, (i < d)%nat -> (j < d)%nat -> (Cmod (M i j) <= m)%R) ->
  (INR d * (/ 10 ^ 8 + / 10 ^ 5 * m) * Rabs t <= 8 / 10 ^ 9)%R -> (sqrt 2 * INR d * eps <= 4 / 10 ^ 10)%R -> (INR d <= 10 ^ 6)%R ->
  exists u, time_evolution_operator eps h t = Ok u.
Proof.
  intros eps d M tm h t m E0 HT HM HB HS HE HD.
  destruct (mk_term_inv _ _ HT) as (_ & D & AC & _). cbn [nrows elt square] in *. rewrite allclose_spec in AC.
  assert (M0 : (0 <= m)%R) by (eapply Rle_trans; [apply Cmod_ge_0|apply (HB 0%nat 0%nat); lia]).
  assert (DL : (fro d (mminus M (adj M)) <= INR d * (/ 10 ^ 8 + / 10 ^ 5 * m))%R).
  { apply fro_of_entries; [assert (P8 : (0 < / 10 ^ 8)%R) by (apply Rinv_0_lt_compat, pow_lt; lra);
      assert (P5 : (0 < / 10 ^ 5)%R) by (apply Rinv_0_lt_compat, pow_lt; lra); nra|].
    intros i j Hi Hj. specialize (AC i j Hi Hj). unfold mminus, adj in *. rewrite Cmod_conj in AC. eapply Rle_trans; [exact AC|].
    unfold atol, rtol. apply Rplus_le_compat_l, Rmult_le_compat_l; [left; apply Rinv_0_lt_compat, pow_lt; lra|now apply HB]. }
  set (delta := (INR d * (/ 10 ^ 8 + / 10 ^ 5 * m))%R) in *.
  assert (d0 : (0 <= delta)%R) by (eapply Rle_trans; [apply fro_nonneg|exact DL]).
  assert (x0 : (0 <= delta * Rabs t / 2)%R) by (assert (A0 := Rabs_pos t); nra).
  assert (X : (exp (delta * Rabs t / 2) - 1 <= 41 / 10 ^ 10)%R).
  { set (x := (delta * Rabs t / 2)%R) in *. assert (xs : (x <= 4 / 10 ^ 9)%R) by (unfold x; lra).
    assert (Q := exp_defect_sq x x0). replace (10 ^ 9)%R with 1000000000%R in xs by ring.
    assert (E3 : (exp x <= 3)%R). { eapply Rle_trans; [|exact exp_le_3]. destruct (Req_dec x 1) as [->|]; [lra|left; apply exp_increasing; lra]. }
    assert (x2 : (x ^ 2 * exp x <= x ^ 2 * 3)%R) by (apply Rmult_le_compat_l; [apply pow2_ge_0|exact E3]).
    replace (10 ^ 10)%R with 10000000000%R by ring. simpl in *. nra. }
  assert (ID : (INR d <= 1000000)%R).
  { replace (10 ^ 6)%R with 1000000%R in HD by ring. exact HD. }
  assert (PD : (0 < INR d)%R) by (apply lt_0_INR; lia).
  assert (S2 : (0 <= sqrt 2)%R) by apply sqrt_pos.
  replace (10 ^ 10)%R with 10000000000%R in * by ring.
  set (z := (sqrt 2 * INR d * eps)%R) in *. set (y := (exp (delta * Rabs t / 2) - 1)%R) in *.
  destruct (accepted_term eps d M tm h t delta (ev d (hermitian_part M) t) E0 HT HM DL) as (u & _ & Eu & _).
  - apply ev_evolution.
  - fold z y. replace (10 ^ 10)%R with 10000000000%R by ring. lra.
  - fold z y. assert (INR d * (y + z) <= 1000000 * (45 / 10000000000))%R.
    { apply Rmult_le_compat; try lra. assert (0 <= z)%R by (unfold z; apply Rmult_le_pos; [apply Rmult_le_pos; lra|exact E0]).
      assert (Y0 := exp_ge (delta * Rabs t / 2)). unfold y. lra. }
    lra.
  - now exists u.
Qed.
