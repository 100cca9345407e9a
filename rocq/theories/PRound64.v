(** The double-precision arithmetic is accurate. *)
From Coq Require Import Reals List Arith Bool ZArith Lia Lra Psatz.
From Flocq Require Import Core.Core Relative.
From Coquelicot Require Import Rcomplements Complex.
From Verif Require Import Base CMat CMatFacts Det DetFacts CRoot Norms ModelUnitary ModelEntry
  ModelRound ModelRound64 Spec SpecModel SpecRound PUnitary PDrift PRound.
Open Scope R_scope.

Definition u64 : R := / 2 ^ 53.
Lemma u64_pos : 0 < u64.
Proof. unfold u64. apply Rinv_0_lt_compat, pow_lt. lra. Qed.
Lemma u64_small : u64 <= / 1000000.
Proof.
  unfold u64. apply Rinv_le_contravar; [lra|].
  apply Rle_trans with (2 ^ 20); [simpl; lra|]. apply Rle_pow; [lra|lia].
Qed.

Lemma rn_near x : Rabs (rn x - x) <= u64 * (Rabs x + 1).
Proof.
  destruct (error_N_FLT radix2 (-1074) 53 ltac:(lia) (fun z => negb (Z.even z)) x)
    as (e & t & He & Ht & _ & E).
  unfold rn. rewrite E. replace (x * (1 + e) + t - x) with (x * e + t) by ring.
  assert (U : / 2 * bpow radix2 (- (53) + 1) = u64).
  { unfold u64. change (bpow radix2 (- (53) + 1)) with (/ IZR (Z.pow_pos 2 52)).
    replace (IZR (Z.pow_pos 2 52)) with (2 ^ 52).
    - simpl pow. field.
    - rewrite pow_IZR. reflexivity. }
  assert (T : / 2 * bpow radix2 (-1074) <= u64).
  { rewrite <- U. apply Rmult_le_compat_l; [lra|]. apply bpow_le. lia. }
  eapply Rle_trans; [apply Rabs_triang|]. rewrite Rabs_mult. assert (X := Rabs_pos x).
  assert (Rabs e <= u64) by lra. assert (Rabs t <= u64) by lra. assert (Y := Rabs_pos e). nra.
Qed.

Lemma Cmod_sum (a b : R) : Cmod (a, b) <= Rabs a + Rabs b.
Proof.
  assert (K := Cmod_triangle (a, 0) (0, b)).
  replace ((a, 0) + (0, b))%C with (a, b) in K by (unfold Cplus; cbn; f_equal; ring).
  assert (E1 : Cmod (a, 0) = Rabs a) by (apply Cmod_R).
  assert (E2 : Cmod (0, b) = Rabs b).
  { unfold Cmod. cbn [fst snd]. replace (0 ^ 2 + b ^ 2) with (Rsqr b) by (unfold Rsqr; ring). apply sqrt_Rsqr_abs. }
  lra.
Qed.
Lemma fst_le (z : C) : Rabs (fst z) <= Cmod z.
Proof. eapply Rle_trans; [apply Rmax_l|apply Rmax_Cmod]. Qed.
Lemma snd_le (z : C) : Rabs (snd z) <= Cmod z.
Proof. eapply Rle_trans; [apply Rmax_r|apply Rmax_Cmod]. Qed.

Lemma c_round_near (z : C) : Cmod (c_round z - z)%C <= 2 * u64 * (Cmod z + 1).
Proof.
  assert (U := u64_pos).
  destruct z as [a b]. unfold c_round, Cminus, Copp, Cplus. cbn [fst snd].
  eapply Rle_trans; [apply Cmod_sum|].
  assert (A := rn_near a). assert (B := rn_near b).
  assert (F := fst_le (a, b)). assert (S := snd_le (a, b)). cbn [fst snd] in *. unfold Rminus in *. nra.
Qed.
Lemma c_add_near (x y : C) : Cmod (c_add x y - (x + y))%C <= 2 * u64 * (Cmod (x + y)%C + 1).
Proof. apply (c_round_near (x + y)%C). Qed.

Lemma rn_prod a b : Rabs a <= 2 -> Rabs b <= 2 -> Rabs (rn (a * b) - a * b) <= 5 * u64 /\ Rabs (a * b) <= 4.
Proof.
  intros Ha Hb. assert (U := u64_pos). assert (K := rn_near (a * b)).
  assert (P : Rabs (a * b) <= 4).
  { rewrite Rabs_mult. assert (X := Rabs_pos a). assert (Y := Rabs_pos b). nra. }
  split; auto. eapply Rle_trans; [exact K|]. nra.
Qed.

Lemma c_mul_near (x y : C) : Cmod x <= 2 -> Cmod y <= 2 -> Cmod (c_mul x y - x * y)%C <= 40 * u64.
Proof.
  intros Hx Hy. assert (U := u64_pos). assert (US := u64_small).
  assert (X1 := fst_le x). assert (X2 := snd_le x). assert (Y1 := fst_le y). assert (Y2 := snd_le y).
  destruct x as [a b], y as [c d]. unfold c_mul, Cminus, Copp, Cplus, Cmult. cbn [fst snd] in *.
  eapply Rle_trans; [apply Cmod_sum|].
  destruct (rn_prod a c) as [E1 B1]; try lra. destruct (rn_prod b d) as [E2 B2]; try lra.
  destruct (rn_prod a d) as [E3 B3]; try lra. destruct (rn_prod b c) as [E4 B4]; try lra.
  assert (R1 := rn_near (rn (a * c) - rn (b * d))). assert (R2 := rn_near (rn (a * d) + rn (b * c))).
  apply Rabs_le_between in E1. apply Rabs_le_between in E2. apply Rabs_le_between in E3. apply Rabs_le_between in E4.
  apply Rabs_le_between in B1. apply Rabs_le_between in B2. apply Rabs_le_between in B3. apply Rabs_le_between in B4.
  assert (M1 : Rabs (rn (a * c) - rn (b * d)) <= 9) by (apply Rabs_le; lra).
  assert (M2 : Rabs (rn (a * d) + rn (b * c)) <= 9) by (apply Rabs_le; lra).
  assert (R1' : Rabs (rn (rn (a * c) - rn (b * d)) - (rn (a * c) - rn (b * d))) <= 10 * u64) by nra.
  assert (R2' : Rabs (rn (rn (a * d) + rn (b * c)) - (rn (a * d) + rn (b * c))) <= 10 * u64) by nra.
  apply Rabs_le_between in R1'. apply Rabs_le_between in R2'.
  assert (Rabs (rn (rn (a * c) - rn (b * d)) + - (a * c - b * d)) <= 20 * u64) by (apply Rabs_le; lra).
  assert (Rabs (rn (rn (a * d) + rn (b * c)) + - (a * d + b * c)) <= 20 * u64) by (apply Rabs_le; lra).
  lra.
Qed.

(** Accumulated sums. *)
Lemma c_sum_near d f g :
  (forall k, (k < d)%nat -> Cmod (f k - g k)%C <= 40 * u64 /\ Cmod (g k) <= 4) ->
  64 * (INR d * INR d) * u64 <= 1 -> (0 < d)%nat ->
  forall n, (n <= d)%nat ->
  Cmod (c_sum n f - csum n g)%C <= 64 * (INR n * INR d) * u64 /\ Cmod (csum n g) <= 4 * INR n.
Proof.
  intros H Hd Hd0. assert (U := u64_pos). assert (US := u64_small).
  assert (D1 : 1 <= INR d) by (change 1 with (INR 1); apply le_INR; lia).
  induction n as [|n IH]; intros Hn.
  - simpl. replace (0 - 0)%C with (RtoC 0) by ring. rewrite Cmod_0. lra.
  - destruct IH as [E B]; [lia|]. destruct (H n) as [Hf Hg]; [lia|]. cbn [c_sum csum]. rewrite S_INR.
    assert (N0 := pos_INR n). assert (ND : INR n + 1 <= INR d).
    { rewrite <- S_INR. apply le_INR. lia. }
    assert (B' : Cmod (csum n g + g n)%C <= 4 * (INR n + 1)).
    { eapply Rle_trans; [apply Cmod_triangle|]. lra. }
    split; auto.
    assert (A := c_add_near (c_sum n f) (f n)).
    set (s := c_sum n f) in *. set (S := csum n g) in *.
    assert (En1 : 64 * (INR n * INR d) * u64 <= 1).
    { eapply Rle_trans; [|exact Hd]. apply Rmult_le_compat_r; [lra|]. apply Rmult_le_compat_l; [lra|].
      apply Rmult_le_compat_r; lra. }
    assert (K : Cmod (s + f n - (S + g n))%C <= 64 * (INR n * INR d) * u64 + 40 * u64).
    { replace (s + f n - (S + g n))%C with ((s - S) + (f n - g n))%C by ring.
      eapply Rle_trans; [apply Cmod_triangle|]. lra. }
    assert (M : Cmod (s + f n)%C <= 4 * INR n + 6).
    { assert (T := Cmod_upper (s + f n)%C (S + g n)%C). lra. }
    eapply Rle_trans; [apply Cmod_minus_tri with (b := (s + f n)%C)|].
    assert (2 * u64 * (Cmod (s + f n)%C + 1) <= 2 * u64 * (4 * INR n + 7)) by (apply Rmult_le_compat_l; lra).
    assert (Q : 40 * u64 + 2 * u64 * (4 * INR n + 7) <= 64 * INR d * u64).
    { replace (40 * u64 + 2 * u64 * (4 * INR n + 7)) with ((54 + 8 * INR n) * u64) by ring.
      apply Rmult_le_compat_r; lra. }
    replace (64 * ((INR n + 1) * INR d) * u64) with (64 * (INR n * INR d) * u64 + 64 * INR d * u64) by ring.
    lra.
Qed.

Lemma accurate_mono ar m1 m2 d : m1 <= m2 -> accurate ar m1 d -> accurate ar m2 d.
Proof.
  intros H [A1 A2 A3 A4 A5 A6 A7 A8]. constructor.
  - intros A B HA HB i j Hi Hj. specialize (A1 A B HA HB i j Hi Hj). lra.
  - intros a k A B Ha Hk Hd HA HB i j Hi Hj. specialize (A2 a k A B Ha Hk Hd HA HB i j Hi Hj). lra.
  - exact A3.
  - intros A P HU HF. specialize (A4 A P HU HF). lra.
  - intros z Hz. destruct (A5 z Hz) as (r & E & X). exists r. split; auto. lra.
  - intros z Hz. specialize (A6 z Hz). lra.
  - intros c A Hc HA i j Hi Hj. specialize (A7 c A Hc HA i j Hi Hj). lra.
  - intros A HA. specialize (A8 A HA). lra.
Qed.

Lemma croot_le d (z : C) : (0 < d)%nat -> z <> RtoC 0 -> Cmod z <= 2 -> Cmod (croot d z) <= 2.
Proof.
  intros Hd Hz Hm. assert (E := croot_pow d z Hd Hz). assert (M : Cmod (croot d z) ^ d = Cmod z).
  { rewrite <- Cmod_cpow. now rewrite E. }
  destruct (Rle_lt_dec (Cmod (croot d z)) 2) as [L|L]; auto. exfalso.
  assert (K : Cmod (croot d z) ^ 1 <= Cmod (croot d z) ^ d) by (apply Rle_pow; [lra|lia]).
  rewrite pow_1 in K. lra.
Qed.

Lemma accurate64 d : (0 < d)%nat -> 128 * (INR d * INR d) * u64 <= 1 ->
  accurate arith64 (128 * (INR d * INR d) * u64) d.
Proof.
  intros Hd HS. assert (U := u64_pos). assert (US := u64_small).
  assert (D1 : 1 <= INR d) by (change 1 with (INR 1); apply le_INR; lia).
  assert (DD : 1 <= INR d * INR d) by nra.
  assert (M1 : 40 * u64 <= 128 * (INR d * INR d) * u64) by (apply Rmult_le_compat_r; lra).
  assert (HS' : 64 * (INR d * INR d) * u64 <= 1) by lra.
  assert (M2 : 64 * (INR d * INR d) * u64 <= 128 * (INR d * INR d) * u64) by (apply Rmult_le_compat_r; lra).
  constructor; cbn [arith64 a_mul a_kron a_close a_det a_root a_scale a_dist].
  - intros A B HA HB i j Hi Hj.
    destruct (c_sum_near d (fun k => c_mul (A i k) (B k j)) (fun k => (A i k * B k j)%C)) with (n := d) as [E _]; auto.
    + intros k Hk. split; [apply c_mul_near; auto|]. rewrite Cmod_mult.
      assert (X := HA i k Hi Hk). assert (Y := HB k j Hk Hj).
      assert (X0 := Cmod_ge_0 (A i k)). assert (Y0 := Cmod_ge_0 (B k j)). nra.
    + unfold mmul. lra.
  - intros a k A B Ha Hk <- HA HB i j Hi Hj. unfold kron.
    eapply Rle_trans; [apply c_mul_near|exact M1].
    + apply HA; apply Nat.div_lt_upper_bound; lia.
    + apply HB; apply Nat.mod_upper_bound; lia.
  - intros A B H. apply allclose_spec. intros i j Hi Hj. eapply Rle_trans; [apply H; auto|].
    unfold atol, rtol.
    assert (0 < / 10 ^ 8) by (apply Rinv_0_lt_compat, pow_lt; lra).
    assert (0 < / 10 ^ 5) by (apply Rinv_0_lt_compat, pow_lt; lra).
    assert (T := Cmod_ge_0 (B i j)).
    assert (0 <= / 10 ^ 5 * Cmod (B i j)) by (apply Rmult_le_pos; lra). lra.
  - intros A P HU HF. eapply Rle_trans; [apply c_round_near|]. eapply Rle_trans; [|exact M1].
    assert (K := det_near_unitary d P P A 0 (fro d (mminus A P)) Hd HU).
    rewrite fro_minus_self in K by reflexivity.
    specialize (K ltac:(lra) ltac:(apply Rle_refl) ltac:(rewrite Rmult_0_r; lra) HF).
    assert (X := Cmod_upper (det d A) (det d P)). rewrite (unitary_det_mod d P HU) in X.
    assert (Y := Cmod_ge_0 (det d A)). nra.
  - intros z Hz. apply Rabs_le_between in Hz.
    assert (Nz : z <> RtoC 0) by (intros E; rewrite E, Cmod_0 in Hz; lra).
    exists (croot d (/ z)%C). split; [apply croot_pow; auto; now apply Cinv_neq0|].
    eapply Rle_trans; [apply c_round_near|]. eapply Rle_trans; [|exact M1].
    assert (X : Cmod (croot d (/ z)%C) <= 2).
    { apply croot_le; auto; [now apply Cinv_neq0|]. rewrite Cmod_inv by auto.
      apply Rle_trans with (/ (49 / 50)); [apply Rinv_le_contravar; lra|lra]. }
    nra.
  - intros z Hz. assert (L := Cmod_lower z 1). rewrite Cmod_1 in L.
    assert (Nz : z <> RtoC 0) by (intros E; subst z; rewrite Cmod_0 in L; lra).
    eapply Rle_trans; [apply c_round_near|]. eapply Rle_trans; [|exact M1].
    assert (X : Cmod (croot d (/ z)%C) <= 2).
    { apply croot_le; auto; [now apply Cinv_neq0|]. rewrite Cmod_inv by auto.
      apply Rle_trans with (/ (49 / 50)); [apply Rinv_le_contravar; lra|lra]. }
    nra.
  - intros c A Hc HA i j Hi Hj. unfold mscale. eapply Rle_trans; [apply c_mul_near; auto|exact M1].
  - intros A HA.
    destruct (c_sum_near d (fun i => A i i) (fun i => A i i)) with (n := d) as [E B]; auto.
    { intros k Hk. split.
      - replace (A k k - A k k)%C with (RtoC 0) by ring. rewrite Cmod_0. lra.
      - assert (X := HA k k Hk Hk). lra. }
    fold (mtrace d A) in E, B.
    set (s := c_sum d (fun i => A i i)) in *. set (t := mtrace d A) in *.
    assert (N1 : Rabs (Cmod s - Cmod t) <= 64 * (INR d * INR d) * u64).
    { apply Rabs_le. assert (X := Cmod_upper s t). assert (Y := Cmod_upper t s).
      rewrite (Cmod_minus_sym t s) in Y. lra. }
    apply Rabs_le_between in N1. assert (S0 := Cmod_ge_0 s). assert (T0 := Cmod_ge_0 t).
    assert (N2 := rn_near (Cmod s)). rewrite (Rabs_pos_eq (Cmod s)) in N2 by auto.
    assert (N2' : Rabs (rn (Cmod s) - Cmod s) <= 6 * (INR d) * u64).
    { eapply Rle_trans; [exact N2|]. rewrite Rmult_comm. apply Rmult_le_compat_r; lra. }
    apply Rabs_le_between in N2'.
    set (v := rn (Cmod s)) in *.
    assert (ID : 0 < / INR d) by (apply Rinv_0_lt_compat; lra).
    assert (IE : INR d * / INR d = 1) by (apply Rinv_r; lra).
    assert (N3 : Rabs (v / INR d - Cmod t / INR d) <= 70 * INR d * u64).
    { unfold Rdiv. rewrite <- Rmult_minus_distr_r, Rabs_mult, (Rabs_pos_eq (/ INR d)) by lra.
      apply Rmult_le_reg_r with (INR d); [lra|]. rewrite Rmult_assoc, Rinv_l, Rmult_1_r by lra.
      apply Rabs_le. assert (INR d * u64 <= INR d * INR d * u64) by nra.
      replace (70 * INR d * u64 * INR d) with (70 * (INR d * INR d * u64)) by ring. lra. }
    assert (TB : Cmod t / INR d <= 4).
    { apply Rmult_le_reg_r with (INR d); [lra|]. unfold Rdiv. rewrite Rmult_assoc, Rinv_l by lra. lra. }
    assert (T1 : 0 <= Cmod t / INR d) by (apply Rmult_le_pos; lra).
    apply Rabs_le_between in N3.
    assert (Du : 70 * INR d * u64 <= 1).
    { apply Rle_trans with (128 * (INR d * INR d) * u64); auto. apply Rmult_le_compat_r; [lra|]. nra. }
    assert (N4 := rn_near (v / INR d)).
    assert (V5 : Rabs (v / INR d) <= 5) by (apply Rabs_le; lra).
    assert (N4' : Rabs (rn (v / INR d) - v / INR d) <= 6 * u64) by nra.
    apply Rabs_le_between in N4'.
    set (w := rn (v / INR d)) in *.
    assert (N5 := rn_near (1 - w)).
    assert (W5 : Rabs (1 - w) <= 7) by (apply Rabs_le; lra).
    assert (N5' : Rabs (rn (1 - w) - (1 - w)) <= 8 * u64) by nra.
    apply Rabs_le_between in N5'.
    apply Rabs_le.
    assert (u64 <= INR d * u64) by nra. assert (INR d * u64 <= INR d * INR d * u64) by nra. lra.
Qed.

Lemma mu64_accurate : forall n k, (n <= 23)%nat -> (k <= n)%nat -> accurate arith64 (mu64 n) (2 ^ k).
Proof.
  intros n k.
  intros Hn Hk. unfold mu64. fold u64. assert (U := u64_pos).
  assert (P : (0 < 2 ^ k)%nat) by (apply Nat.neq_0_lt_0, Nat.pow_nonzero; lia).
  assert (L : INR (2 ^ k) <= INR (2 ^ n)) by (apply le_INR, Nat.pow_le_mono_r; lia).
  assert (D1 : 1 <= INR (2 ^ k)) by (change 1 with (INR 1); apply le_INR; lia).
  assert (LL : INR (2 ^ k) * INR (2 ^ k) <= INR (2 ^ n) * INR (2 ^ n)) by (apply Rmult_le_compat; lra).
  assert (M : 128 * (INR (2 ^ k) * INR (2 ^ k)) * u64 <= 128 * (INR (2 ^ n) * INR (2 ^ n)) * u64).
  { apply Rmult_le_compat_r; lra. }
  apply accurate_mono with (m1 := 128 * (INR (2 ^ k) * INR (2 ^ k)) * u64); auto.
  apply accurate64; auto.
  eapply Rle_trans; [exact M|]. unfold u64.
  apply Rmult_le_reg_r with (2 ^ 53); [apply pow_lt; lra|].
  rewrite Rmult_assoc, Rinv_l, Rmult_1_r, Rmult_1_l by (apply pow_nonzero; lra).
  replace (2 ^ 53) with (128 * (2 ^ 23 * 2 ^ 23)) by (simpl; ring).
  rewrite pow_INR. change (INR 2) with 2.
  assert (X : 2 ^ n <= 2 ^ 23) by (apply Rle_pow; [lra|lia]).
  assert (X0 : 0 < 2 ^ n) by (apply pow_lt; lra).
  apply Rmult_le_compat_l; [lra|]. apply Rmult_le_compat; lra.
Qed.
