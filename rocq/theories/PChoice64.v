(** The weighted random choices in double precision. *)
From Coq Require Import Reals List Arith Bool ZArith Lia Lra Psatz Permutation.
From Flocq Require Import Core.Core Relative Plus_error.
From Coquelicot Require Import Rcomplements.
From Verif Require Import Base CMat CMatFacts ModelUnitary ModelRound64 ModelCompiler ModelChoice64 SpecChoice PUnitary PRound64.
Import ListNotations.
Open Scope R_scope.

(** * Rounding *)
Local Instance prec53 : Prec_gt_0 53 := eq_refl.
Lemma rn_double x : double (rn x).
Proof. apply generic_format_round; [apply FLT_exp_valid; unfold Prec_gt_0; lia|apply valid_rnd_N]. Qed.
Lemma rn_id x : double x -> rn x = x.
Proof. intros H. apply round_generic; [apply valid_rnd_N|exact H]. Qed.
Lemma rn_mono x y : x <= y -> rn x <= rn y.
Proof. intros H. apply round_le; [apply FLT_exp_valid; unfold Prec_gt_0; lia|apply valid_rnd_N|exact H]. Qed.
Lemma double_0 : double 0.
Proof. apply generic_format_0. Qed.
Lemma double_1 : double 1.
Proof. change 1 with (bpow radix2 0). apply generic_format_bpow. cbv. discriminate. Qed.
Lemma rn_0 : rn 0 = 0.
Proof. apply rn_id, double_0. Qed.
Lemma rn_1 : rn 1 = 1.
Proof. apply rn_id, double_1. Qed.
Lemma rn_pos x : 0 <= x -> 0 <= rn x.
Proof. intros H. rewrite <- rn_0. now apply rn_mono. Qed.

Lemma rn_within M a x : 1 <= M -> - (a * M) <= x <= a * M ->
  - ((a + 1) * (u64 * M)) <= rn x - x <= (a + 1) * (u64 * M).
Proof.
  intros HM Hx. assert (U := u64_pos). assert (K := rn_near x).
  assert (X : Rabs x <= a * M) by (apply Rabs_le; lra).
  assert (u64 * (Rabs x + 1) <= (a + 1) * (u64 * M)).
  { replace ((a + 1) * (u64 * M)) with (u64 * (a * M + M)) by ring. apply Rmult_le_compat_l; lra. }
  apply Rabs_le_inv. lra.
Qed.

(** * The check of the sum *)
Lemma total_nonneg l : List.Forall (fun x => 0 <= x) l -> 0 <= total l.
Proof. intros H. induction H; [apply Rle_refl|]. now apply Rplus_le_le_0_compat. Qed.

Lemma kahan_near M : 1 <= M -> forall l sum c T k,
  List.Forall (fun x => 0 <= x) l -> 0 <= T -> T + total l <= M -> 0 <= k ->
  20 * (k + INR (List.length l)) * u64 <= 1 ->
  - (20 * k * (u64 * M)) <= sum - T <= 20 * k * (u64 * M) -> - (10 * (u64 * M)) <= c <= 10 * (u64 * M) ->
  let e := 20 * (k + INR (List.length l)) * (u64 * M) in
  - e <= kahan_loop sum c l - (T + total l) <= e.
Proof.
  intros HM. assert (U := u64_pos). assert (US := u64_small).
  assert (V : 0 < u64 * M) by (apply Rmult_lt_0_compat; lra).
  assert (VS : u64 * M <= / 1000000 * M) by (apply Rmult_le_compat_r; lra).
  induction l as [|p l IH]; intros sum c T k Hl HT HS Hk Hn Hs Hc.
  - cbn in *. replace (k + 0) with k by ring. lra.
  - inversion Hl as [|? ? Hp Hl']; subst. assert (P := total_nonneg _ Hl').
    cbn [List.length] in *. rewrite S_INR in *. cbn [kahan_loop]. cbn [total fold_right] in HS. fold (total l) in HS.
    assert (LN := pos_INR (List.length l)).
    assert (KM : 20 * k * (u64 * M) <= M).
    { replace (20 * k * (u64 * M)) with ((20 * k * u64) * M) by ring. rewrite <- (Rmult_1_l M) at 2.
      apply Rmult_le_compat_r; [lra|]. eapply Rle_trans; [|exact Hn].
      apply Rmult_le_compat_r; lra. }
    assert (Y := rn_within M 2 (p - c) HM ltac:(lra)). set (y := rn (p - c)) in *.
    assert (A := rn_within M 4 (sum + y) HM ltac:(lra)). set (t := rn (sum + y)) in *.
    assert (B := rn_within M 2 (t - sum) HM ltac:(lra)). set (a := rn (t - sum)) in *.
    assert (Z := rn_within M 0.01 (a - y) HM ltac:(lra)). set (c' := rn (a - y)) in *.
    specialize (IH t c' (T + p) (k + 1) Hl' ltac:(lra) ltac:(lra) ltac:(lra)).
    replace (k + 1 + INR (List.length l)) with (k + (INR (List.length l) + 1)) in IH by ring.
    cbn [total fold_right]. fold (total l).
    replace (T + (p + total l)) with (T + p + total l) by ring.
    apply IH; try lra.
Qed.

Lemma u64_value : u64 = / 9007199254740992.
Proof. unfold u64. f_equal. lra. Qed.

Lemma kahan_total M l : 1 <= M -> List.Forall (fun x => 0 <= x) l -> total l <= M -> INR (List.length l) <= 10 ^ 6 ->
  Rabs (kahan_sum l - total l) <= 20 * 10 ^ 6 * (u64 * M).
Proof.
  intros HM Hl HT Hn. assert (U := u64_value). assert (UP := u64_pos).
  assert (V : 0 < u64 * M) by (apply Rmult_lt_0_compat; lra).
  destruct l as [|p l].
  - cbn. rewrite Rminus_0_r, Rabs_R0. lra.
  - inversion Hl as [|? ? Hp Hl']; subst. cbn [List.length] in Hn. rewrite S_INR in Hn.
    assert (LN := pos_INR (List.length l)).
    assert (K := kahan_near M HM l p 0 p 0 Hl' Hp HT ltac:(lra)).
    cbn [kahan_sum]. apply Rabs_le. change (total (p :: l)) with (p + total l).
    assert (B : 20 * (0 + INR (List.length l)) * (u64 * M) <= 20 * 10 ^ 6 * (u64 * M)).
    { apply Rmult_le_compat_r; lra. }
    cbn zeta in K. enough (- (20 * (0 + INR (List.length l)) * (u64 * M)) <= kahan_loop p 0 l - (p + total l)
      <= 20 * (0 + INR (List.length l)) * (u64 * M)) by lra.
    apply K; try lra. rewrite U.
    apply Rle_trans with (20 * 10 ^ 6 * / 9007199254740992); [apply Rmult_le_compat_r; lra|lra].
Qed.

Lemma sum_accepted l : List.Forall (fun x => 0 <= x) l -> INR (List.length l) <= 10 ^ 6 ->
  Rabs (total l - 1) <= / 2 ^ 27 -> Rltb choice_tol (Rabs (rn (kahan_sum l - 1))) = false.
Proof.
  intros Hl Hn HT. apply Rltb_false. unfold choice_tol. assert (U := u64_value).
  apply Rabs_le_inv in HT. assert (K := kahan_total 2 l ltac:(lra) Hl ltac:(lra) Hn). rewrite U in K.
  apply Rabs_le_inv in K.
  assert (R := rn_near (kahan_sum l - 1)). rewrite U in R.
  assert (X : Rabs (kahan_sum l - 1) <= 1) by (apply Rabs_le; lra).
  assert (Y : Rabs (rn (kahan_sum l - 1) - (kahan_sum l - 1)) <= / 4503599627370496) by lra.
  apply Rabs_le_inv in Y. apply Rabs_le. lra.
Qed.

Lemma sum_refused l : List.Forall (fun x => 0 <= x) l -> INR (List.length l) <= 10 ^ 6 ->
  / 2 ^ 25 <= Rabs (total l - 1) -> Rltb choice_tol (Rabs (rn (kahan_sum l - 1))) = true.
Proof.
  intros Hl Hn HT. apply Rltb_spec. unfold choice_tol. assert (U := u64_value). assert (UP := u64_pos).
  assert (P := total_nonneg _ Hl). set (M := Rmax 1 (total l)).
  assert (M1 : 1 <= M) by apply Rmax_l. assert (M2 : total l <= M) by apply Rmax_r.
  assert (M3 : M <= 1 + total l) by (apply Rmax_lub; lra).
  assert (K := kahan_total M l M1 Hl M2 Hn). apply Rabs_le_inv in K.
  assert (R := rn_within (2 + total l) 1.01 (kahan_sum l - 1) ltac:(lra)).
  destruct (Rle_lt_dec 1 (total l)) as [L|L].
  - rewrite Rabs_pos_eq in HT by lra. assert (ME : M = total l) by (apply Rmax_right; lra). rewrite ME in *.
    rewrite U in *. specialize (R ltac:(lra)).
    eapply Rlt_le_trans; [|apply Rle_abs]. lra.
  - rewrite Rabs_left in HT by lra. assert (ME : M = 1) by (apply Rmax_left; lra). rewrite ME in *.
    rewrite U in *. specialize (R ltac:(lra)).
    rewrite <- Rabs_Ropp. eapply Rlt_le_trans; [|apply Rle_abs]. lra.
Qed.

(** * The cumulated distribution *)
Lemma cumsum_length : forall l acc, List.length (cumsum64 acc l) = List.length l.
Proof. induction l; intros; cbn; auto. Qed.

Lemma cumsum_near : forall l acc T k,
  List.Forall (fun x => 0 <= x) l -> 0 <= T -> T + total l <= 2 -> 0 <= k ->
  4 * (k + INR (List.length l)) * u64 <= 1 -> Rabs (acc - T) <= 4 * k * u64 ->
  forall i, (i < List.length l)%nat ->
  Rabs (nth i (cumsum64 acc l) 0 - (T + total (firstn (S i) l))) <= 4 * (k + INR (List.length l)) * u64.
Proof.
  assert (UP := u64_pos).
  induction l as [|p l IH]; intros acc T k Hl HT HS Hk Hn Ha i Hi; [inversion Hi|].
  inversion Hl as [|? ? Hp Hl']; subst. assert (P := total_nonneg _ Hl').
  cbn [List.length] in *. rewrite S_INR in *. assert (LN := pos_INR (List.length l)).
  change (total (p :: l)) with (p + total l) in HS. cbn [cumsum64].
  assert (A1 : 4 * k * u64 <= 1).
  { eapply Rle_trans; [|exact Hn]. apply Rmult_le_compat_r; lra. }
  apply Rabs_le_inv in Ha.
  assert (W := rn_within 1 3 (acc + p) ltac:(lra) ltac:(lra)).
  assert (A2 : Rabs (rn (acc + p) - (T + p)) <= 4 * (k + 1) * u64) by (apply Rabs_le; lra).
  destruct i as [|i].
  - cbn [nth firstn]. replace (total [p]) with p by (cbn; ring).
    eapply Rle_trans; [exact A2|]. apply Rmult_le_compat_r; lra.
  - cbn [nth]. change (firstn (S (S i)) (p :: l)) with (p :: firstn (S i) l).
    change (total (p :: firstn (S i) l)) with (p + total (firstn (S i) l)).
    specialize (IH (rn (acc + p)) (T + p) (k + 1) Hl' ltac:(lra) ltac:(lra) ltac:(lra)).
    replace (k + 1 + INR (List.length l)) with (k + (INR (List.length l) + 1)) in IH by ring.
    replace (T + (p + total (firstn (S i) l))) with (T + p + total (firstn (S i) l)) by ring.
    apply IH; try lra. lia.
Qed.

Lemma cumsum_stays : forall l acc, double acc ->
  forall i, (i < List.length l)%nat -> nth i l 0 = 0 ->
  nth i (cumsum64 acc l) 0 = match i with O => acc | S j => nth j (cumsum64 acc l) 0 end.
Proof.
  induction l as [|p l IH]; intros acc Ha i Hi E; [inversion Hi|]. cbn [cumsum64]. destruct i as [|i].
  - cbn in *. subst p. rewrite Rplus_0_r. now apply rn_id.
  - cbn [nth] in *. rewrite IH; [|apply rn_double|cbn in Hi; lia|auto]. now destruct i.
Qed.

Lemma last_nth {A} (d : A) : forall l, last l d = nth (List.length l - 1) l d.
Proof.
  induction l as [|a l IH]; auto. destruct l as [|b l]; auto.
  change (last (a :: b :: l) d) with (last (b :: l) d). rewrite IH. cbn [List.length].
  replace (S (S (List.length l)) - 1)%nat with (S (S (List.length l) - 1)) by lia. auto.
Qed.

Lemma searchsorted_spec x : forall cdf, (searchsorted cdf x <= List.length cdf)%nat /\
  (forall j, (j < searchsorted cdf x)%nat -> nth j cdf 0 <= x) /\
  ((searchsorted cdf x < List.length cdf)%nat -> x < nth (searchsorted cdf x) cdf 0).
Proof.
  induction cdf as [|c l (I1 & I2 & I3)]; cbn [searchsorted].
  - cbn. repeat split; intros; lia.
  - destruct (Rleb c x) eqn:E.
    + apply Rleb_spec in E. cbn [List.length]. repeat split; [lia| |].
      * intros [|j] Hj; cbn; auto. apply I2. lia.
      * intros Hj. cbn. apply I3. lia.
    + apply Rleb_false in E. cbn. repeat split; [lia|intros; lia|auto].
Qed.

Lemma ratio_near a b A B e : Rabs (a - b) <= e -> Rabs (A - B) <= e -> 0 <= b <= B -> / 2 <= A -> 0 < B ->
  Rabs (a / A - b / B) <= 4 * e.
Proof.
  intros H1 H2 H3 H4 H5.
  replace (a / A - b / B) with ((a - b) * / A + (b / B) * ((B - A) * / A)) by (field; lra).
  assert (I : 0 < / A <= 2).
  { split; [apply Rinv_0_lt_compat; lra|]. replace 2 with (/ / 2) by field. apply Rinv_le_contravar; lra. }
  assert (Q : 0 <= b / B <= 1).
  { split; [apply Rdiv_le_0_compat; lra|]. apply Rmult_le_reg_r with B; auto. unfold Rdiv.
    rewrite Rmult_assoc, Rinv_l by lra. lra. }
  assert (E0 := Rabs_pos (a - b)).
  assert (X : Rabs ((a - b) * / A) <= 2 * e).
  { rewrite Rabs_mult, (Rabs_pos_eq (/ A)) by lra. assert (Y := Rmult_le_compat _ _ _ _ E0 (Rlt_le _ _ (proj1 I)) H1 (proj2 I)). lra. }
  assert (Y : Rabs ((B - A) * / A) <= 2 * e).
  { rewrite Rabs_mult, (Rabs_pos_eq (/ A)) by lra. rewrite Rabs_minus_sym.
    assert (Y := Rmult_le_compat _ _ _ _ (Rabs_pos (A - B)) (Rlt_le _ _ (proj1 I)) H2 (proj2 I)). lra. }
  eapply Rle_trans; [apply Rabs_triang|]. rewrite (Rabs_mult (b / B)), (Rabs_pos_eq (b / B)) by lra.
  assert (Z := Rmult_le_compat _ _ _ _ (proj1 Q) (Rabs_pos ((B - A) * / A)) (proj2 Q) Y). lra.
Qed.

Lemma total_app a b : total (a ++ b) = total a + total b.
Proof.
  unfold total. induction a as [|x a IH]; cbn [List.app fold_right]; [ring|]. rewrite IH. ring.
Qed.

Lemma total_firstn l i : List.Forall (fun x => 0 <= x) l -> 0 <= total (firstn i l) <= total l.
Proof.
  intros H. rewrite <- (firstn_skipn i l) in H at 1. apply Forall_app in H as [H1 H2].
  assert (E : total l = total (firstn i l) + total (skipn i l)) by (rewrite <- total_app, firstn_skipn; auto).
  apply total_nonneg in H1, H2. lra.
Qed.

Lemma no_negative l : List.Forall (fun x => 0 <= x) l -> existsb (fun x => Rltb x 0) l = false.
Proof.
  intros H. induction H as [|x l Hx _ IH]; auto. cbn. rewrite IH, orb_false_r. now apply Rltb_false.
Qed.

Lemma choice_lemma p x : (0 < List.length p)%nat -> List.Forall (fun y => 0 <= y) p -> INR (List.length p) <= 10 ^ 6 ->
  Rabs (total p - 1) <= / 2 ^ 27 -> 0 <= x < 1 ->
  exists i, choice64 (List.length p) p x = Ok i /\ chosen (INR (List.length p) * (19 * u64)) p x i.
Proof.
  intros H0 Hp Hn HT Hx. assert (U := u64_value). assert (UP := u64_pos).
  assert (N1 : 1 <= INR (List.length p)) by (change 1 with (INR 1); apply le_INR; lia).
  assert (NU : INR (List.length p) * u64 <= 10 ^ 6 * u64) by (apply Rmult_le_compat_r; lra).
  assert (NV : 10 ^ 6 * u64 <= / 1000000) by (rewrite U; lra).
  unfold choice64. replace (Nat.eqb (List.length p) 0) with false by (symmetry; apply Nat.eqb_neq; lia).
  rewrite Nat.eqb_refl. cbn [negb]. rewrite (no_negative _ Hp), (sum_accepted _ Hp Hn HT).
  apply Rabs_le_inv in HT.
  set (cs := cumsum64 0 p). set (n := List.length p) in *.
  assert (CL : List.length cs = n) by apply cumsum_length.
  assert (NEAR : forall i, (i < n)%nat -> Rabs (nth i cs 0 - total (firstn (S i) p)) <= 4 * INR n * u64).
  { intros i Hi. assert (K := cumsum_near p 0 0 0 Hp ltac:(lra) ltac:(lra) ltac:(lra)).
    replace (total (firstn (S i) p)) with (0 + total (firstn (S i) p)) by ring.
    replace (4 * INR n * u64) with (4 * (0 + INR n) * u64) by ring. apply K; auto.
    - fold n. lra.
    - rewrite Rminus_0_r, Rabs_R0. lra. }
  set (L := last cs 0).
  assert (LE : L = nth (n - 1) cs 0) by (unfold L; rewrite last_nth, CL; auto).
  assert (LN : Rabs (L - total p) <= 4 * INR n * u64).
  { rewrite LE. assert (K := NEAR (n - 1)%nat ltac:(lia)).
    replace (S (n - 1)) with n in K by lia. unfold n in K at 2. now rewrite firstn_all in K. }
  assert (L2 : / 2 <= L) by (apply Rabs_le_inv in LN; lra).
  assert (DN : forall i, (i < n)%nat ->
    Rabs (rn (nth i cs 0 / L) - total (firstn (S i) p) / total p) <= INR n * (19 * u64)).
  { intros i Hi. assert (F := total_firstn p (S i) Hp).
    assert (K := ratio_near _ _ _ _ _ (NEAR i Hi) LN F L2 ltac:(lra)).
    apply Rabs_le_inv in K.
    assert (Q : 0 <= total (firstn (S i) p) / total p <= 1).
    { split; [apply Rdiv_le_0_compat; lra|]. apply Rmult_le_reg_r with (total p); [lra|]. unfold Rdiv.
      rewrite Rmult_assoc, Rinv_l by lra. lra. }
    assert (W := rn_within 1 2 (nth i cs 0 / L) ltac:(lra) ltac:(lra)). apply Rabs_le. nra. }
  set (cdf := map (fun c => rn (c / L)) cs).
  assert (DL : List.length cdf = n) by (unfold cdf; now rewrite map_length).
  assert (DV : forall i, (i < n)%nat -> nth i cdf 0 = rn (nth i cs 0 / L)).
  { intros i Hi. unfold cdf. rewrite (nth_indep _ 0 ((fun c => rn (c / L)) 0)) by (rewrite map_length; lia).
    now rewrite (map_nth (fun c => rn (c / L))). }
  destruct (searchsorted_spec x cdf) as (S1 & S2 & S3). cbn zeta. set (i := searchsorted cdf x) in *.
  assert (Hi : (i < n)%nat).
  { destruct (Nat.lt_ge_cases i n) as [|G]; auto. exfalso.
    specialize (S2 (n - 1)%nat ltac:(lia)). rewrite DV in S2 by lia. rewrite <- LE in S2.
    unfold Rdiv in S2. rewrite Rinv_r, rn_1 in S2 by lra. lra. }
  specialize (S3 ltac:(lia)). exists i. split; auto. split; [auto|split].
  - destruct (Rlt_le_dec 0 (nth i p 0)) as [|G]; auto. exfalso.
    assert (Z : nth i p 0 = 0).
    { apply Rle_antisym; auto. rewrite Forall_forall in Hp. apply Hp, nth_In. exact Hi. }
    assert (ST := cumsum_stays p 0 double_0 i Hi Z). fold cs in ST. rewrite DV in S3 by auto. destruct i as [|j].
    + rewrite ST in S3. unfold Rdiv in S3. rewrite Rmult_0_l, rn_0 in S3. lra.
    + specialize (S2 j ltac:(lia)). rewrite DV in S2 by lia. rewrite ST in S3. lra.
  - rewrite DV in S3 by auto. assert (K := DN i Hi). apply Rabs_le_inv in K. split; [|lra].
    destruct i as [|j].
    + cbn [firstn]. unfold Rdiv. change (total []) with 0. rewrite Rmult_0_l. nra.
    + specialize (S2 j ltac:(lia)). rewrite DV in S2 by lia. assert (K' := DN j ltac:(lia)).
      apply Rabs_le_inv in K'. lra.
Qed.

(** * Weights that are nearly the given ones *)
Lemma total_close e : forall p w, List.Forall2 (fun a b => Rabs (a - b) <= e) p w ->
  Rabs (total p - total w) <= INR (List.length p) * e.
Proof.
  intros p w H. induction H as [|a b p w Hab _ IH].
  - cbn. rewrite Rminus_0_r, Rabs_R0. lra.
  - change (total (a :: p)) with (a + total p). change (total (b :: w)) with (b + total w).
    cbn [List.length]. rewrite S_INR. apply Rabs_le_inv in Hab, IH. apply Rabs_le. lra.
Qed.

Lemma Forall2_firstn {A B} (P : A -> B -> Prop) : forall l m, List.Forall2 P l m ->
  forall i, List.Forall2 P (firstn i l) (firstn i m).
Proof. intros l m H. induction H; intros [|i]; cbn; constructor; auto. Qed.

Lemma chosen_close e d p w x i : 0 <= e -> List.Forall2 (fun a b => Rabs (a - b) <= e) p w ->
  List.Forall (fun y => 0 <= y) w -> / 2 <= total p -> 0 < total w ->
  (nth i w 0 = 0 -> nth i p 0 = 0) ->
  chosen d p x i -> chosen (d + 4 * (INR (List.length p) * e)) w x i.
Proof.
  intros He H Hw P1 P2 HZ (C1 & C2 & C3). assert (LE : List.length p = List.length w) by (clear -H; induction H; cbn; auto).
  assert (R : forall j, Rabs (total (firstn j p) / total p - total (firstn j w) / total w)
    <= 4 * (INR (List.length p) * e)).
  { intros j. apply ratio_near; auto.
    - eapply Rle_trans; [apply total_close, Forall2_firstn, H|]. apply Rmult_le_compat_r; auto.
      apply le_INR. rewrite firstn_length. lia.
    - now apply total_close.
    - now apply total_firstn. }
  split; [lia|split].
  - rewrite Forall_forall in Hw. destruct (Hw (nth i w 0)) as [|Z]; [apply nth_In; lia|auto|].
    symmetry in Z. apply HZ in Z. lra.
  - assert (R1 := R i). assert (R2 := R (S i)). apply Rabs_le_inv in R1, R2. lra.
Qed.

(** * The order of summation *)
Lemma sum64_double t : List.Forall double (items t) -> double (sum64 t).
Proof. destruct t; cbn; intros H; [now inversion H|apply rn_double]. Qed.

Lemma items_pos t : (0 < List.length (items t))%nat.
Proof. induction t; cbn; [lia|]. rewrite app_length. lia. Qed.

Lemma sum64_near t : List.Forall double (items t) -> List.Forall (fun y => 0 <= y) (items t) ->
  2 * INR (List.length (items t)) * u64 <= 1 ->
  Rabs (sum64 t - total (items t)) <= 2 * (INR (List.length (items t)) - 1) * u64 * total (items t).
Proof.
  assert (UP := u64_pos).
  induction t as [x|l IHl r IHr]; cbn [items sum64]; intros HD HP HN.
  - cbn. replace (x - (x + 0)) with 0 by ring. rewrite Rabs_R0. right. ring.
  - apply Forall_app in HD as [D1 D2]. apply Forall_app in HP as [P1 P2].
    rewrite app_length, plus_INR in *. rewrite total_app.
    assert (L1 : 1 <= INR (List.length (items l))) by (change 1 with (INR 1); apply le_INR; apply items_pos).
    assert (L2 : 1 <= INR (List.length (items r))) by (change 1 with (INR 1); apply le_INR; apply items_pos).
    specialize (IHl D1 P1 ltac:(nra)). specialize (IHr D2 P2 ltac:(nra)).
    apply total_nonneg in P1, P2.
    destruct (FLT_plus_error_N_ex radix2 (-1074) 53 (fun z => negb (Z.even z)) (sum64 l) (sum64 r)
      (sum64_double _ D1) (sum64_double _ D2)) as (e & He & E).
    change (round radix2 (FLT_exp (-1074) 53) (Znearest (fun z => negb (Z.even z))) (sum64 l + sum64 r))
      with (rn (sum64 l + sum64 r)) in E.
    set (a := sum64 l) in *. set (b := sum64 r) in *. set (A := total (items l)) in *. set (B := total (items r)) in *.
    set (k := INR (List.length (items l))) in *. set (m := INR (List.length (items r))) in *.
    assert (UR : u_ro radix2 53 = u64).
    { unfold u_ro, u64. change (bpow radix2 (- (53) + 1)) with (/ IZR (Z.pow_pos 2 52)).
      replace (IZR (Z.pow_pos 2 52)) with (2 ^ 52); [simpl pow; field|rewrite pow_IZR; reflexivity]. }
    assert (Ue : Rabs e <= u64).
    { eapply Rle_trans; [exact He|]. rewrite <- UR. apply u_rod1pu_ro_le_u_ro. }
    assert (X1 : 2 * (k - 1) * u64 * A <= 1 * A).
    { apply Rmult_le_compat_r; auto. assert (0 <= m * u64) by (apply Rmult_le_pos; lra). nra. }
    assert (X2 : 2 * (m - 1) * u64 * B <= 1 * B).
    { apply Rmult_le_compat_r; auto. assert (0 <= k * u64) by (apply Rmult_le_pos; lra). nra. }
    assert (Y : Rabs ((a + b) * e) <= 2 * (A + B) * u64).
    { rewrite Rabs_mult. apply Rmult_le_compat; try apply Rabs_pos; auto.
      apply Rabs_le_inv in IHl, IHr. apply Rabs_le. lra. }
    assert (Z1 : 2 * k * u64 * A <= 2 * (k + m - 1) * u64 * A).
    { apply Rmult_le_compat_r; auto. apply Rmult_le_compat_r; lra. }
    assert (Z2 : 2 * m * u64 * B <= 2 * (k + m - 1) * u64 * B).
    { apply Rmult_le_compat_r; auto. apply Rmult_le_compat_r; lra. }
    rewrite E. apply Rabs_le_inv in IHl, IHr, Y. apply Rabs_le. lra.
Qed.

(** * The three choices *)
Lemma near_lemma p w x : (0 < List.length p)%nat -> INR (List.length p) <= 10 ^ 6 ->
  List.Forall2 (fun a b => Rabs (a - b) <= 3 * u64) p w ->
  List.Forall (fun y => 0 <= y) p -> List.Forall (fun y => 0 <= y) w ->
  (forall i, nth i w 0 = 0 -> nth i p 0 = 0) ->
  Rabs (total w - 1) <= 4 * (INR (List.length p) * u64) -> 0 <= x < 1 ->
  exists i, choice64 (List.length p) p x = Ok i /\ chosen (INR (List.length p) * / 2 ^ 48) w x i.
Proof.
  intros H0 Hn H Hp Hw HZ HT Hx. assert (U := u64_value). assert (UP := u64_pos).
  assert (N1 : 1 <= INR (List.length p)) by (change 1 with (INR 1); apply le_INR; lia).
  assert (NU : INR (List.length p) * u64 <= 10 ^ 6 * u64) by (apply Rmult_le_compat_r; lra).
  assert (NV : 7 * (10 ^ 6 * u64) <= / 2 ^ 27) by (rewrite U; lra).
  assert (NW : / 2 ^ 27 <= / 4) by lra.
  assert (K := total_close _ _ _ H). apply Rabs_le_inv in HT, K.
  destruct (choice_lemma p x H0 Hp Hn) as (i & E & Hc); [apply Rabs_le; lra|auto|].
  exists i. split; auto.
  apply (chosen_close (3 * u64) _ p w) in Hc; auto; try lra.
  destruct Hc as (C1 & C2 & C3). split; [auto|split; [auto|]].
  assert (D : INR (List.length p) * / 2 ^ 48 = INR (List.length p) * (32 * u64)) by (rewrite U; lra).
  rewrite D. split; nra.
Qed.

Lemma C113_choice_lemma : forall p x, (0 < List.length p)%nat -> INR (List.length p) <= 10 ^ 6 ->
  List.Forall (fun y => 0 <= y) p -> Rabs (total p - 1) <= / 2 ^ 27 -> 0 <= x < 1 ->
  exists i, choice64 (List.length p) p x = Ok i /\ chosen (INR (List.length p) * / 2 ^ 48) p x i.
Proof.
  intros p x H0 Hn Hp HT Hx. assert (U := u64_value). assert (NP := pos_INR (List.length p)).
  destruct (choice_lemma p x H0 Hp Hn HT Hx) as (i & E & C1 & C2 & C3). exists i. split; auto.
  split; [auto|split; [auto|]].
  assert (D : INR (List.length p) * (19 * u64) <= INR (List.length p) * / 2 ^ 48).
  { apply Rmult_le_compat_l; auto. rewrite U. lra. }
  lra.
Qed.

Lemma C113_refused_lemma : forall n p x, INR n <= 10 ^ 6 ->
  n = O \/ List.length p <> n \/ (exists y, In y p /\ y < 0) \/ / 2 ^ 25 <= Rabs (total p - 1) ->
  choice64 n p x = Raise ValueError.
Proof.
  intros n p x Hn H. unfold choice64. destruct (Nat.eqb n 0) eqn:E0; auto.
  destruct (Nat.eqb (List.length p) n) eqn:E1; cbn [negb]; auto.
  destruct (existsb (fun y => Rltb y 0) p) eqn:E2; auto.
  apply Nat.eqb_neq in E0. apply Nat.eqb_eq in E1.
  assert (Hp : List.Forall (fun y => 0 <= y) p).
  { apply Forall_forall. intros y Hy. destruct (Rle_lt_dec 0 y) as [|L]; auto.
    rewrite <- not_true_iff_false in E2. destruct E2. apply existsb_exists. exists y. split; auto. now apply Rltb_spec. }
  destruct H as [H|[H|[(y & Hy & L)|H]]]; try contradiction.
  - rewrite Forall_forall in Hp. specialize (Hp y Hy). lra.
  - rewrite (sum_refused p Hp); auto. now rewrite E1.
Qed.

Lemma total_perm a b : Permutation a b -> total a = total b.
Proof. unfold total. intros H. induction H; cbn [fold_right] in *; [reflexivity|now rewrite IHPermutation|ring|congruence]. Qed.

Lemma total_map_div s : forall l, total (map (fun c => c / s) l) = total l / s.
Proof.
  intros l. unfold total. induction l as [|c l IH]; cbn [map fold_right]; [unfold Rdiv; ring|]. rewrite IH. unfold Rdiv. ring.
Qed.

Lemma chosen_map_div d s w x i : 0 < s -> 0 < total w -> chosen d (map (fun c => c / s) w) x i -> chosen d w x i.
Proof.
  intros Hs Hw (C1 & C2 & C3). rewrite map_length in C1.
  rewrite (nth_indep _ 0 ((fun c => c / s) 0)) in C2 by (rewrite map_length; lia).
  rewrite (map_nth (fun c => c / s)) in C2. rewrite !firstn_map, !total_map_div in C3.
  assert (R : forall a, a / s / (total w / s) = a / total w) by (intros; field; lra). rewrite !R in C3.
  split; [auto|split; [|auto]].
  apply Rmult_lt_reg_r with (/ s); [now apply Rinv_0_lt_compat|]. rewrite Rmult_0_l. exact C2.
Qed.

Lemma C113_qdrift_lemma : forall t coefs x, Permutation (items t) coefs ->
  List.Forall double coefs -> List.Forall (fun y => 0 <= y) coefs -> 0 < total coefs ->
  INR (List.length coefs) <= 10 ^ 6 -> 0 <= x < 1 ->
  exists i, qdrift_choice64 t coefs x = Ok i /\ chosen (INR (List.length coefs) * / 2 ^ 48) coefs x i.
Proof.
  intros t coefs x HP HD Hc HT Hn Hx. assert (U := u64_value). assert (UP := u64_pos).
  assert (L0 : (0 < List.length coefs)%nat) by (rewrite <- (Permutation_length HP); apply items_pos).
  assert (N1 : 1 <= INR (List.length coefs)) by (change 1 with (INR 1); apply le_INR; lia).
  assert (NU : INR (List.length coefs) * u64 <= 10 ^ 6 * u64) by (apply Rmult_le_compat_r; lra).
  assert (NV : 10 ^ 6 * u64 <= / 1000000) by (rewrite U; lra).
  assert (S1 := sum64_near t). rewrite (Permutation_length HP), (total_perm _ _ HP) in S1.
  assert (S2 : Rabs (sum64 t - total coefs) <= 2 * (INR (List.length coefs) - 1) * u64 * total coefs).
  { apply S1; [| |lra]; rewrite Forall_forall in *; intros y Hy;
      [apply HD|apply Hc]; now apply (Permutation_in _ HP). }
  clear S1. set (s := sum64 t) in *. set (W := total coefs) in *. set (n := INR (List.length coefs)) in *.
  assert (S3 : 2 * (n - 1) * u64 * W <= 2 * (n * u64) * W) by (apply Rmult_le_compat_r; nra).
  assert (S4 : 2 * (n * u64) * W <= / 100 * W) by (apply Rmult_le_compat_r; lra).
  apply Rabs_le_inv in S2. assert (SP : 0 < s) by lra.
  assert (SI : 0 < / s) by now apply Rinv_0_lt_compat.
  assert (W1 : Rabs (W / s - 1) <= 4 * (n * u64)).
  { replace (W / s - 1) with ((W - s) * / s) by (field; lra). rewrite Rabs_mult, (Rabs_pos_eq (/ s)) by lra.
    apply Rmult_le_reg_r with s; auto. rewrite Rmult_assoc, Rinv_l, Rmult_1_r by lra.
    apply Rle_trans with (2 * (n * u64) * W); [apply Rabs_le; lra|].
    assert (0 <= n * u64) by nra. nra. }
  unfold qdrift_choice64, prob_coefficients64. fold s.
  destruct (near_lemma (map (fun c => rn (c / s)) coefs) (map (fun c => c / s) coefs) x) as (i & E & C).
  - now rewrite map_length.
  - now rewrite map_length.
  - apply Rabs_le_inv in W1. assert (X : forall y, In y coefs -> 0 <= y <= W).
    { intros y Hy. rewrite Forall_forall in Hc. split; [now apply Hc|].
      destruct (in_split _ _ Hy) as (a & b & E). unfold W. rewrite E, total_app. change (total (y :: b)) with (y + total b).
      assert (A1 : 0 <= total a) by (apply total_nonneg, Forall_forall; intros; apply Hc; rewrite E; apply in_or_app; auto).
      assert (A2 : 0 <= total b) by (apply total_nonneg, Forall_forall; intros; apply Hc; rewrite E; apply in_or_app; cbn; auto).
      lra. }
    clearbody W n s. clear -X SI W1 NU NV UP. induction coefs as [|c l IH]; cbn [map]; constructor.
    + assert (C := X c (or_introl eq_refl)). assert (Q : 0 <= c / s <= W / s) by (unfold Rdiv; nra).
      assert (R := rn_within 1 2 (c / s) ltac:(lra) ltac:(lra)). apply Rabs_le. lra.
    + apply IH. intros y Hy. apply X. now right.
  - apply Forall_map. eapply Forall_impl; [|exact Hc]. intros y Hy. apply rn_pos. apply Rdiv_le_0_compat; auto.
  - apply Forall_map. eapply Forall_impl; [|exact Hc]. intros y Hy. apply Rdiv_le_0_compat; auto.
  - intros i. destruct (Nat.lt_ge_cases i (List.length coefs)) as [L|L].
    + rewrite (nth_indep _ 0 ((fun c => c / s) 0)) by (rewrite map_length; lia).
      rewrite (nth_indep (map (fun c => rn (c / s)) coefs) 0 ((fun c => rn (c / s)) 0)) by (rewrite map_length; lia).
      rewrite (map_nth (fun c => c / s)), (map_nth (fun c => rn (c / s))). intros E. rewrite E. apply rn_0.
    + rewrite !nth_overflow by (rewrite map_length; lia). auto.
  - rewrite map_length, total_map_div. exact W1.
  - auto.
  - rewrite map_length in *. exists i. split; auto. now apply chosen_map_div in C.
Qed.

Lemma C113_action_lemma : forall ap x, 0 <= ap <= 1 -> 0 <= x < 1 ->
  exists i, action_choice64 ap x = Ok i /\ chosen (/ 2 ^ 46) [ap / 2; ap / 2; (1 - ap) / 2; (1 - ap) / 2] x i.
Proof.
  intros ap x Ha Hx. assert (U := u64_value). assert (UP := u64_pos). assert (US := u64_small).
  unfold action_choice64. cbn [actions filter is_append List.length Nat.sub map].
  replace (INR 2) with 2 by (cbn; ring).
  assert (R1 := rn_within 1 0.5 (ap / 2) ltac:(lra) ltac:(lra)).
  assert (R2 := rn_within 1 1 (1 - ap) ltac:(lra) ltac:(lra)).
  assert (P2 := rn_pos (1 - ap) ltac:(lra)). assert (P1 := rn_pos (ap / 2) ltac:(lra)).
  assert (R3 := rn_within 1 0.6 (rn (1 - ap) / 2) ltac:(lra) ltac:(lra)).
  assert (P3 := rn_pos (rn (1 - ap) / 2) ltac:(lra)).
  set (pa := rn (ap / 2)) in *. set (pn := rn (rn (1 - ap) / 2)) in *.
  assert (A1 : Rabs (pa - ap / 2) <= 3 * u64) by (apply Rabs_le; lra).
  assert (A2 : Rabs (pn - (1 - ap) / 2) <= 3 * u64) by (apply Rabs_le; lra).
  assert (Z1 : ap / 2 = 0 -> pa = 0) by (intros E; unfold pa; rewrite E; apply rn_0).
  assert (Z2 : (1 - ap) / 2 = 0 -> pn = 0).
  { intros E. unfold pn. replace (1 - ap) with 0 by lra. rewrite rn_0. unfold Rdiv. rewrite Rmult_0_l. apply rn_0. }
  destruct (near_lemma [pa; pa; pn; pn] [ap / 2; ap / 2; (1 - ap) / 2; (1 - ap) / 2] x) as (i & E & C).
  - cbn. lia.
  - cbn. lra.
  - repeat apply List.Forall2_cons; auto.
  - repeat apply List.Forall_cons; auto.
  - repeat apply List.Forall_cons; auto; lra.
  - intros [|[|[|[|i]]]]; cbn [nth]; auto.
  - replace (total [ap / 2; ap / 2; (1 - ap) / 2; (1 - ap) / 2] - 1) with 0 by (cbn; field).
    rewrite Rabs_R0. cbn [List.length INR]. lra.
  - auto.
  - exists i. split; auto. cbn [List.length] in C. replace (/ 2 ^ 46) with (INR 4 * / 2 ^ 48) by (cbn [INR]; lra). exact C.
Qed.

(** * The choice with real numbers *)
Lemma cumsumR_nth : forall l acc i, (i < List.length l)%nat ->
  nth i (cumsumR acc l) 0 = acc + total (firstn (S i) l).
Proof.
  induction l as [|p l IH]; intros acc i Hi; [inversion Hi|]. cbn [cumsumR]. destruct i as [|i].
  - cbn. ring.
  - cbn [nth]. cbn in Hi. rewrite IH by lia. change (firstn (S (S i)) (p :: l)) with (p :: firstn (S i) l).
    change (total (p :: firstn (S i) l)) with (p + total (firstn (S i) l)). ring.
Qed.
Lemma cumsumR_length : forall l acc, List.length (cumsumR acc l) = List.length l.
Proof. induction l; intros; cbn; auto. Qed.

Lemma sumR_total l : sumR l = total l.
Proof. induction l as [|x l IH]; cbn; auto. Qed.

Lemma choice_exact g st p : (0 < List.length p)%nat -> List.Forall (fun y => 0 <= y) p ->
  Rabs (total p - 1) <= / 2 ^ 27 -> 0 <= g_unif g (r_draws st) < 1 ->
  exists i, snd (choice_p g (List.length p) p st) = Ok i /\ (i < List.length p)%nat /\
    total (firstn i p) / total p <= g_unif g (r_draws st) < total (firstn (S i) p) / total p.
Proof.
  intros H0 Hp HT Hx. unfold choice_p.
  replace (Nat.eqb (List.length p) 0) with false by (symmetry; apply Nat.eqb_neq; lia).
  rewrite Nat.eqb_refl. cbn [negb]. rewrite (no_negative _ Hp).
  replace (Rltb choice_tol (Rabs (sumR p - 1))) with false
    by (symmetry; apply Rltb_false; rewrite sumR_total; unfold choice_tol; lra).
  unfold se_bind, draw_unif, se_ret. cbn zeta. cbn [snd].
  set (x := g_unif g (r_draws st)) in *. set (cs := cumsumR 0 p). set (n := List.length p) in *.
  assert (CL : List.length cs = n) by apply cumsumR_length.
  assert (LE : last cs 0 = total p).
  { rewrite last_nth, CL. unfold cs. rewrite cumsumR_nth by (fold n; lia).
    replace (S (n - 1)) with n by lia. unfold n. rewrite firstn_all. ring. }
  rewrite LE. set (cdf := map (fun c => c / total p) cs).
  assert (DL : List.length cdf = n) by (unfold cdf; now rewrite map_length).
  assert (DV : forall i, (i < n)%nat -> nth i cdf 0 = total (firstn (S i) p) / total p).
  { intros i Hi. unfold cdf. rewrite (nth_indep _ 0 ((fun c => c / total p) 0)) by (rewrite map_length; lia).
    rewrite (map_nth (fun c => c / total p)). unfold cs. rewrite cumsumR_nth by auto. now rewrite Rplus_0_l. }
  apply Rabs_le_inv in HT.
  destruct (searchsorted_spec x cdf) as (S1 & S2 & S3). set (i := searchsorted cdf x) in *.
  assert (Hi : (i < n)%nat).
  { destruct (Nat.lt_ge_cases i n) as [|G]; auto. exfalso. specialize (S2 (n - 1)%nat ltac:(lia)).
    rewrite DV in S2 by lia. replace (S (n - 1)) with n in S2 by lia. unfold n in S2. rewrite firstn_all in S2.
    unfold Rdiv in S2. rewrite Rinv_r in S2 by lra. lra. }
  exists i. split; auto. split; auto. specialize (S3 ltac:(lia)). rewrite DV in S3 by auto. split; auto.
  destruct i as [|j].
  - cbn. unfold Rdiv. rewrite Rmult_0_l. lra.
  - rewrite <- DV by lia. apply S2. lia.
Qed.

Lemma total_firstn_mono l i j : List.Forall (fun x => 0 <= x) l -> (i <= j)%nat -> total (firstn i l) <= total (firstn j l).
Proof.
  intros H L. replace (firstn i l) with (firstn i (firstn j l)) by (rewrite firstn_firstn; f_equal; lia).
  apply total_firstn. rewrite <- (firstn_skipn j l) in H. now apply Forall_app in H as [H1 _].
Qed.

Lemma C113_agrees_lemma : forall g st p, let n := List.length p in let x := g_unif g (r_draws st) in
  (0 < n)%nat -> INR n <= 10 ^ 6 -> List.Forall (fun y => 0 <= y) p -> Rabs (total p - 1) <= / 2 ^ 27 -> 0 <= x < 1 ->
  (forall k, (0 < k < n)%nat -> INR n * / 2 ^ 48 < Rabs (x - total (firstn k p) / total p)) ->
  snd (choice_p g n p st) = choice64 n p x.
Proof.
  intros g st p n x H0 Hn Hp HT Hx HB.
  destruct (choice_exact g st p H0 Hp HT Hx) as (j & E & Hj & J1 & J2).
  destruct (C113_choice_lemma p x H0 Hn Hp HT Hx) as (i & E' & Hi & _ & I1 & I2). fold n in E, E', Hi, Hj, I1, I2. fold x in J1, J2.
  rewrite E, E'. f_equal. apply Rabs_le_inv in HT.
  assert (MO : forall a b, (a <= b)%nat -> total (firstn a p) / total p <= total (firstn b p) / total p).
  { intros a b L. apply Rmult_le_compat_r; [apply Rlt_le, Rinv_0_lt_compat; lra|]. now apply total_firstn_mono. }
  destruct (Nat.lt_trichotomy i j) as [L|[L|L]]; auto; exfalso.
  - specialize (HB (S i) ltac:(lia)). assert (M := MO (S i) j ltac:(lia)). rewrite Rabs_pos_eq in HB by lra. lra.
  - specialize (HB (S j) ltac:(lia)). assert (M := MO (S j) i ltac:(lia)). rewrite Rabs_left in HB by lra. lra.
Qed.
