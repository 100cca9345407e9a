(** Proofs about the error bars of the paper's notebooks. *)
From Coq Require Import Reals List Arith Bool Lia Lra Psatz.
From Verif Require Import Base CMat CMatFacts Norms PDrift ModelPaper SpecPaper PPaper PPaper5.
Import ListNotations.
Open Scope R_scope.

(** ** Means over draws from several distributions *)
Section Draws.
Variable d : nat.

Lemma dm_ext : forall qs F G, (forall l, shots_of d (List.length qs) l -> F l = G l) ->
  draws_mean d qs F = draws_mean d qs G.
Proof.
  induction qs as [|q qs IH]; intros F G H; cbn [draws_mean].
  - apply H. split; [reflexivity | intros s []].
  - apply rsum_ext. intros k Hk. f_equal. apply IH. intros l [L1 L2]. apply H.
    split; [simpl; lia |]. intros s [<- | Hs]; auto.
Qed.

Lemma dm_plus : forall qs F G, draws_mean d qs (fun l => F l + G l) = draws_mean d qs F + draws_mean d qs G.
Proof.
  induction qs as [|q qs IH]; intros F G; cbn [draws_mean]; [reflexivity |].
  rewrite <- rsum_plus. apply rsum_ext. intros k Hk. rewrite IH. ring.
Qed.

Lemma dm_scale : forall qs a F, draws_mean d qs (fun l => a * F l) = a * draws_mean d qs F.
Proof.
  induction qs as [|q qs IH]; intros a F; cbn [draws_mean]; [reflexivity |].
  rewrite <- rsum_mult_l. apply rsum_ext. intros k Hk. rewrite IH. ring.
Qed.

Lemma dm_const : forall qs a, (forall q, In q qs -> distribution d q) -> draws_mean d qs (fun _ => a) = a.
Proof.
  induction qs as [|q qs IH]; intros a H; cbn [draws_mean]; [reflexivity |].
  rewrite (rsum_ext d _ (fun k => q k * a)).
  - rewrite rsum_mult_r, (proj2 (H q (or_introl eq_refl))). ring.
  - intros k Hk. rewrite IH; [reflexivity|]. intros q' H'. apply H. now right.
Qed.

Lemma dm_sum g : forall qs, (forall q, In q qs -> distribution d q) ->
  draws_mean d qs (fun l => total (map g l)) = total (map (mean_of d g) qs).
Proof.
  induction qs as [|q qs IH]; intros H; [reflexivity|].
  cbn [draws_mean map total fold_right]. fold (total (map (mean_of d g) qs)).
  assert (H' : forall q', In q' qs -> distribution d q') by (intros q' Hq; apply H; now right).
  rewrite (rsum_ext d _ (fun k => q k * g k + q k * total (map (mean_of d g) qs))).
  - rewrite rsum_plus, rsum_mult_r, (proj2 (H q (or_introl eq_refl))). change (rsum d (fun k => q k * g k)) with (mean_of d g q). ring.
  - intros k Hk. rewrite (dm_ext qs _ (fun l => g k + total (map g l))) by (intros; reflexivity).
    rewrite dm_plus, dm_const, IH by exact H'. ring.
Qed.

Lemma dm_sq g : forall qs, (forall q, In q qs -> distribution d q) ->
  draws_mean d qs (fun l => (total (map g l) - total (map (mean_of d g) qs)) ^ 2) = total (map (variance_of d g) qs).
Proof.
  induction qs as [|q qs IH]; intros H; [cbn; ring|].
  assert (H' : forall q', In q' qs -> distribution d q') by (intros q' Hq; apply H; now right).
  assert (Hq := proj2 (H q (or_introl eq_refl))).
  cbn [draws_mean map total fold_right]. fold (total (map (mean_of d g) qs)) (total (map (variance_of d g) qs)).
  set (M := total (map (mean_of d g) qs)) in *. set (V := total (map (variance_of d g) qs)) in *.
  set (m := mean_of d g q).
  rewrite (rsum_ext d _ (fun k => q k * (g k - m) ^ 2 + q k * V)).
  - rewrite rsum_plus, rsum_mult_r, Hq. change (rsum d (fun k => q k * (g k - m) ^ 2)) with (variance_of d g q). ring.
  - intros k Hk.
    rewrite (dm_ext qs _ (fun l => (g k - m) ^ 2 +
        (2 * (g k - m) * (total (map g l) + - M) + (total (map g l) - M) ^ 2))).
    + rewrite dm_plus, dm_const, dm_plus, dm_scale, dm_plus, dm_const, dm_sum by exact H'.
      rewrite (IH H'). fold M V. ring.
    + intros l Hl. fold (total (map g l)). ring.
Qed.
End Draws.

Lemma total_is l : np_sum l = total l.
Proof. reflexivity. Qed.

Lemma spread_alt l : l <> [] -> spread l = total (map (fun x => x ^ 2) l) - INR (List.length l) * average l ^ 2.
Proof.
  intros NE. unfold spread. set (m := average l).
  assert (E : forall l', total (map (fun x => (x - m) ^ 2) l') =
    total (map (fun x => x ^ 2) l') - 2 * m * total l' + INR (List.length l') * m ^ 2).
  { induction l' as [|x l' IH]; [cbn; ring|]. cbn [map List.length]. rewrite S_INR. cbn [total fold_right].
    fold (total (map (fun x => (x - m) ^ 2) l')) (total (map (fun x => x ^ 2) l')) (total l'). rewrite IH. ring. }
  rewrite E. assert (T : total l = INR (List.length l) * m).
  { unfold m, average. field. apply not_0_INR. destruct l; [congruence|discriminate]. }
  rewrite T. ring.
Qed.

Lemma spread_nonneg l : 0 <= spread l.
Proof.
  unfold spread. set (m := average l). clearbody m. induction l as [|x l IH]; cbn [map total fold_right]; [lra|].
  fold (total (map (fun x => (x - m) ^ 2) l)). assert (T := pow2_ge_0 (x - m)). lra.
Qed.

Lemma np_std_is l : l <> [] -> np_std l = Some (sqrt (spread l / INR (List.length l))).
Proof.
  intros NE. unfold np_std. rewrite np_mean_some by exact NE.
  assert (P : 0 < INR (List.length l)) by (apply lt_0_INR; destruct l; [congruence|simpl; lia]).
  change (np_sum l / INR (List.length l)) with (average l).
  rewrite np_mean_some by (destruct l; [congruence|discriminate]). rewrite map_length.
  change (np_sum (map (fun x => (x - average l) ^ 2) l)) with (spread l).
  apply np_sqrt_some. apply Rmult_le_pos; [apply spread_nonneg|]. left. now apply Rinv_0_lt_compat.
Qed.

(** ** The bars of each bin *)
Lemma stderrs_lemma : forall k (l : list R), (0 < k)%nat ->
  bin_stderrs k l = Some (map (fun b => sqrt (spread b) / INR k) (split_runs k l)) /\
  forall b, In b (split_runs k l) -> List.length b = k.
Proof.
  intros k l Hk. destruct (runs_lemma R k l Hk) as (_ & HL & _ & HB).
  assert (P : 0 < INR k) by (apply lt_0_INR; lia).
  assert (LB : forall b, In b (split_runs k l) -> List.length b = k).
  { intros b Hb. now apply HL. }
  split; [|exact LB]. unfold bin_stderrs. rewrite HB. revert LB. generalize (split_runs k l) as bs.
  induction bs as [|b bs IH]; intros LB; [reflexivity|]. cbn [map all_some].
  assert (Lb := LB b (or_introl eq_refl)).
  rewrite np_std_is by (intros ->; simpl in Lb; lia). rewrite Lb.
  assert (S0 : sqrt (INR k) <> 0) by (apply Rgt_not_eq, sqrt_lt_R0; exact P).
  rewrite np_div_some by exact S0. rewrite IH by (intros b' Hb; apply LB; now right).
  do 2 f_equal. rewrite sqrt_div by (try apply spread_nonneg; exact P).
  rewrite <- (sqrt_sqrt (INR k)) at 3 by lra. field. exact S0.
Qed.

(** ** The mean of the square of an error bar *)
Section Bars.
Variables (d : nat) (g : nat -> R) (qs : list (nat -> R)).
Hypothesis Hq : forall q, In q qs -> distribution d q.
Hypothesis NE : qs <> [].
Let k := INR (List.length qs).
Let ms := map (mean_of d g) qs.
Let vs := map (variance_of d g) qs.

Lemma k_pos : 0 < k.
Proof. unfold k. apply lt_0_INR. destruct qs; [congruence|simpl; lia]. Qed.

Lemma ms_len : INR (List.length ms) = k.
Proof. unfold ms. now rewrite map_length. Qed.

(** The variance of the average of the draws. *)
Lemma mean_variance : draws_mean d qs (fun l => (average (map g l) - average ms) ^ 2) = total vs / k ^ 2.
Proof.
  assert (P := k_pos).
  rewrite (dm_ext d qs _ (fun l => / k ^ 2 * (total (map g l) - total (map (mean_of d g) qs)) ^ 2)).
  - rewrite dm_scale, (dm_sq d g qs Hq). unfold vs. field. lra.
  - intros l [L _]. unfold average. rewrite ms_len, map_length, L. fold k. unfold ms. field. lra.
Qed.

Lemma mean_average : draws_mean d qs (fun l => average (map g l)) = average ms.
Proof.
  assert (P := k_pos).
  rewrite (dm_ext d qs _ (fun l => / k * total (map g l))).
  - rewrite dm_scale, (dm_sum d g qs Hq). unfold average. rewrite ms_len. unfold ms. field. lra.
  - intros l [L _]. unfold average. rewrite map_length, L. fold k. field. lra.
Qed.

Lemma second_moment q : distribution d q -> mean_of d (fun x => g x ^ 2) q = variance_of d g q + mean_of d g q ^ 2.
Proof.
  intros [_ H]. assert (V := variance_alt d q H g). unfold variance_of, mean_of in *. cbv zeta in V. rewrite V. ring.
Qed.

Lemma mean_spread : draws_mean d qs (fun l => spread (map g l)) = (1 - / k) * total vs + spread ms.
Proof.
  assert (P := k_pos).
  rewrite (dm_ext d qs _ (fun l => total (map (fun x => g x ^ 2) l) +
     (- k) * ((average (map g l) - average ms) ^ 2 + (2 * average ms * average (map g l) + - average ms ^ 2)))).
  - rewrite dm_plus, dm_scale, dm_plus, dm_plus, dm_scale, mean_variance, mean_average.
    rewrite (dm_const d qs) by exact Hq. rewrite (dm_sum d (fun x => g x ^ 2) qs Hq).
    rewrite (spread_alt ms) by (unfold ms; destruct qs; [congruence|discriminate]). rewrite ms_len.
    assert (E : total (map (mean_of d (fun x => g x ^ 2)) qs) = total vs + total (map (fun x => x ^ 2) ms)).
    { unfold vs, ms. revert Hq. clear. induction qs as [|q t IH]; intros Hq; [cbn; ring|].
      cbn [map total fold_right]. rewrite second_moment by (apply Hq; now left).
      fold (total (map (mean_of d (fun x => g x ^ 2)) t)) (total (map (variance_of d g) t))
           (total (map (fun x => x ^ 2) (map (mean_of d g) t))).
      rewrite IH by (intros q' H; apply Hq; now right). ring. }
    rewrite E. field. lra.
  - intros l [L _]. rewrite spread_alt by (destruct l; [simpl in L; destruct qs; [congruence|discriminate]|discriminate]).
    rewrite !map_map, map_length, L. fold k. ring.
Qed.
End Bars.

Lemma bars_lemma : forall d g qs, (forall q, In q qs -> distribution d q) -> qs <> [] ->
  let k := List.length qs in
  let bar l := sqrt (spread (map g l)) / INR k in
  let ms := map (mean_of d g) qs in
  (forall l, shots_of d k l -> bin_stderrs k (map g l) = Some [bar l] /\ np_mean (map g l) = Some (average (map g l))) /\
  let var := draws_mean d qs (fun l => (average (map g l) - average ms) ^ 2) in
  draws_mean d qs (fun l => average (map g l)) = average ms /\
  draws_mean d qs (fun l => bar l ^ 2) = (1 - / INR k) * var + spread ms / INR k ^ 2.
Proof.
  intros d g qs Hq NE k bar ms. assert (Hk : (0 < k)%nat) by (unfold k; destruct qs; [congruence|simpl; lia]).
  assert (P : 0 < INR k) by (apply lt_0_INR; exact Hk). split.
  - intros l [L _]. split.
    + destruct (stderrs_lemma k (map g l) Hk) as [E _]. rewrite E. unfold split_runs. rewrite map_length, L.
      rewrite Nat.div_same by lia. cbn [seq map]. rewrite Nat.mul_0_r. unfold slice.
      rewrite Nat.add_0_l, Nat.mul_1_r, Nat.sub_0_r, skipn_O, firstn_all2 by (rewrite map_length; lia). reflexivity.
    + rewrite np_mean_some by (destruct l; [simpl in L; lia|discriminate]). reflexivity.
  - intros var. split; [exact (mean_average d g qs Hq NE)|].
    rewrite (dm_ext d qs _ (fun l => / INR k ^ 2 * spread (map g l))).
    + rewrite dm_scale, (mean_spread d g qs Hq NE). unfold var, ms. rewrite (mean_variance d g qs Hq NE). fold k. field. lra.
    + intros l Hl. unfold bar. replace ((sqrt (spread (map g l)) / INR k) ^ 2) with
        (sqrt (spread (map g l)) * sqrt (spread (map g l)) / INR k ^ 2) by (field; lra).
      rewrite sqrt_sqrt by apply spread_nonneg. field. lra.
Qed.

Lemma total_repeat x k : total (repeat x k) = INR k * x.
Proof. induction k as [|k IH]; [cbn; ring|]. rewrite S_INR. cbn [repeat total fold_right]. fold (total (repeat x k)). rewrite IH. ring. Qed.

Lemma spread_repeat x k : spread (repeat x k) = 0.
Proof.
  destruct k as [|k]; [reflexivity|].
  rewrite spread_alt by discriminate. unfold average. rewrite total_repeat, repeat_length.
  assert (E : map (fun x => x ^ 2) (repeat x (S k)) = repeat (x ^ 2) (S k)).
  { induction (S k) as [|j IH]; [reflexivity|]. cbn [repeat map]. now rewrite IH. }
  rewrite E, total_repeat. field. apply not_0_INR. lia.
Qed.

Lemma map_rep {A B} (f : A -> B) x k : map f (repeat x k) = repeat (f x) k.
Proof. induction k as [|k IH]; [reflexivity|]. cbn [repeat map]. now rewrite IH. Qed.

(** ** Equal distributions *)
Lemma bars_small_lemma : forall d g q k, distribution d q -> (0 < k)%nat -> 0 < variance_of d g q ->
  let qs := repeat q k in
  let bar l := sqrt (spread (map g l)) / INR k in
  let var := draws_mean d qs (fun l => (average (map g l) - mean_of d g q) ^ 2) in
  var = variance_of d g q / INR k /\
  draws_mean d qs (fun l => bar l ^ 2) = (1 - / INR k) * var /\
  draws_mean d qs (fun l => bar l ^ 2) < var /\
  ((2 <= k)%nat -> exists e, (forall l, shots_of d k l -> sem (map g l) = Some (e l)) /\ draws_mean d qs (fun l => e l ^ 2) = var).
Proof.
  intros d g q k Dq Hk Hv qs bar var.
  assert (Hq : forall q', In q' qs -> distribution d q') by (intros q' H; now rewrite (repeat_spec _ _ _ H)).
  assert (NE : qs <> []) by (unfold qs; destruct k; [lia|discriminate]).
  assert (Lq : List.length qs = k) by apply repeat_length.
  assert (P : 0 < INR k) by (apply lt_0_INR; lia).
  assert (AV : average (map (mean_of d g) qs) = mean_of d g q).
  { unfold average, qs. rewrite map_rep, total_repeat, repeat_length. field. lra. }
  assert (SP : spread (map (mean_of d g) qs) = 0) by (unfold qs; rewrite map_rep; apply spread_repeat).
  destruct (bars_lemma d g qs Hq NE) as (B1 & _ & B2). rewrite Lq, AV, SP in B2. fold var in B2.
  assert (V : var = variance_of d g q / INR k).
  { unfold var. rewrite <- AV, (mean_variance d g qs Hq NE), Lq. unfold qs. rewrite map_rep, total_repeat. field. lra. }
  assert (Vp : 0 < var) by (rewrite V; apply Rdiv_lt_0_compat; lra).
  assert (B3 : draws_mean d qs (fun l => bar l ^ 2) = (1 - / INR k) * var).
  { unfold bar. rewrite B2. field. lra. }
  split; [exact V|]. split; [exact B3|]. split.
  { rewrite B3. assert (I := Rinv_0_lt_compat _ P). nra. }
  intros K2. assert (P2 : 1 < INR k) by (change 1 with (INR 1); apply lt_INR; lia).
  exists (fun l => sqrt (spread (map g l) / (INR k - 1)) / sqrt (INR k)). split.
  - intros l [L _]. unfold sem. rewrite np_mean_some by (destruct l; [simpl in L; lia|discriminate]).
    change (np_sum (map g l) / INR (List.length (map g l))) with (average (map g l)).
    change (np_sum (map (fun x => (x - average (map g l)) ^ 2) (map g l))) with (spread (map g l)).
    rewrite map_length, L. rewrite np_div_some by lra. rewrite np_sqrt_some.
    + apply np_div_some. apply Rgt_not_eq, sqrt_lt_R0. exact P.
    + apply Rmult_le_pos; [apply spread_nonneg|]. left. apply Rinv_0_lt_compat. lra.
  - rewrite (dm_ext d qs _ (fun l => INR k / (INR k - 1) * bar l ^ 2)).
    + rewrite dm_scale, B3. field. lra.
    + intros l Hl. unfold bar.
      assert (SN := spread_nonneg (map g l)).
      assert (A1 : sqrt (spread (map g l)) * sqrt (spread (map g l)) = spread (map g l)) by now apply sqrt_sqrt.
      assert (A2 : sqrt (INR k) * sqrt (INR k) = INR k) by (apply sqrt_sqrt; lra).
      assert (A3 : sqrt (spread (map g l) / (INR k - 1)) * sqrt (spread (map g l) / (INR k - 1)) = spread (map g l) / (INR k - 1)).
      { apply sqrt_sqrt. apply Rmult_le_pos; [exact SN|]. left. apply Rinv_0_lt_compat. lra. }
      assert (SK : sqrt (INR k) <> 0) by (apply Rgt_not_eq, sqrt_lt_R0; exact P).
      transitivity (spread (map g l) / (INR k - 1) / INR k).
      * transitivity ((sqrt (spread (map g l) / (INR k - 1)) * sqrt (spread (map g l) / (INR k - 1))) / (sqrt (INR k) * sqrt (INR k)));
          [field; exact SK|]. now rewrite A3, A2.
      * transitivity (INR k / (INR k - 1) * ((sqrt (spread (map g l)) * sqrt (spread (map g l))) / INR k ^ 2)); [|field; lra].
        rewrite A1. field. lra.
Qed.

(** ** Bins of one value, or of equal values *)
Lemma chi_undefined_lemma : forall y fit bars, List.length fit = List.length y -> List.length bars = List.length y ->
  In 0 bars -> chi_square y fit bars = None.
Proof.
  intros y fit bars L1 L2 H0. unfold chi_square.
  assert (E : all_some (map (fun t => np_div ((fst (fst t) - snd (fst t)) ^ 2) (snd t ^ 2))
                            (List.combine (List.combine y fit) bars)) = None); [|now rewrite E].
  revert fit bars L1 L2 H0. induction y as [|a y IH]; intros [|f fit] [|b bars] L1 L2 H0; try discriminate; [destruct H0|].
  cbn [List.combine map all_some fst snd]. destruct H0 as [->|H0].
  - unfold np_div. destruct (Req_EM_T (0 ^ 2) 0) as [_|N]; [reflexivity|]. exfalso. apply N. ring.
  - rewrite (IH fit bars) by (auto; simpl in *; lia). destruct (np_div _ _); reflexivity.
Qed.

Lemma equal_bins_lemma : forall k (l : list R) x, (0 < k)%nat -> In (repeat x k) (split_runs k l) ->
  exists bars, bin_stderrs k l = Some bars /\ In 0 bars /\ List.length bars = (List.length l / k)%nat /\
  forall y fit, List.length y = List.length bars -> List.length fit = List.length bars -> chi_square y fit bars = None.
Proof.
  intros k l x Hk H. destruct (stderrs_lemma k l Hk) as [E _]. destruct (runs_lemma R k l Hk) as (HL & _).
  eexists. split; [exact E|].
  assert (Z : In 0 (map (fun b => sqrt (spread b) / INR k) (split_runs k l))).
  { apply in_map_iff. exists (repeat x k). split; [|exact H]. rewrite spread_repeat, sqrt_0. field. apply not_0_INR. lia. }
  split; [exact Z|]. rewrite map_length. split; [exact HL|].
  intros y fit Ly Lf. apply chi_undefined_lemma; auto; rewrite ?map_length; congruence.
Qed.

Lemma ex_C91_lemma : distribution 2 (fun _ => 1 / 2) /\
  variance_of 2 (fun k => INR k) (fun _ => 1 / 2) = 1 / 4 /\
  split_runs 2 [0; 1; 1; 1; 0] = [[0; 1]; repeat 1 2].
Proof.
  split; [split; [intros; lra|cbn; lra]|]. split; [|reflexivity].
  unfold variance_of, mean_of. cbn. lra.
Qed.
