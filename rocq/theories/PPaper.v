(** Proofs about the estimators of the paper's notebooks. *)
From Coq Require Import Reals List Arith Bool Lia Lra Psatz.
From Coquelicot Require Import Complex.
From Verif Require Import Base CMat CMatFacts DetFacts Norms PDrift ModelPaper SpecPaper.
Import ListNotations.
Open Scope R_scope.

Lemma rsum_minus n f g : rsum n (fun i => f i - g i) = rsum n f - rsum n g.
Proof. induction n; simpl; lra. Qed.

(** ** Means over shots *)
Section Shots.
Variable d : nat.
Variable q : nat -> R.
Hypothesis Hq : rsum d q = 1.

Lemma sm_ext : forall K F G, (forall l, shots_of d K l -> F l = G l) ->
  shots_mean d q K F = shots_mean d q K G.
Proof.
  induction K; intros F G H; simpl.
  - apply H. split; [reflexivity | intros s []].
  - apply rsum_ext. intros k Hk. f_equal. apply IHK. intros l [L1 L2]. apply H.
    split; [simpl; lia |]. intros s [<- | Hs]; auto.
Qed.

Lemma sm_plus : forall K F G, shots_mean d q K (fun l => F l + G l) =
  shots_mean d q K F + shots_mean d q K G.
Proof.
  induction K; intros F G; simpl; [reflexivity |].
  rewrite <- rsum_plus. apply rsum_ext. intros k Hk. rewrite IHK. ring.
Qed.

Lemma sm_scale : forall K a F, shots_mean d q K (fun l => a * F l) = a * shots_mean d q K F.
Proof.
  induction K; intros a F; simpl; [reflexivity |].
  rewrite <- rsum_mult_l. apply rsum_ext. intros k Hk. rewrite IHK. ring.
Qed.

Lemma sm_const : forall K a, shots_mean d q K (fun _ => a) = a.
Proof.
  induction K; intros a; simpl; [reflexivity |].
  rewrite (rsum_ext d _ (fun k => q k * a)); [| intros k Hk; rewrite IHK; reflexivity].
  rewrite rsum_mult_r, Hq. ring.
Qed.

Variable g : nat -> R.
Let mu := rsum d (fun k => q k * g k).
Let v := rsum d (fun k => q k * (g k - mu) ^ 2).

Lemma sm_sum : forall K, shots_mean d q K (fun l => np_sum (map g l)) = INR K * mu.
Proof.
  induction K; [simpl; ring |]. rewrite S_INR.
  cbn [shots_mean].
  rewrite (rsum_ext d _ (fun k => q k * g k + q k * (INR K * mu))).
  - rewrite rsum_plus, rsum_mult_r, Hq. fold mu. ring.
  - intros k Hk. rewrite (sm_ext K _ (fun l => g k + np_sum (map g l))) by (intros; reflexivity).
    rewrite sm_plus, sm_const, IHK. ring.
Qed.

Lemma sm_centred K : shots_mean d q K (fun l => np_sum (map g l) - INR K * mu) = 0.
Proof.
  rewrite (sm_ext K _ (fun l => np_sum (map g l) + - (INR K * mu))) by (intros; ring).
  rewrite sm_plus, sm_const, sm_sum. ring.
Qed.

Lemma centre : rsum d (fun k => q k * (g k - mu)) = 0.
Proof.
  rewrite (rsum_ext d _ (fun k => q k * g k - q k * mu)) by (intros; ring).
  rewrite rsum_minus, rsum_mult_r, Hq. fold mu. ring.
Qed.

Lemma sm_sq : forall K, shots_mean d q K (fun l => (np_sum (map g l) - INR K * mu) ^ 2) = INR K * v.
Proof.
  induction K; [simpl; ring |].
  cbn [shots_mean].
  rewrite (rsum_ext d _ (fun k => q k * (g k - mu) ^ 2 + q k * (INR K * v))).
  - rewrite rsum_plus, rsum_mult_r, Hq. fold v. rewrite S_INR. ring.
  - intros k Hk.
    rewrite (sm_ext K _ (fun l => (g k - mu) ^ 2 +
        (2 * (g k - mu) * (np_sum (map g l) - INR K * mu) + (np_sum (map g l) - INR K * mu) ^ 2))).
    + rewrite sm_plus, sm_const, sm_plus, sm_scale, sm_centred, IHK. ring.
    + intros l Hl. rewrite S_INR. cbn [map np_sum fold_right]. fold (np_sum (map g l)). ring.
Qed.

Lemma variance_alt : v = rsum d (fun k => q k * g k ^ 2) - mu ^ 2.
Proof.
  unfold v. rewrite (rsum_ext d _ (fun k => q k * g k ^ 2 - (2 * mu * (q k * g k) - q k * mu ^ 2)))
    by (intros; ring).
  rewrite !rsum_minus, rsum_mult_l, rsum_mult_r, Hq. fold mu. ring.
Qed.

(** The mean and the variance of an affine function of the average of [g] over the shots. *)
Lemma estimator K a b F : (0 < K)%nat ->
  (forall l, shots_of d K l -> F l = a * (np_sum (map g l) / INR K) + b) ->
  shots_mean d q K F = a * mu + b /\ shots_var d q K F = a ^ 2 * v / INR K.
Proof.
  intros HK H. assert (HK' : INR K <> 0) by (apply not_0_INR; lia).
  assert (M : shots_mean d q K F = a * mu + b).
  { rewrite (sm_ext K F (fun l => a / INR K * np_sum (map g l) + b)).
    - rewrite sm_plus, sm_scale, sm_const, sm_sum. field. exact HK'.
    - intros l Hl. rewrite (H l Hl). field. exact HK'. }
  split; [exact M |]. unfold shots_var. rewrite M.
  rewrite (sm_ext K _ (fun l => (a / INR K) ^ 2 * (np_sum (map g l) - INR K * mu) ^ 2)).
  - rewrite sm_scale, sm_sq. field. exact HK'.
  - intros l Hl. rewrite (H l Hl). field. exact HK'.
Qed.
End Shots.

(** ** numpy operations *)
Lemma np_div_some a b : b <> 0 -> np_div a b = Some (a / b).
Proof. intros H. unfold np_div. destruct (Req_EM_T b 0); [contradiction | reflexivity]. Qed.
Lemma np_sqrt_some x : 0 <= x -> np_sqrt x = Some (sqrt x).
Proof. intros H. unfold np_sqrt. destruct (Rlt_dec x 0); [lra | reflexivity]. Qed.
Lemma np_mean_some l : l <> [] -> np_mean l = Some (np_sum l / INR (List.length l)).
Proof. intros H. apply np_div_some. apply not_0_INR. destruct l; [congruence | simpl; lia]. Qed.

Definition ind (i : nat) (s : nat) : R := if Nat.eqb s i then 1 else 0.

Lemma measured_some d K l i : (0 < K)%nat -> shots_of d K l ->
  measured_prob l i = Some (np_sum (map (ind i) l) / INR K).
Proof.
  intros HK [L _]. unfold measured_prob. rewrite np_mean_some.
  - rewrite map_length, L. reflexivity.
  - destruct l; [simpl in L; lia | discriminate].
Qed.

Lemma rsum_ind d i f : (i < d)%nat -> rsum d (fun k => f k * ind i k) = f i.
Proof.
  unfold ind. induction d; [lia |]. intros H. simpl. destruct (Nat.eq_dec i d) as [-> | N].
  - rewrite Nat.eqb_refl. rewrite (rsum_ext d _ (fun _ => 0)).
    + rewrite rsum_const. ring.
    + intros k Hk. destruct (Nat.eqb_spec k d); [lia | ring].
  - rewrite IHd by lia. destruct (Nat.eqb_spec d i); [lia | ring].
Qed.

(** ** Distributions *)
Lemma dist_le1 d p k : distribution d p -> (k < d)%nat -> p k <= 1.
Proof. intros [P S] Hk. rewrite <- S. apply (rsum_term_le d p k); auto. Qed.

Lemma dist_pos d p : distribution d p -> (0 < d)%nat.
Proof. intros [_ S]. destruct d; [simpl in S; lra | lia]. Qed.

Lemma mix_distribution d p lam : distribution d p -> 0 <= lam <= 1 ->
  distribution d (output_probs d p lam).
Proof.
  intros D L. assert (Hd := dist_pos d p D). destruct D as [P S].
  assert (0 < INR d) by (apply lt_0_INR; lia). split.
  - intros k Hk. unfold output_probs. specialize (P k Hk).
    assert (0 < 1 / INR d) by (apply Rdiv_lt_0_compat; lra). nra.
  - unfold output_probs. rewrite rsum_plus, rsum_mult_l, rsum_const, S. field. lra.
Qed.

Lemma output_dist_lemma : forall d U i lam, unitary_mx d U -> (i < d)%nat -> 0 <= lam <= 1 ->
  distribution d (ideal_output_probs U i) /\
  distribution d (output_probs d (ideal_output_probs U i) lam).
Proof.
  intros d U i lam HU Hi L.
  assert (D : distribution d (ideal_output_probs U i)).
  { split.
    - intros k Hk. unfold ideal_output_probs. apply pow2_ge_0.
    - apply unitary_left in HU. specialize (HU i i Hi Hi). unfold mmul, adj, mid in HU.
      rewrite Nat.eqb_refl in HU.
      assert (E : RtoC (rsum d (ideal_output_probs U i)) = RtoC 1).
      { rewrite <- HU. clear. induction d; simpl; [reflexivity |].
        rewrite RtoC_plus, IHd. f_equal. unfold ideal_output_probs.
        rewrite (Cmult_comm (Cconj (U d i))), Cmult_conj. reflexivity. }
      apply RtoC_inj in E. exact E. }
  split; [exact D | apply mix_distribution; assumption].
Qed.

Ltac nz := repeat split; try lra;
  match goal with H : _ <> 0 |- _ <> 0 => let E := fresh in intros E; apply H; lra end.

(** ** The RAV fidelity *)
Lemma rav_lemma : forall d K p i lam,
  (0 < K)%nat -> distribution d p -> (i < d)%nat -> p i <> 1 / INR d -> 0 <= lam <= 1 ->
  let q := output_probs d p lam in
  exists F s,
    (forall l, shots_of d K l -> exists m, measured_prob l i = Some m /\
       rav_fidelity d m (p i) = Some (F l)) /\
    shots_mean d q K F = 1 - lam /\
    std_f_rav (INR K) (INR d) lam (1 - p i) = Some s /\
    0 <= s /\ shots_var d q K F = s ^ 2.
Proof.
  intros d K p i lam HK D Hi Hp L q.
  assert (Dq : distribution d q) by (apply mix_distribution; assumption).
  assert (Hd : 0 < INR d) by (apply lt_0_INR; lia).
  assert (HK' : 0 < INR K) by (apply lt_0_INR; lia).
  assert (Hx : p i - 1 / INR d <> 0) by lra.
  assert (Hx' : INR d * p i - 1 <> 0).
  { intros E. apply Hx. apply (Rmult_eq_reg_l (INR d)); [| lra]. field_simplify; lra. }
  set (F := fun l => (np_sum (map (ind i) l) / INR K - 1 / INR d) / (p i - 1 / INR d)).
  destruct (estimator d q (proj2 Dq) (ind i) K (/ (p i - 1 / INR d))
              (- (1 / INR d) / (p i - 1 / INR d)) F HK) as [M V].
  { intros l Hl. unfold F. field. nz. }
  rewrite variance_alt in V by exact (proj2 Dq).
  rewrite (rsum_ind d i q Hi) in M, V.
  rewrite (rsum_ext d _ (fun k => q k * ind i k)) in V
    by (intros k _; unfold ind; destruct (Nat.eqb k i); ring).
  rewrite (rsum_ind d i q Hi) in V.
  set (X := 1 / INR K * (INR d / (INR d * (1 - (1 - p i)) - 1)) ^ 2 *
            ((1 - lam) * (1 - (1 - p i)) + lam / INR d) *
            (1 - (1 - lam) * (1 - (1 - p i)) - lam / INR d)).
  assert (EV : shots_var d q K F = X).
  { rewrite V. unfold X, q, output_probs. field. nz. }
  assert (HX : 0 <= X).
  { unfold X. assert (Q0 := proj1 Dq i Hi). assert (Q1 := dist_le1 d q i Dq Hi).
    unfold q, output_probs in Q0, Q1.
    apply Rmult_le_pos; [apply Rmult_le_pos; [apply Rmult_le_pos |] |].
    - unfold Rdiv. rewrite Rmult_1_l. left. apply Rinv_0_lt_compat. exact HK'.
    - apply pow2_ge_0.
    - replace (lam / INR d) with (lam * (1 / INR d)) by (field; lra). lra.
    - replace (lam / INR d) with (lam * (1 / INR d)) by (field; lra). lra. }
  exists F, (sqrt X). split; [| split; [| split; [| split]]].
  - intros l Hl. eexists. split; [apply (measured_some d); eassumption |].
    unfold rav_fidelity. rewrite np_div_some by exact Hx. reflexivity.
  - rewrite M. unfold q, output_probs. field. nz.
  - unfold std_f_rav. rewrite !np_div_some by (try lra; replace (1 - (1 - p i)) with (p i) by ring; exact Hx').
    fold X. apply np_sqrt_some. exact HX.
  - apply sqrt_pos.
  - rewrite EV. simpl. rewrite Rmult_1_r, sqrt_sqrt; [reflexivity | exact HX].
Qed.

(** ** The XEB fidelity *)
Lemma rsum_swap_list d (p : nat -> R) l : (forall s, In s l -> (s < d)%nat) ->
  rsum d (fun k => p k * np_sum (map (ind k) l)) = np_sum (map p l).
Proof.
  induction l as [| s l IH]; intros H; simpl.
  - rewrite (rsum_ext d _ (fun _ => 0)) by (intros; ring). rewrite rsum_const. ring.
  - rewrite (rsum_ext d _ (fun k => p k * ind s k + p k * np_sum (map (ind k) l))).
    + rewrite rsum_plus, rsum_ind, IH; [reflexivity | | apply H; left; reflexivity].
      intros t Ht. apply H. right. exact Ht.
    + intros k Hk. unfold ind, np_sum. rewrite (Nat.eqb_sym s k). ring.
Qed.

Lemma sq_sum_le d a : (forall k, (k < d)%nat -> 0 <= a k) ->
  rsum d (fun k => a k ^ 2) <= rsum d a ^ 2.
Proof.
  induction d; intros H; simpl; [lra |].
  assert (0 <= rsum d a) by (apply rsum_nonneg; intros; apply H; lia).
  assert (0 <= a d) by (apply H; lia).
  assert (IH : rsum d (fun k => a k ^ 2) <= rsum d a ^ 2) by (apply IHd; intros; apply H; lia).
  simpl in IH. assert (0 <= rsum d a * a d) by (apply Rmult_le_pos; assumption). lra.
Qed.

Lemma sq_sum_eq d a : (forall k, (k < d)%nat -> 0 <= a k) ->
  rsum d (fun k => a k ^ 2) = rsum d a ^ 2 ->
  forall j k, (j < d)%nat -> (k < d)%nat -> j <> k -> a j * a k = 0.
Proof.
  induction d; intros H E j k Hj Hk N; [lia |]. simpl in E.
  assert (P : 0 <= rsum d a) by (apply rsum_nonneg; intros; apply H; lia).
  assert (0 <= a d) by (apply H; lia).
  assert (IH : rsum d (fun k => a k ^ 2) <= rsum d a ^ 2) by (apply sq_sum_le; intros; apply H; lia).
  simpl in IH. assert (Q : 0 <= rsum d a * a d) by (apply Rmult_le_pos; assumption).
  assert (E1 : rsum d (fun k => a k ^ 2) = rsum d a ^ 2) by (simpl; lra).
  assert (E2 : rsum d a * a d = 0) by (simpl in E1; lra).
  assert (Z : forall i, (i < d)%nat -> a i * a d = 0).
  { intros i Hi. assert (a i <= rsum d a).
    { apply (rsum_term_le d a i); [| exact Hi]. intros; apply H; lia. }
    assert (0 <= a i) by (apply H; lia).
    apply Rmult_integral in E2. destruct E2 as [E2 | E2]; [replace (a i) with 0 by lra; ring |].
    rewrite E2. ring. }
  destruct (Nat.eq_dec j d) as [-> | Nj].
  - rewrite Rmult_comm. apply Z. lia.
  - destruct (Nat.eq_dec k d) as [-> | Nk]; [apply Z; lia |].
    apply IHd; try lia; [intros; apply H; lia | exact E1].
Qed.

Lemma mix_zero d p lam k : distribution d p -> 0 <= lam <= 1 -> (k < d)%nat ->
  p k * output_probs d p lam k = 0 -> p k = 0.
Proof.
  intros D L Hk E. apply Rmult_integral in E. destruct E as [E | E]; [exact E |].
  assert (Hd := dist_pos d p D). assert (0 < INR d) by (apply lt_0_INR; lia).
  assert (P := proj1 D k Hk). unfold output_probs in E.
  assert (0 < 1 / INR d) by (apply Rdiv_lt_0_compat; lra).
  destruct (Req_dec lam 0) as [-> | N]; [lra |].
  assert (0 < lam * (1 / INR d)) by (apply Rmult_lt_0_compat; lra).
  assert (0 <= (1 - lam) * p k) by (apply Rmult_le_pos; lra). lra.
Qed.

Lemma only_one d p : distribution d p ->
  (forall j k, (j < d)%nat -> (k < d)%nat -> j <> k -> p j * p k = 0) -> certain d p.
Proof.
  intros [P S] Z.
  assert (X : exists k, (k < d)%nat /\ p k <> 0).
  { clear Z. revert S. assert (G : forall n, (n <= d)%nat -> rsum n p <> 0 -> exists k, (k < n)%nat /\ p k <> 0).
    { induction n; intros Hn E; simpl in E; [lra |].
      destruct (Req_dec (p n) 0) as [E0 | N]; [| exists n; split; [lia | exact N]].
      destruct IHn as [k [Hk Nk]]; [lia | lra |]. exists k. split; [lia | exact Nk]. }
    intros S. apply (G d); [lia | lra]. }
  destruct X as [k [Hk Nk]]. exists k. split; [exact Hk |].
  rewrite <- S. rewrite <- (rsum_ind d k p Hk). apply rsum_ext. intros j Hj.
  unfold ind. destruct (Nat.eqb_spec j k) as [-> | N]; [ring |].
  specialize (Z j k Hj Hk N). apply Rmult_integral in Z. destruct Z as [Z | Z]; [rewrite Z; ring | contradiction].
Qed.

Lemma xeb_lemma : forall d K p lam,
  (0 < K)%nat -> distribution d p -> power_sum d p 2 <> 1 / INR d -> 0 <= lam <= 1 ->
  let q := output_probs d p lam in
  exists F s,
    (forall l, shots_of d K l -> exists m, (forall k, (k < d)%nat -> measured_prob l k = Some (m k)) /\
       xeb_fidelity d p m = Some (F l)) /\
    shots_mean d q K F = 1 - lam /\
    std_f_xeb (INR K) (INR d) lam (power_sum d p 2) (power_sum d p 3) (power_sum d p 4) = Some s /\
    0 <= s /\
    s ^ 2 = shots_var d q K F +
            (rsum d (fun k => p k * q k) ^ 2 - rsum d (fun k => (p k * q k) ^ 2)) /
            (power_sum d p 2 - 1 / INR d) ^ 2 / INR K /\
    shots_var d q K F <= s ^ 2 /\
    (shots_var d q K F = s ^ 2 <-> certain d p).
Proof.
  intros d K p lam HK D Hx L q.
  assert (Dq : distribution d q) by (apply mix_distribution; assumption).
  assert (Hdn := dist_pos d p D).
  assert (Hd : 0 < INR d) by (apply lt_0_INR; lia).
  assert (HK' : 0 < INR K) by (apply lt_0_INR; lia).
  set (S2 := power_sum d p 2) in *. set (S3 := power_sum d p 3). set (S4 := power_sum d p 4).
  assert (Hx0 : S2 - 1 / INR d <> 0) by lra.
  assert (Hx' : S2 * INR d - 1 <> 0).
  { intros E. apply Hx0. apply (Rmult_eq_reg_l (INR d)); [| lra]. field_simplify; lra. }
  set (F := fun l => (np_sum (map p l) / INR K - 1 / INR d) / (S2 - 1 / INR d)).
  destruct (estimator d q (proj2 Dq) p K (/ (S2 - 1 / INR d))
              (- (1 / INR d) / (S2 - 1 / INR d)) F HK) as [M V].
  { intros l Hl. unfold F. field. nz. }
  rewrite variance_alt in V by exact (proj2 Dq).
  assert (E1 : rsum d (fun k => q k * p k) = (1 - lam) * S2 + lam / INR d).
  { rewrite (rsum_ext d _ (fun k => (1 - lam) * p k ^ 2 + lam / INR d * p k)).
    - rewrite rsum_plus, !rsum_mult_l, (proj2 D). unfold S2, power_sum. ring.
    - intros k _. unfold q, output_probs. field. lra. }
  assert (E2 : rsum d (fun k => q k * p k ^ 2) = (1 - lam) * S3 + lam / INR d * S2).
  { rewrite (rsum_ext d _ (fun k => (1 - lam) * p k ^ 3 + lam / INR d * p k ^ 2)).
    - rewrite rsum_plus, !rsum_mult_l. reflexivity.
    - intros k _. unfold q, output_probs. field. lra. }
  assert (E3 : rsum d (fun k => (p k * q k) ^ 2) =
    (1 - lam) ^ 2 * S4 + (2 * (1 - lam) * (lam / INR d) * S3 + (lam / INR d) ^ 2 * S2)).
  { rewrite (rsum_ext d _ (fun k => (1 - lam) ^ 2 * p k ^ 4 +
      (2 * (1 - lam) * (lam / INR d) * p k ^ 3 + (lam / INR d) ^ 2 * p k ^ 2))).
    - rewrite !rsum_plus, !rsum_mult_l. reflexivity.
    - intros k _. unfold q, output_probs. field. lra. }
  assert (E4 : rsum d (fun k => p k * q k) = rsum d (fun k => q k * p k))
    by (apply rsum_ext; intros; ring).
  assert (A0 : forall k, (k < d)%nat -> 0 <= p k * q k).
  { intros k Hk. apply Rmult_le_pos; [apply D | apply Dq]; exact Hk. }
  assert (LE := sq_sum_le d (fun k => p k * q k) A0).
  set (EX := rsum d (fun k => p k * q k) ^ 2 - rsum d (fun k => (p k * q k) ^ 2)) in *.
  assert (HEX : 0 <= EX) by (unfold EX; lra).
  assert (Hx2 : 0 < (S2 - 1 / INR d) ^ 2).
  { assert (T := pow2_ge_0 (S2 - 1 / INR d)).
    destruct T as [T | T]; [exact T |]. exfalso. apply Hx0. symmetry in T. apply (pow_nonzero _ 2) in Hx0. contradiction. }
  set (X := 1 / INR K * (INR d / (S2 * INR d - 1)) ^ 2 *
    (S2 * (lam / INR d - (lam / INR d) ^ 2) + S3 * (1 - lam) * (1 - 2 * lam / INR d) - S4 * (1 - lam) ^ 2)).
  assert (EV : X = shots_var d q K F + EX / (S2 - 1 / INR d) ^ 2 / INR K).
  { rewrite V. unfold X, EX. rewrite E4, E3, E1, E2. field. nz. }
  assert (V0 : 0 <= shots_var d q K F).
  { rewrite V. rewrite <- (variance_alt d q (proj2 Dq) p).
    apply Rmult_le_pos; [apply Rmult_le_pos; [apply pow2_ge_0 |] | left; apply Rinv_0_lt_compat; exact HK'].
    apply rsum_nonneg. intros k Hk. apply Rmult_le_pos; [apply Dq; exact Hk | apply pow2_ge_0]. }
  assert (X0 : 0 <= EX / (S2 - 1 / INR d) ^ 2 / INR K).
  { unfold Rdiv at 1 2. apply Rmult_le_pos; [apply Rmult_le_pos; [exact HEX |] |];
      left; apply Rinv_0_lt_compat; assumption. }
  assert (SQ : sqrt X ^ 2 = X) by (simpl; rewrite Rmult_1_r; apply sqrt_sqrt; lra).
  exists F, (sqrt X). rewrite SQ.
  split; [| split; [| split; [| split; [| split; [| split]]]]].
  - intros l Hl. exists (fun k => np_sum (map (ind k) l) / INR K). split.
    + intros k Hk. apply (measured_some d); assumption.
    + unfold xeb_fidelity. fold S2. rewrite (proj2 D).
      rewrite np_div_some by (apply pow_nonzero; exact Hx0).
      rewrite (rsum_ext d _ (fun k => p k * np_sum (map (ind k) l) * / INR K)) by (intros; unfold Rdiv; ring).
      rewrite rsum_mult_r, rsum_swap_list by (apply Hl). unfold F. f_equal. field. nz.
  - rewrite M, E1. field. nz.
  - unfold std_f_xeb. rewrite !np_div_some by (try lra; exact Hx'). fold X. apply np_sqrt_some. lra.
  - apply sqrt_pos.
  - exact EV.
  - lra.
  - split.
    + intros E. assert (Z : EX = 0).
      { assert (W : EX / (S2 - 1 / INR d) ^ 2 / INR K = 0) by lra.
        unfold Rdiv in W. apply Rmult_integral in W. destruct W as [W | W].
        - apply Rmult_integral in W. destruct W as [W | W]; [exact W |].
          exfalso. revert W. apply Rgt_not_eq. apply Rinv_0_lt_compat. exact Hx2.
        - exfalso. revert W. apply Rgt_not_eq. apply Rinv_0_lt_compat. exact HK'. }
      apply only_one; [exact D |]. intros j k Hj Hk N.
      assert (Y := sq_sum_eq d (fun k => p k * q k) A0 ltac:(unfold EX in Z; lra) j k Hj Hk N).
      apply Rmult_integral in Y. destruct Y as [Y | Y]; apply mix_zero in Y; try assumption; rewrite Y; ring.
    + intros [k [Hk Pk]].
      assert (Pz : forall j, (j < d)%nat -> j <> k -> p j = 0).
      { intros j Hj N. assert (T : rsum d (fun i => p i * ind k i) + p j <= rsum d p).
        { rewrite <- (rsum_ind d j p Hj) at 1. rewrite <- rsum_plus. apply rsum_le. intros i Hi.
          assert (0 <= p i) by (apply D; exact Hi). unfold ind.
          destruct (Nat.eqb_spec i k), (Nat.eqb_spec i j); subst; try lra. congruence. }
        rewrite rsum_ind, (proj2 D) in T by exact Hk. assert (0 <= p j) by (apply D; exact Hj). lra. }
      assert (Z : EX = 0).
      { unfold EX.
        rewrite (rsum_ext d (fun k => p k * q k) (fun j => q j * ind k j)).
        rewrite (rsum_ext d (fun k => (p k * q k) ^ 2) (fun j => (q j) ^ 2 * ind k j)).
        - rewrite (rsum_ind d k q Hk), (rsum_ind d k (fun j => q j ^ 2) Hk). ring.
        - intros j Hj. unfold ind. destruct (Nat.eqb_spec j k) as [-> | N]; [rewrite Pk; ring | rewrite (Pz j Hj N); ring].
        - intros j Hj. unfold ind. destruct (Nat.eqb_spec j k) as [-> | N]; [rewrite Pk; ring | rewrite (Pz j Hj N); ring]. }
      rewrite EV, Z. unfold Rdiv. ring.
Qed.
