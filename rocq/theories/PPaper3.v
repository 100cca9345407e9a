(** Proofs about the estimators of the paper's notebooks: the simulation of figure 4 and the
    success probability that follows from the cost. *)
From Coq Require Import Reals List Arith Bool Lia Lra Psatz.
From Coquelicot Require Import Complex.
From Verif Require Import Base CMat CMatFacts DetFacts Norms PDrift CRoot Det Spec SpecModel ModelUnitary PUnitary
  PUnitaryProps PRound ModelPaper SpecPaper PPaper PPaper2.
Import ListNotations.
Open Scope R_scope.

(** ** The simulation *)
Definition click (u pr : R) : nat := if Rlt_dec u pr then 1%nat else 0%nat.

Lemma scaled_lemma : forall d K p i lam,
  (0 < K)%nat -> (2 <= d)%nat -> distribution d p -> (i < d)%nat -> 0 <= lam <= 1 ->
  let pr := output_probs d p lam i in
  let q := fun k => if Nat.eqb k 1 then pr else 1 - pr in
  exists F,
    (forall draws, List.length draws = K ->
       scaled_fidelity d (rav_measurements pr draws) =
       Some (F (map (fun u => if Rlt_dec u pr then 1%nat else 0%nat) draws))) /\
    distribution 2 q /\
    shots_mean 2 q K F = (1 - lam) * (1 - (1 - p i) * (INR d / (INR d - 1))) /\
    (shots_mean 2 q K F = 1 - lam <-> lam = 1 \/ p i = 1) /\
    (p i <> 1 / INR d -> exists s, std_f_rav (INR K) (INR d) lam (1 - p i) = Some s /\
       shots_var 2 q K F = (s * ((INR d * p i - 1) / (INR d - 1))) ^ 2).
Proof.
  intros d K p i lam HK Hd2 D Hi L pr q.
  assert (Hd : 2 <= INR d) by (apply le_INR in Hd2; exact Hd2).
  assert (HK' : 0 < INR K) by (apply lt_0_INR; lia).
  assert (Dq0 : distribution d (output_probs d p lam)) by (apply mix_distribution; assumption).
  assert (Hpr : 0 <= pr <= 1).
  { split; [apply Dq0; exact Hi | apply (dist_le1 d _ i Dq0 Hi)]. }
  assert (D2 : distribution 2 q).
  { split; [| simpl; unfold q; simpl; ring]. intros k Hk. unfold q. destruct (Nat.eqb k 1); lra. }
  set (F := fun l => (np_sum (map (ind 1) l) / INR K - 1 / INR d) * (INR d / (INR d - 1))).
  destruct (estimator 2 q (proj2 D2) (ind 1) K (INR d / (INR d - 1))
              (- (1 / INR d) * (INR d / (INR d - 1))) F HK) as [M V].
  { intros l Hl. unfold F. field. lra. }
  rewrite variance_alt in V by exact (proj2 D2).
  rewrite (rsum_ext 2 (fun k => q k * ind 1 k ^ 2) (fun k => q k * ind 1 k)) in V
    by (intros k _; unfold ind; destruct (Nat.eqb k 1); ring).
  rewrite (rsum_ind 2 1 q) in M, V by lia.
  assert (Mn : shots_mean 2 q K F = (1 - lam) * (1 - (1 - p i) * (INR d / (INR d - 1)))).
  { rewrite M. unfold q. rewrite Nat.eqb_refl. unfold pr, output_probs. field. lra. }
  exists F. split; [| split; [exact D2 | split; [exact Mn | split]]].
  - intros draws HL. unfold scaled_fidelity.
    assert (Em : rav_measurements pr draws =
                 map (ind 1) (map (fun u => if Rlt_dec u pr then 1%nat else 0%nat) draws)).
    { unfold rav_measurements. rewrite map_map. apply map_ext. intros u. destruct (Rlt_dec u pr); reflexivity. }
    rewrite Em, np_mean_some.
    + rewrite np_div_some by lra. rewrite !map_length, HL. reflexivity.
    + destruct draws; [simpl in HL; lia | discriminate].
  - rewrite Mn. split.
    + intros E. destruct (Req_dec lam 1) as [E1 | N1]; [left; exact E1 | right].
      assert (T : (1 - p i) * (INR d / (INR d - 1)) = 0).
      { apply (Rmult_eq_reg_l (1 - lam)); [lra | lra]. }
      apply Rmult_integral in T. destruct T as [T | T]; [lra |]. exfalso.
      assert (0 < INR d / (INR d - 1)) by (apply Rdiv_lt_0_compat; lra). lra.
    + intros [-> | ->]; ring.
  - intros Hp. destruct (rav_lemma d K p i lam HK D Hi Hp L) as (G & s & HG & _ & Es & _ & Ev).
    exists s. split; [exact Es |].
    rewrite Rpow_mult_distr, <- Ev.
    rewrite (rav_var d K p i lam G HK D Hi Hp L HG), V. unfold q. rewrite Nat.eqb_refl. unfold pr, output_probs.
    assert (Hx' : INR d * p i - 1 <> 0).
    { intros E. apply Hp. apply (Rmult_eq_reg_l (INR d)); [| lra].
      replace (INR d * (1 / INR d)) with 1 by (field; lra). lra. }
    field. nz.
Qed.

(** ** From the cost to the probability of success *)
Lemma overlap_mid d U : overlap d U mid = Cmod (mtrace d U) / INR d.
Proof.
  unfold overlap. f_equal. rewrite <- (Cmod_conj (mtrace d U)). f_equal.
  unfold mtrace. rewrite csum_conj. apply csum_ext. intros i Hi. unfold mmul, adj.
  rewrite (csum_single d i); [| exact Hi |].
  - unfold mid. rewrite Nat.eqb_refl. apply Cmult_1_r.
  - intros k Hk N. unfold mid. destruct (Nat.eqb_spec k i); [lia |]. apply Cmult_0_r.
Qed.

Lemma rsum_but_one d f i : (i < d)%nat -> (forall k, (k < d)%nat -> f k <= 1) ->
  rsum d f <= f i + (INR d - 1).
Proof.
  intros Hi H. rewrite <- (rsum_ind d i f Hi).
  assert (E : INR d - 1 = rsum d (fun k => 1 - ind i k)).
  { rewrite rsum_minus, rsum_const. rewrite (rsum_ext d (ind i) (fun k => 1 * ind i k)) by (intros; ring).
    rewrite rsum_ind by exact Hi. ring. }
  rewrite E, <- rsum_plus. apply rsum_le. intros k Hk. specialize (H k Hk). unfold ind.
  destruct (Nat.eqb k i); lra.
Qed.

Lemma cost_lemma : forall eps u I c, eps <= 1 ->
  built eps u -> eps_clean eps (u_dim u) (u_mat u) ->
  u_identity eps (u_dim u) = Ok I -> u_distance_from eps u I = Ok c ->
  let d := u_dim u in
  let success i := ideal_output_probs (u_mat u) i i in
  (forall i, (i < d)%nat -> INR d * c <= 1 -> (1 - INR d * c) ^ 2 <= success i) /\
  (1 - c) ^ 2 <= rsum d success / INR d.
Proof.
  intros eps u I c He Hu Hc HI Hdist d success.
  assert (W := built_wf eps u Hu). destruct W as [Hd [HU _]]. fold d in Hd, HU.
  assert (Hd' : 0 < INR d) by (apply lt_0_INR; exact Hd).
  destruct (u_identity_ok eps d Hd He) as (I' & EI & DI & _ & _ & _ & _ & MI).
  fold d in HI. rewrite EI in HI. injection HI as <-.
  rewrite (overlap_inv u I' eps (built_wf eps u Hu) Hc DI) in Hdist. injection Hdist as <-. fold d.
  assert (EO : overlap d (u_mat u) (u_mat I') = Cmod (mtrace d (u_mat u)) / INR d).
  { rewrite <- overlap_mid. unfold overlap. do 2 f_equal. unfold mtrace. apply csum_ext. intros i Hi.
    unfold mmul. apply csum_ext. intros k Hk. rewrite MI by assumption. reflexivity. }
  rewrite EO. set (t := Cmod (mtrace d (u_mat u))).
  assert (Ht : t <= rsum d (fun i => Cmod (u_mat u i i))) by apply Cmod_csum_le.
  assert (Ht0 : 0 <= t) by apply Cmod_ge_0.
  assert (HL : forall k, (k < d)%nat -> Cmod (u_mat u k k) <= 1).
  { intros k Hk. apply (unitary_entry d); assumption. }
  split.
  - intros i Hi Hs. unfold success, ideal_output_probs.
    replace (INR d * (1 - t / INR d)) with (INR d - t) in Hs by (field; lra).
    replace (INR d * (1 - t / INR d)) with (INR d - t) by (field; lra).
    assert (T := rsum_but_one d (fun i => Cmod (u_mat u i i)) i Hi HL). cbv beta in T.
    apply pow_incr. split; [lra |]. lra.
  - replace (1 - (1 - t / INR d)) with (t / INR d) by ring.
    assert (CS := rsum_cauchy d (fun i => Cmod (u_mat u i i)) (fun _ => 1)). cbv beta in CS.
    rewrite (rsum_ext d (fun i => Cmod (u_mat u i i) * 1) (fun i => Cmod (u_mat u i i))) in CS by (intros; ring).
    rewrite rsum_const in CS.
    assert (T2 : t ^ 2 <= rsum d success * INR d).
    { apply Rle_trans with (rsum d (fun i => Cmod (u_mat u i i)) ^ 2).
      - apply pow_incr. split; assumption.
      - replace (rsum d success * INR d) with (rsum d (fun i => Cmod (u_mat u i i) ^ 2) * (INR d * 1 ^ 2)).
        + exact CS.
        + unfold success, ideal_output_probs. ring. }
    unfold Rdiv. rewrite Rpow_mult_distr.
    apply (Rmult_le_reg_r (INR d ^ 2)); [apply pow_lt; exact Hd' |].
    replace (t ^ 2 * (/ INR d) ^ 2 * INR d ^ 2) with (t ^ 2) by (field; lra).
    replace (rsum d success * / INR d * INR d ^ 2) with (rsum d success * INR d) by (field; lra).
    exact T2.
Qed.

(** The matrix that exchanges the basis states 0 and 1. *)
Definition sw (i : nat) : nat := match i with O => 1%nat | S O => 0%nat | _ => i end.
Definition exch : mat := fun i j => if Nat.eqb (sw i) j then RtoC 1 else RtoC 0.

Lemma sw_lt d i : (2 <= d)%nat -> (i < d)%nat -> (sw i < d)%nat.
Proof. intros. destruct i as [| [| i]]; simpl; lia. Qed.
Lemma sw_inj i j : sw i = sw j -> i = j.
Proof. destruct i as [| [| i]], j as [| [| j]]; simpl; intros; try lia. Qed.

Lemma exch_unitary d : (2 <= d)%nat -> unitary_mx d exch.
Proof.
  intros Hd i j Hi Hj. unfold mmul, adj, exch.
  rewrite (csum_single d (sw i)); [| apply sw_lt; assumption |].
  - rewrite Nat.eqb_refl, Cmult_1_l. unfold mid. destruct (Nat.eqb_spec (sw j) (sw i)) as [E | N].
    + apply sw_inj in E. subst. rewrite Nat.eqb_refl. unfold Cconj, RtoC. simpl. f_equal. ring.
    + destruct (Nat.eqb_spec i j); [congruence |]. unfold Cconj, RtoC. simpl. f_equal. ring.
  - intros k Hk N. destruct (Nat.eqb_spec (sw i) k); [lia |]. apply Cmult_0_l.
Qed.

Lemma exch_trace n : mtrace (S (S n)) exch = RtoC (INR n).
Proof.
  unfold mtrace. induction n.
  - simpl. unfold exch. simpl. rewrite !Cplus_0_l. reflexivity.
  - change (csum (S (S (S n))) (fun i => exch i i)) with
      (csum (S (S n)) (fun i => exch i i) + exch (S (S n)) (S (S n)))%C.
    rewrite IHn. unfold exch. cbn [sw]. rewrite Nat.eqb_refl, S_INR, RtoC_plus. reflexivity.
Qed.

Lemma low_cost_lemma : forall d, (2 <= d)%nat -> exists u I,
  built 0 u /\ u_dim u = d /\ u_identity 0 d = Ok I /\
  u_distance_from 0 u I = Ok (2 / INR d) /\
  ideal_output_probs (u_mat u) 0 0 = 0.
Proof.
  intros d Hd. assert (Hd0 : (0 < d)%nat) by lia.
  destruct (mk_unitary_exact 0 d exch None [] false [] Hd0 (exch_unitary d Hd) (eps_clean_0 d exch))
    as (u & Eu & Du & _ & _ & _ & _ & Mu & Cu & _).
  destruct (u_identity_ok 0 d Hd0 ltac:(lra)) as (I & EI & DI & _ & _ & _ & _ & MI).
  assert (Hb : built 0 u).
  { exists d, exch, None, [], false, []. split; [apply exch_unitary; exact Hd |].
    split; [apply eps_clean_0 | exact Eu]. }
  exists u, I. split; [exact Hb |]. split; [exact Du |]. split; [exact EI |]. split.
  - rewrite (overlap_inv u I 0 (built_wf 0 u Hb) (eps_clean_0 _ _) ltac:(congruence)).
    f_equal. rewrite Du.
    assert (EO : overlap d (u_mat u) (u_mat I) = overlap d (mscale (croot d (/ det d exch)%C) exch) mid).
    { unfold overlap. do 2 f_equal. unfold mtrace. apply csum_ext. intros i Hi. unfold mmul, adj.
      apply csum_ext. intros k Hk. rewrite MI, Mu by assumption. reflexivity. }
    rewrite EO, overlap_phase_l by exact Cu. rewrite overlap_mid.
    destruct d as [| [| n]]; [lia | lia |]. rewrite exch_trace, Cmod_R, Rabs_right by (apply Rle_ge, pos_INR).
    rewrite !S_INR. assert (0 <= INR n) by apply pos_INR. field. lra.
  - unfold ideal_output_probs. rewrite Mu by lia. unfold mscale, exch. simpl.
    rewrite Cmult_0_r, Cmod_0. ring.
Qed.

(** ** The other initial state *)
Definition fix0 : mat := fun i j =>
  if Nat.eqb (match i with 1 => 3 | 3 => 1 | _ => i end)%nat j then RtoC 1 else RtoC 0.

Lemma other_state_lemma : exists U a b,
  unitary_mx 4 U /\
  std_f_rav 100 4 (1 / 2) (1 - ideal_output_probs U 0 0) = Some a /\
  std_f_rav 100 4 (1 / 2) (1 - ideal_output_probs U 1 1) = Some b /\
  a <> b.
Proof.
  exists fix0, (sqrt (1 / 100 * (4 / 3) ^ 2 * (5 / 8) * (3 / 8))), (sqrt (1 / 100 * 4 ^ 2 * (1 / 8) * (7 / 8))).
  assert (E0 : ideal_output_probs fix0 0 0 = 1).
  { unfold ideal_output_probs, fix0. simpl. rewrite Cmod_1. ring. }
  assert (E1 : ideal_output_probs fix0 1 1 = 0).
  { unfold ideal_output_probs, fix0. simpl. rewrite Cmod_0. ring. }
  split; [| split; [| split]].
  - intros i j Hi Hj. unfold mmul, adj, fix0, mid.
    destruct i as [| [| [| [| i]]]]; try lia; destruct j as [| [| [| [| j]]]]; try lia; simpl;
      unfold Cconj, RtoC, Cmult, Cplus; simpl; f_equal; ring.
  - rewrite E0. unfold std_f_rav. rewrite !np_div_some by lra.
    replace (1 / 100 * (4 / (4 * (1 - (1 - 1)) - 1)) ^ 2 * ((1 - 1 / 2) * (1 - (1 - 1)) + 1 / 2 / 4) *
      (1 - (1 - 1 / 2) * (1 - (1 - 1)) - 1 / 2 / 4)) with (1 / 100 * (4 / 3) ^ 2 * (5 / 8) * (3 / 8)) by field.
    apply np_sqrt_some. lra.
  - rewrite E1. unfold std_f_rav. rewrite !np_div_some by lra.
    replace (1 / 100 * (4 / (4 * (1 - (1 - 0)) - 1)) ^ 2 * ((1 - 1 / 2) * (1 - (1 - 0)) + 1 / 2 / 4) *
      (1 - (1 - 1 / 2) * (1 - (1 - 0)) - 1 / 2 / 4)) with (1 / 100 * 4 ^ 2 * (1 / 8) * (7 / 8)) by field.
    apply np_sqrt_some. lra.
  - intros E. apply sqrt_inj in E; lra.
Qed.
