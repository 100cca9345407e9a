(** Running client computations: results and random draws. *)
From Coq Require Import Reals List Arith Lia Lra Bool String ZArith Permutation.
From Coquelicot Require Import Rcomplements Complex.
From Verif Require Import Base CMat CMatFacts Det DetFacts ModelUnitary ModelEntry ModelPrimitive
  ModelSequence ModelCompiler Spec SpecModel SpecCompiler PUnitary PEntry PSeqHeap PSeqMeth PSeqWorld
  PSeqUndo PCompView.
Import ListNotations.
Open Scope R_scope.
Open Scope C_scope.
Open Scope se_scope.

Lemma bind_ok {S A B} (m : SE S A) (f : A -> SE S B) st st' b :
  se_bind m f st = (st', Ok b) -> exists a st1, m st = (st1, Ok a) /\ f a st1 = (st', Ok b).
Proof.
  unfold se_bind. destruct (m st) as [st1 [a|x]]; intros H; [|discriminate]. eauto.
Qed.

Lemma bind_eq {S A B} (m : SE S A) (f : A -> SE S B) st st1 a :
  m st = (st1, Ok a) -> se_bind m f st = f a st1.
Proof. intros H. unfold se_bind. now rewrite H. Qed.

Lemma bind_eq_raise {S A B} (m : SE S A) (f : A -> SE S B) st st1 x :
  m st = (st1, Raise x) -> se_bind m f st = (st1, Raise x).
Proof. intros H. unfold se_bind. now rewrite H. Qed.

Lemma bind_raise {S A B} (m : SE S A) (f : A -> SE S B) st st' x :
  se_bind m f st = (st', Raise x) ->
  m st = (st', Raise x) \/ exists a st1, m st = (st1, Ok a) /\ f a st1 = (st', Raise x).
Proof.
  unfold se_bind. destruct (m st) as [st1 [a|y]]; intros H; [right; eauto|left; congruence].
Qed.

Lemma lift_ok {S A} (r : res A) (st st' : S) a : se_lift r st = (st', Ok a) -> st' = st /\ r = Ok a.
Proof. unfold se_lift. intros H. injection H as <- ->. auto. Qed.

Lemma ret_ok {S A} (a b : A) (st st' : S) : se_ret a st = (st', Ok b) -> st' = st /\ b = a.
Proof. unfold se_ret. intros H. injection H as <- <-. auto. Qed.

Lemma c_run_ok {A} (m : RM A) st st' a :
  c_run m st = (st', Ok a) -> exists r', m (fst st) = (r', Ok a) /\ st' = (r', snd st).
Proof.
  unfold c_run. destruct (m (fst st)) as [r' x]. intros H. injection H as <- ->. eauto.
Qed.

Lemma c_run_eq {A} (m : RM A) st c r' x : m st = (r', x) -> c_run m (st, c) = ((r', c), x).
Proof. intros H. unfold c_run. cbn [fst]. now rewrite H. Qed.

Lemma call_ok eps o st st' v :
  call eps o st = (st', Ok v) ->
  step eps o (r_world st) = (r_world st', Ok v) /\ r_draws st' = r_draws st.
Proof.
  unfold call. destruct (step eps o (r_world st)) as [w' x]. intros H. injection H as <- ->. auto.
Qed.

Lemma call_unitary_ok eps o st st' u :
  call_unitary eps o st = (st', Ok u) ->
  step eps o (r_world st) = (r_world st', Ok (VUnitary u)) /\ r_draws st' = r_draws st.
Proof.
  intros H. apply bind_ok in H. destruct H as (v & st1 & H1 & H2). apply call_ok in H1.
  destruct v; try discriminate. apply ret_ok in H2. destruct H2 as [-> ->]. exact H1.
Qed.

Lemma call_entry_ok eps o st st' l :
  call_entry eps o st = (st', Ok l) ->
  step eps o (r_world st) = (r_world st', Ok (VEntry l)) /\ r_draws st' = r_draws st.
Proof.
  intros H. apply bind_ok in H. destruct H as (v & st1 & H1 & H2). apply call_ok in H1.
  destruct v; try discriminate. apply ret_ok in H2. destruct H2 as [-> ->]. exact H1.
Qed.

Lemma call_sequence_ok eps o st st' l :
  call_sequence eps o st = (st', Ok l) ->
  step eps o (r_world st) = (r_world st', Ok (VSequence l)) /\ r_draws st' = r_draws st.
Proof.
  intros H. apply bind_ok in H. destruct H as (v & st1 & H1 & H2). apply call_ok in H1.
  destruct v; try discriminate. apply ret_ok in H2. destruct H2 as [-> ->]. exact H1.
Qed.

(** * Draws *)

(** A computation that only draws: the objects stay as they are. *)
Definition draws_only {A} (m : RM A) : Prop := forall st, r_world (fst (m st)) = r_world st.

Lemma draws_bind {A B} (m : RM A) (f : A -> RM B) :
  draws_only m -> (forall a, draws_only (f a)) -> draws_only (se_bind m f).
Proof.
  intros H1 H2 st. unfold se_bind. pose proof (H1 st) as E. destruct (m st) as [st1 [a|x]]; auto.
  cbn [fst] in E. rewrite H2. exact E.
Qed.

Lemma draws_ret {A} (a : A) : draws_only (se_ret a).
Proof. intros st. reflexivity. Qed.

Lemma draws_lift {A} (r : res A) : draws_only (se_lift r).
Proof. intros st. reflexivity. Qed.

Lemma draws_raise {A} x : draws_only (@se_raise rstate A x).
Proof. intros st. reflexivity. Qed.

Lemma draws_unif g : draws_only (draw_unif g).
Proof. intros st. reflexivity. Qed.

Lemma draws_choice_unif g n : draws_only (choice_unif g n).
Proof. intros st. unfold choice_unif. destruct (Nat.eqb n 0); reflexivity. Qed.

Lemma draws_choice_distinct g n k : draws_only (choice_distinct g n k).
Proof. intros st. unfold choice_distinct. destruct (Nat.ltb n k); reflexivity. Qed.

Lemma draws_shuffle {A} g (a : A) l : draws_only (shuffle g a l).
Proof. intros st. reflexivity. Qed.

Lemma draws_choice_p g n p : draws_only (choice_p g n p).
Proof.
  unfold choice_p. repeat (destruct (_ : bool); [apply draws_raise|]).
  apply draws_bind; [apply draws_unif|intros; apply draws_ret].
Qed.

Lemma draws_random_values g ps : draws_only (random_values g ps).
Proof.
  induction ps as [|p t IH]; simpl; [apply draws_ret|].
  apply draws_bind; [apply draws_unif|]. intros x. apply draws_bind; auto. intros vs. apply draws_ret.
Qed.

Lemma draws_choose_action g ap : draws_only (choose_action g ap).
Proof. apply draws_bind; [apply draws_choice_p|intros; apply draws_ret]. Qed.

(** * Weighted choice *)
Lemma cumsum_length l : forall acc, List.length (cumsumR acc l) = List.length l.
Proof. induction l as [|x t IH]; intros acc; simpl; auto. Qed.

Lemma cumsum_nth l : forall acc i, (i < List.length l)%nat ->
  nth i (cumsumR acc l) 0%R = (acc + sumR (firstn (S i) l))%R.
Proof.
  induction l as [|x t IH]; intros acc i H; simpl in H; [lia|].
  destruct i as [|i].
  - simpl. destruct t; simpl; lra.
  - cbn [cumsumR nth]. rewrite IH by lia. cbn [firstn sumR]. lra.
Qed.

Lemma last_nth {A} (l : list A) d : last l d = nth (List.length l - 1) l d.
Proof.
  induction l as [|x t IH]; auto. destruct t as [|y t]; auto.
  change (last (x :: y :: t) d) with (last (y :: t) d). rewrite IH. simpl.
  now rewrite Nat.sub_0_r.
Qed.

Lemma cumsum_last l : l <> [] -> last (cumsumR 0 l) 0%R = sumR l.
Proof.
  intros H. rewrite last_nth, cumsum_length.
  destruct l as [|x t]; [congruence|]. rewrite cumsum_nth by (simpl; lia).
  replace (S (List.length (x :: t) - 1)) with (List.length (x :: t)) by (simpl; lia).
  rewrite firstn_all. lra.
Qed.

Lemma searchsorted_spec c x : let k := searchsorted c x in
  (k <= List.length c)%nat /\
  (forall i, (i < k)%nat -> (nth i c 0 <= x)%R) /\ ((k < List.length c)%nat -> (x < nth k c 0)%R).
Proof.
  induction c as [|y t IH]; simpl.
  - repeat split; auto; intros; lia.
  - destruct (Rleb y x) eqn:E.
    + apply Rleb_spec in E. destruct IH as (I1 & I2 & I3). repeat split.
      * simpl; lia.
      * intros [|i] Hi; auto. apply I2. lia.
      * intros H. apply I3. lia.
    + apply Rleb_false in E. repeat split; auto; intros; lia.
Qed.

Lemma sumR_fold l : sumR l = fold_right Rplus 0%R l.
Proof. reflexivity. Qed.

Lemma choice_tol_small : (0 < choice_tol < 1)%R.
Proof.
  unfold choice_tol. assert (H : (1 < 2 ^ 26)%R) by (apply Rlt_pow_R1; [lra|lia]).
  split; [apply Rinv_0_lt_compat; lra|]. rewrite <- Rinv_1. apply Rinv_lt_contravar; lra.
Qed.

Lemma nth_map_R (f : R -> R) l i : (i < List.length l)%nat -> nth i (map f l) 0%R = f (nth i l 0%R).
Proof. intros H. rewrite (nth_indep _ 0%R (f 0%R)) by now rewrite map_length. apply map_nth. Qed.

(** The chosen index owns the interval of the draw. *)
Lemma choice_p_good g n p st :
  rng_ok g -> n <> 0%nat -> good_probabilities n p ->
  exists i, choice_p g n p st = ({| r_world := r_world st; r_draws := S (r_draws st) |}, Ok i) /\
    (i < n)%nat /\
    (sumR (firstn i p) <= g_unif g (r_draws st) * sumR p)%R /\
    (g_unif g (r_draws st) * sumR p < sumR (firstn (S i) p))%R.
Proof.
  intros (G1 & _ & _) Hn (Hl & Hp & Hs). rewrite <- sumR_fold in Hs. unfold choice_p.
  destruct (Nat.eqb_spec n 0) as [|_]; [contradiction|].
  replace (Nat.eqb (List.length p) n) with true by (symmetry; now apply Nat.eqb_eq). cbn [negb].
  destruct (existsb (fun x => Rltb x 0) p) eqn:E1.
  { exfalso. apply existsb_exists in E1. destruct E1 as (x & Hx & E). apply Rltb_spec in E.
    specialize (Hp x Hx). lra. }
  destruct (Rltb choice_tol (Rabs (sumR p - 1))) eqn:E2.
  { exfalso. apply Rltb_spec in E2. unfold choice_tol in E2. lra. }
  pose proof choice_tol_small as T. fold choice_tol in Hs.
  assert (Spos : (0 < sumR p)%R) by (apply Rabs_le_between in Hs; lra).
  eexists. split; [reflexivity|].
  assert (Ne : p <> []) by (intros ->; simpl in Hl; congruence).
  rewrite (cumsum_last p Ne).
  set (x := g_unif g (r_draws st)). specialize (G1 (r_draws st)). fold x in G1.
  set (c := map (fun c => (c / sumR p)%R) (cumsumR 0 p)).
  assert (Lc : List.length c = List.length p) by (unfold c; now rewrite map_length, cumsum_length).
  assert (Nc : forall i, (i < List.length p)%nat -> nth i c 0%R = (sumR (firstn (S i) p) / sumR p)%R).
  { intros i Hi. unfold c. rewrite nth_map_R by now rewrite cumsum_length.
    rewrite cumsum_nth by auto. f_equal. lra. }
  destruct (searchsorted_spec c x) as (K1 & K2 & K3). set (k := searchsorted c x) in *.
  assert (Kl : (k < List.length p)%nat).
  { destruct (Nat.lt_ge_cases k (List.length p)) as [|Hge]; auto. exfalso.
    assert (L0 : (0 < List.length p)%nat) by lia.
    specialize (K2 (List.length p - 1)%nat ltac:(lia)). rewrite Nc in K2 by lia.
    replace (S (List.length p - 1)) with (List.length p) in K2 by lia. rewrite firstn_all in K2.
    unfold Rdiv in K2. rewrite Rinv_r in K2 by lra. lra. }
  split; [lia|]. split.
  - destruct k as [|k'].
    + simpl. apply Rmult_le_pos; lra.
    + specialize (K2 k' ltac:(lia)). rewrite Nc in K2 by lia.
      apply (Rmult_le_compat_r (sumR p)) in K2; [|lra].
      unfold Rdiv in K2. rewrite Rmult_assoc, Rinv_l, Rmult_1_r in K2 by lra. exact K2.
  - specialize (K3 ltac:(lia)). rewrite Nc in K3 by lia.
    apply (Rmult_lt_compat_r (sumR p)) in K3; [|lra].
    unfold Rdiv in K3. rewrite Rmult_assoc, Rinv_l, Rmult_1_r in K3 by lra. exact K3.
Qed.

(** Anything else raises [ValueError] without a draw. *)
Lemma choice_p_bad g n p st :
  n = 0%nat \/ ~ good_probabilities n p -> choice_p g n p st = (st, Raise ValueError).
Proof.
  intros H. unfold choice_p. destruct (Nat.eqb_spec n 0) as [|Hn]; [reflexivity|].
  destruct (Nat.eqb_spec (List.length p) n) as [Hl|]; [|reflexivity]. cbn [negb].
  destruct (existsb (fun x => Rltb x 0) p) eqn:E1; [reflexivity|].
  destruct (Rltb choice_tol (Rabs (sumR p - 1))) eqn:E2; [reflexivity|].
  exfalso. destruct H as [H|H]; [contradiction|]. apply H. split; [exact Hl|]. split.
  - intros x Hx. destruct (Rle_dec 0 x) as [|N]; auto. exfalso.
    apply not_true_iff_false in E1. apply E1. apply existsb_exists. exists x. split; auto.
    apply Rltb_spec. lra.
  - apply Rltb_false in E2. exact E2.
Qed.

Lemma choice_p_ok g n p st st' i :
  rng_ok g -> choice_p g n p st = (st', Ok i) -> (i < n)%nat.
Proof.
  intros G H. destruct (Nat.eq_dec n 0) as [->|Hn].
  { rewrite choice_p_bad in H by auto. discriminate. }
  assert (D : good_probabilities n p \/ ~ good_probabilities n p) by apply Classical_Prop.classic.
  destruct D as [D|D].
  - destruct (choice_p_good g n p st G Hn D) as (j & E & L & _). rewrite E in H. injection H as _ <-. exact L.
  - rewrite choice_p_bad in H by auto. discriminate.
Qed.

(** * Parameter values *)
Lemma F2_length {A B} (R : A -> B -> Prop) l l' : Forall2 R l l' -> List.length l = List.length l'.
Proof. induction 1; simpl; congruence. Qed.

Lemma random_values_ok g ps : rng_ok g -> forall st, exists k vs,
  random_values g ps st = ({| r_world := r_world st; r_draws := k |}, Ok vs) /\
  ((forall p, In p ps -> (pr_min p <= pr_max p)%R) -> in_range ps vs).
Proof.
  intros (G & _). induction ps as [|p t IH]; intros st.
  - exists (r_draws st), []. destruct st. split; [reflexivity|]. intros _. constructor.
  - destruct (IH {| r_world := r_world st; r_draws := S (r_draws st) |}) as (k & vs & E & R).
    exists k, (pr_random_value p (g_unif g (r_draws st)) :: vs). split.
    + cbn [random_values]. unfold se_bind, draw_unif. rewrite E. reflexivity.
    + intros H. constructor; [|apply R; intros q Hq; apply H; simpl; auto].
      specialize (H p (or_introl eq_refl)). specialize (G (r_draws st)). unfold pr_random_value. nra.
Qed.

Lemma check_values_true ps : forall vs, check_values ps vs = Ok true ->
  exists ps1 ps2, ps = ps1 ++ ps2 /\ in_range ps1 vs.
Proof.
  induction ps as [|p t IH]; intros [|v vs] H; simpl in H; try discriminate.
  - exists [], []. split; auto. constructor.
  - exists [], (p :: t). split; auto. constructor.
  - destruct (check_values t vs) as [b|] eqn:E; [|discriminate]. cbn [bind] in H. injection H as H.
    apply andb_true_iff in H. destruct H as [H1 H2]. subst b.
    destruct (IH vs E) as (ps1 & ps2 & -> & R). exists (p :: ps1), ps2. split; auto.
    constructor; auto. unfold pr_is_valid in H1. apply andb_true_iff in H1.
    destruct H1 as [H1 H3]. apply Rleb_spec in H1. apply Rleb_spec in H3. auto.
Qed.

Lemma check_values_range ps vs : in_range ps vs -> check_values ps vs = Ok true.
Proof.
  induction 1 as [|p v ps vs H _ IH]; simpl; auto. rewrite IH. cbn [bind]. rewrite andb_true_r.
  f_equal. unfold pr_is_valid. apply andb_true_iff. split; apply Rleb_spec; lra.
Qed.

Lemma fill_dict_ok ps : forall vs d, List.length ps = List.length vs -> exists d', fill_dict ps vs d = Ok d'.
Proof.
  induction ps as [|p t IH]; intros [|v vs] d H; simpl in *; try discriminate; eauto.
Qed.

Lemma fill_dict_len ps : forall vs d d', fill_dict ps vs d = Ok d' -> (List.length ps <= List.length vs)%nat.
Proof.
  induction ps as [|p t IH]; intros [|v vs] d d' H; simpl in *; try discriminate; try lia.
  apply IH in H. lia.
Qed.

(** Success of [as_unitary] means in-range values, one per parameter. *)
Lemma as_unitary_ok_inv eps pu vs u : as_unitary eps pu vs = Ok u ->
  in_range (pu_params pu) vs /\
  exists d m, fill_dict (pu_params pu) vs [] = Ok d /\ pu_matrix pu vs = Ok m /\
    mk_unitary eps (pu_dim pu) (Some m) (Some (pu_name pu)) d false [] = Ok u.
Proof.
  unfold as_unitary. intros H.
  destruct (check_values (pu_params pu) vs) as [b|] eqn:E; [|discriminate]. cbn [bind] in H.
  destruct b; [|discriminate]. cbn [assert bind] in H.
  destruct (fill_dict (pu_params pu) vs []) as [d|] eqn:F; [|discriminate]. cbn [bind] in H.
  destruct (pu_matrix pu vs) as [m|] eqn:M; [|discriminate]. cbn [bind] in H.
  split; [|eauto].
  apply check_values_true in E. destruct E as (p1 & p2 & E & R). apply fill_dict_len in F.
  assert (L := F2_length _ _ _ R). rewrite E in *. rewrite app_length in F.
  destruct p2; [now rewrite app_nil_r|simpl in F; lia].
Qed.

Lemma as_unitary_eq eps pu vs m : in_range (pu_params pu) vs -> pu_matrix pu vs = Ok m ->
  exists d, fill_dict (pu_params pu) vs [] = Ok d /\
    as_unitary eps pu vs = mk_unitary eps (pu_dim pu) (Some m) (Some (pu_name pu)) d false [].
Proof.
  intros R M. unfold as_unitary. rewrite (check_values_range _ _ R). cbn [bind assert].
  destruct (fill_dict_ok (pu_params pu) vs [] (F2_length _ _ _ R)) as [d F].
  rewrite F. cbn [bind]. rewrite M. cbn [bind]. eauto.
Qed.
