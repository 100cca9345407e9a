(** Lower bounds for the chances of a random gate, a random layer, a random change. *)
From Coq Require Import Reals List Arith Lia Lra Bool String ZArith Permutation ClassicalEpsilon.
From Coquelicot Require Import Coquelicot.
From Verif Require Import Base CMat CMatFacts Det DetFacts Norms ModelUnitary ModelEntry ModelPrimitive
  ModelSequence ModelCompiler Spec SpecModel SpecCompiler PUnitary PUnitaryProps PEmbed PEntry PSeqHeap PSeqMeth PSeqNear PSeqWorld
  PSeqUndo PSeqInv PSeqHist PSeqProps PSeqCases PCompView PCompRun PCompEntry PCompLoop PCompTrace PCompTotal PCompProps PCompMore
  PCompCases PCompEx PReach PVerify SpecChain PChain PChainStep PChainRun PChainLay SpecFloor PFloor PFloorNear.
Import ListNotations.
Open Scope R_scope.
Open Scope se_scope.
Set Bullet Behavior "Strict Subproofs".

Notation rhits := (hits r_draws).
Notation rtree := (tree r_draws).
Definition c_draws (sc : rstate * compiler) : nat := r_draws (fst sc).

(** * The generator *)
Definition g_const (x : R) (k : nat) (l : list nat) : rng := {| g_unif := fun _ => x; g_int := fun _ _ => k; g_perm := fun _ _ => l |}.

Lemma tree_unif st : rtree draw_unif st.
Proof.
  apply tree_ask with (q := QUnif) (out := fun a => match a with AReal x => ({| r_world := r_world st; r_draws := S (r_draws st) |}, Ok x)
    | _ => ({| r_world := r_world st; r_draws := S (r_draws st) |}, Raise TypeError) end); cbn; auto. now intros [| |].
Qed.
Lemma between_RInt a b : 0 <= a <= b -> b <= 1 -> is_RInt (fun x => ind (a <= x < b)) 0 1 (b - a).
Proof.
  intros H1 H2. assert (X := below_RInt b 1 0 ltac:(lra)). assert (Y := below_RInt a 1 0 ltac:(lra)).
  assert (Z := @is_RInt_minus R_NormedModule _ _ _ _ _ _ X Y).
  replace (b - a) with (minus (b * 1 + (1 - b) * 0) (a * 1 + (1 - a) * 0)) by (unfold minus, plus, opp; cbn; ring).
  eapply is_RInt_ext; [|exact Z]. intros x _. unfold minus, plus, opp. cbn.
  destruct (Rlt_dec x b), (Rlt_dec x a); rewrite ?ind_true by lra; rewrite ?ind_false by lra; lra.
Qed.
Lemma hits_unif st a b (Q : rstate -> R -> Prop) : 0 <= a <= b -> b <= 1 ->
  (forall x, a <= x < b -> Q {| r_world := r_world st; r_draws := S (r_draws st) |} x) -> rhits draw_unif st Q (b - a).
Proof.
  intros H1 H2 HQ.
  apply hits_ask with (q := QUnif) (out := fun y => match y with AReal x => ({| r_world := r_world st; r_draws := S (r_draws st) |}, Ok x)
    | _ => ({| r_world := r_world st; r_draws := S (r_draws st) |}, Raise TypeError) end)
    (O := fun y => match y with AReal x => a <= x < b | _ => False end); cbn; auto.
  - now intros [| |].
  - now apply between_RInt.
  - intros [x|k|l] Px; cbn; try tauto. intros Hx v [= <-]. auto.
Qed.

Lemma meanl_ind_pos {A} (l : list A) (O : A -> Prop) x : In x l -> O x -> 0 < meanl l (fun y => ind (O y)) <= 1.
Proof.
  intros Hx HO. unfold meanl. assert (P : 0 < INR (List.length l)) by (apply lt_0_INR; destruct l; [easy|cbn; lia]).
  assert (N : forall l' : list A, 0 <= fold_right Rplus 0 (map (fun y => ind (O y)) l') <= INR (List.length l')).
  { clear. induction l' as [|y l IH]; [cbn; lra|]. cbn [map fold_right List.length]. rewrite S_INR. assert (X := ind_range (O y)). lra. }
  assert (Q : 1 <= fold_right Rplus 0 (map (fun y => ind (O y)) l)).
  { clear P. induction l as [|y l IH]; [easy|]. cbn [map fold_right]. destruct Hx as [->|Hx].
    - rewrite ind_true by auto. assert (X := N l). lra.
    - assert (X := ind_range (O y)). specialize (IH Hx). lra. }
  split; [apply Rdiv_lt_0_compat; lra|]. apply Rle_div_l; auto. assert (X := N l). lra.
Qed.

Lemma tree_int n st : rtree (fun g => choice_unif g n) st.
Proof.
  unfold choice_unif. destruct (Nat.eqb_spec n 0); [apply tree_raise|].
  apply tree_ask with (q := QInt n) (out := fun a => match a with AInt x => ({| r_world := r_world st; r_draws := S (r_draws st) |}, Ok x)
    | _ => ({| r_world := r_world st; r_draws := S (r_draws st) |}, Raise TypeError) end); cbn; auto; [lia|]. now intros [| |].
Qed.
Lemma hits_int n k (Q : nat -> Prop) : (k < n)%nat -> Q k -> exists w, 0 < w <= 1 /\ forall st, rhits (fun g => choice_unif g n) st (fun _ i => Q i) w.
Proof.
  intros Hk HQ. exists (meanl (seq 0 n) (fun i => ind (Q i))). split.
  - apply (meanl_ind_pos _ _ k); auto. apply in_seq. lia.
  - intros st. unfold choice_unif. destruct (Nat.eqb_spec n 0); [lia|].
    apply hits_ask with (q := QInt n) (out := fun a => match a with AInt x => ({| r_world := r_world st; r_draws := S (r_draws st) |}, Ok x)
    | _ => ({| r_world := r_world st; r_draws := S (r_draws st) |}, Raise TypeError) end)
    (O := fun y => match y with AInt x => Q x | _ => False end); cbn; auto.
    + now intros [| |].
    + split; [lia|reflexivity].
    + intros [x|i|l] Px; cbn; try tauto. intros Hx v [= <-]. auto.
Qed.

Lemma tree_distinct n k st : rtree (fun g => choice_distinct g n k) st.
Proof.
  unfold choice_distinct. destruct (Nat.ltb n k); [apply tree_raise|].
  apply tree_ask with (q := QPerm n) (out := fun a => match a with AList x => ({| r_world := r_world st; r_draws := S (r_draws st) |}, Ok (firstn k x))
    | _ => ({| r_world := r_world st; r_draws := S (r_draws st) |}, Raise TypeError) end); cbn; auto. now intros [| |].
Qed.
Lemma hits_distinct n k l (Q : list nat -> Prop) : (k <= n)%nat -> Permutation l (seq 0 n) -> Q (firstn k l) ->
  exists w, 0 < w <= 1 /\ forall st, rhits (fun g => choice_distinct g n k) st (fun _ i => Q i) w.
Proof.
  intros Hk HP HQ. exists (meanl (orders (seq 0 n)) (fun i => ind (Q (firstn k i)))). split.
  - apply (meanl_ind_pos _ (fun i => Q (firstn k i)) l); auto. now apply orders_spec.
  - intros st. unfold choice_distinct. destruct (Nat.ltb_spec n k); [lia|].
    apply hits_ask with (q := QPerm n) (out := fun a => match a with AList x => ({| r_world := r_world st; r_draws := S (r_draws st) |}, Ok (firstn k x))
    | _ => ({| r_world := r_world st; r_draws := S (r_draws st) |}, Raise TypeError) end)
    (O := fun y => match y with AList x => Q (firstn k x) | _ => False end); cbn; auto.
    + now intros [| |].
    + intros [x|i|l'] Px; cbn; try tauto. intros Hx v [= <-]. auto.
Qed.

Lemma tree_shuffle (l : list nat) st : rtree (fun g => shuffle g 0%nat l) st.
Proof.
  unfold shuffle.
  apply tree_ask with (q := QPerm (List.length l)) (out := fun a => match a with
      AList x => ({| r_world := r_world st; r_draws := S (r_draws st) |}, Ok (map (fun i => nth i l 0%nat) x))
    | _ => ({| r_world := r_world st; r_draws := S (r_draws st) |}, Raise TypeError) end); cbn; auto. now intros [| |].
Qed.
Lemma hits_shuffle m o : Permutation o (seq 0 m) -> exists w, 0 < w <= 1 /\
  forall (l : list nat) st, List.length l = m -> rhits (fun g => shuffle g 0%nat l) st
    (fun st' l' => r_world st' = r_world st /\ l' = map (fun i => nth i l 0%nat) o) w.
Proof.
  intros HP. exists (meanl (orders (seq 0 m)) (fun i => ind (i = o))). split.
  - apply (meanl_ind_pos _ (fun i => i = o) o); auto. now apply orders_spec.
  - intros l st <-. unfold shuffle.
    apply hits_ask with (q := QPerm (List.length l)) (out := fun a => match a with
      AList x => ({| r_world := r_world st; r_draws := S (r_draws st) |}, Ok (map (fun i => nth i l 0%nat) x))
    | _ => ({| r_world := r_world st; r_draws := S (r_draws st) |}, Raise TypeError) end)
    (O := fun y => match y with AList x => x = o | _ => False end); cbn; auto.
    + now intros [| |].
    + intros [x|i|l'] Px; cbn; try tauto. intros -> v [= <-]. auto.
Qed.

Lemma tree_choice_p n p st : rtree (fun g => choice_p g n p) st.
Proof.
  unfold choice_p. destruct (Nat.eqb n 0); [apply tree_raise|]. destruct (negb _); [apply tree_raise|].
  destruct (existsb _ _); [apply tree_raise|]. destruct (Rltb _ _); [apply tree_raise|].
  apply tree_bind; [apply tree_unif|]. intros. apply tree_ret.
Qed.
Lemma hits_choice_p n q i : (i < n)%nat -> good_probabilities n q -> 0 < nth i q 0 ->
  exists w, 0 < w <= 1 /\ forall st, rhits (fun g => choice_p g n q) st (fun _ j => j = i) w.
Proof.
  intros Hi GP Hp. assert (P := good_sum_pos _ _ GP). assert (Lq := proj1 GP). assert (N := proj1 (proj2 GP)).
  set (a := sumR (firstn i q) / sumR q). set (b := sumR (firstn (S i) q) / sumR q).
  assert (A0 : 0 <= a). { apply Rle_div_r; auto. rewrite Rmult_0_l. apply sumR_nonneg. intros x Hx. apply N. eapply firstn_in; eauto. }
  assert (AB : a < b). { unfold a, b. apply Rmult_lt_compat_r; [now apply Rinv_0_lt_compat|]. assert (X := sumR_firstn_S q i ltac:(lia)). lra. }
  assert (B1 : b <= 1). { apply Rle_div_l; auto. rewrite Rmult_1_l. assert (M := sumR_firstn_mono q (S i) (List.length q) N ltac:(lia)). rewrite firstn_all in M. exact M. }
  exists (b - a). split; [lra|]. intros st.
  apply hits_ask with (q := QUnif) (out := fun y => match y with AReal x => choice_p (g_const x 0 []) n q st
    | _ => ({| r_world := r_world st; r_draws := S (r_draws st) |}, Raise TypeError) end)
    (O := fun y => match y with AReal x => a <= x < b | _ => False end).
  - intros g. cbn [reply]. unfold choice_p. destruct (Nat.eqb n 0); [reflexivity|]. destruct (negb _); [reflexivity|].
    destruct (existsb _ _); [reflexivity|]. destruct (Rltb _ _); reflexivity.
  - intros [x| |]; try reflexivity. unfold choice_p. destruct (Nat.eqb_spec n 0); [lia|]. rewrite Lq, Nat.eqb_refl. cbn [negb].
    destruct (existsb (fun x => Rltb x 0) q) eqn:E1.
    { exfalso. apply existsb_exists in E1. destruct E1 as (y & Hy & E). apply Rltb_spec in E. specialize (N y Hy). lra. }
    destruct (Rltb choice_tol (Rabs (sumR q - 1))) eqn:E2; [|reflexivity].
    exfalso. apply Rltb_spec in E2. unfold choice_tol in E2. destruct GP as (_ & _ & GP). rewrite <- sumR_fold in GP. lra.
  - cbn [mean_answer]. apply between_RInt; lra.
  - intros [x|k|l] Px HO v Hv; try contradiction. cbn [possible] in Px.
    set (g := {| g_unif := fun _ => x; g_int := fun _ _ => 0%nat; g_perm := fun _ n => seq 0 n |}).
    assert (G : rng_ok g) by (split; [|split]; intros; cbn; auto).
    destruct (choice_p_good g n q st G ltac:(lia) GP) as (j & E & Hj & C1 & C2). cbn [g_unif g] in C1, C2.
    assert (EE : choice_p (g_const x 0 []) n q st = choice_p g n q st) by reflexivity. rewrite EE, E in Hv. cbn [snd] in Hv. injection Hv as <-.
    apply (slot_unique q (x * sumR q) j i); auto. destruct HO as [O1 O2]. split.
    + unfold a in O1. apply Rle_div_l in O1; auto.
    + unfold b in O2. apply Rlt_div_r in O2; auto.
Qed.

(** * One parameterised gate *)
Lemma tree_values ps : forall st, rtree (fun g => random_values g ps) st.
Proof.
  induction ps as [|p t IH]; intros st; cbn [random_values]; [apply tree_ret|].
  apply tree_bind; [apply tree_unif|]. intros s x. apply tree_bind; [apply IH|]. intros. apply tree_ret.
Qed.

Lemma value_slot p v d : pr_min p <= v <= pr_max p -> 0 < d ->
  exists a b, 0 <= a < b /\ b <= 1 /\ forall x, a <= x < b -> pr_min p <= pr_random_value p x <= pr_max p /\ Rabs (pr_random_value p x - v) < d.
Proof.
  intros Hv Hd. unfold pr_random_value. set (lo := pr_min p) in *. set (hi := pr_max p) in *.
  destruct (Rle_lt_or_eq_dec lo hi ltac:(lra)) as [L|L].
  2:{ exists 0, 1. split; [lra|]. split; [lra|]. intros x Hx. replace (x * (hi - lo) + lo) with v by (rewrite L; replace v with hi by lra; ring).
      split; [lra|]. replace (v - v) with 0 by ring. rewrite Rabs_R0. lra. }
  assert (I : 0 < hi - lo) by lra.
  assert (B : forall x, 0 <= x <= 1 -> lo <= x * (hi - lo) + lo <= hi) by (intros; split; nra).
  destruct (Rlt_dec v hi) as [Vh|Vh].
  - exists ((v - lo) / (hi - lo)), (Rmin 1 ((v - lo + d) / (hi - lo))).
    assert (X0 : 0 <= (v - lo) / (hi - lo)) by (apply Rle_div_r; lra).
    split; [split; auto; apply Rmin_glb_lt; [apply Rlt_div_l; lra|]; apply Rmult_lt_compat_r; [now apply Rinv_0_lt_compat|lra]|].
    split; [apply Rmin_l|]. intros x [H1 H2]. assert (H3 := Rlt_le_trans _ _ _ H2 (Rmin_l _ _)). assert (H4 := Rlt_le_trans _ _ _ H2 (Rmin_r _ _)).
    split; [apply B; lra|]. apply Rle_div_l in H1; [|lra]. apply Rlt_div_r in H4; [|lra]. apply Rabs_def1; lra.
  - assert (v = hi) by lra. exists (Rmax 0 (1 - d / (2 * (hi - lo)))), 1.
    assert (D : 0 < d / (2 * (hi - lo))) by (apply Rdiv_lt_0_compat; lra).
    split; [split; [apply Rmax_l|apply Rmax_lub_lt; lra]|]. split; [lra|]. intros x [H1 H2].
    assert (H3 := Rle_trans _ _ _ (Rmax_l _ _) H1). assert (H4 := Rle_trans _ _ _ (Rmax_r _ _) H1).
    split; [apply B; lra|].
    assert (H5 : (1 - x) * (hi - lo) <= d / 2).
    { replace (d / 2) with (d / (2 * (hi - lo)) * (hi - lo)) by (field; lra). apply Rmult_le_compat_r; lra. }
    apply Rabs_def1; nra.
Qed.

Definition close_values (d : R) (vs vs' : list R) : Prop := Forall2 (fun v v' => Rabs (v' - v) < d) vs vs'.

Lemma hits_values d : 0 < d -> forall ps vs, in_range ps vs -> exists w, 0 < w <= 1 /\
  forall st, rhits (fun g => random_values g ps) st (fun _ vs' => in_range ps vs' /\ close_values d vs vs') w.
Proof.
  intros Hd. induction ps as [|p t IH]; intros vs H; inversion H as [|p' v t' vs' Hv Ht]; subst.
  - exists 1. split; [lra|]. intros st. cbn [random_values]. apply hits_ret. split; constructor.
  - destruct (IH _ Ht) as (w & Hw & IHw). destruct (value_slot p v d Hv Hd) as (a & b & Ha & Hb & Hs).
    exists ((b - a) * (w * 1)). split; [split; [apply Rmult_lt_0_compat; lra|nra]|]. intros st. cbn [random_values].
    apply hits_bind with (Q1 := fun _ x => a <= x < b); [lra| | |].
    + apply hits_unif; auto. lra.
    + intros s x Hx. apply hits_bind with (Q1 := fun _ vs1 => in_range t vs1 /\ close_values d vs' vs1); [lra|apply IHw| |].
      * intros s' vs1 [V1 V2]. destruct (Hs x Hx). apply hits_ret. split; constructor; auto.
      * intros. apply tree_ret.
    + intros s x. apply tree_bind; [apply tree_values|]. intros. apply tree_ret.
Qed.

Lemma tree_call o st : rtree (fun _ => call 0 o) st.
Proof.
  apply tree_det with (s' := {| r_world := fst (step 0 o (r_world st)); r_draws := r_draws st |}) (x := snd (step 0 o (r_world st))); auto.
  intros _. unfold call. now destruct (step 0 o (r_world st)).
Qed.
Lemma tree_entry o st : rtree (fun _ => call_entry 0 o) st.
Proof. unfold call_entry. apply tree_bind; [apply tree_call|]. intros s v. destruct v; apply tree_ret || apply tree_raise. Qed.
Lemma tree_create d ps probs st : rtree (fun g => create_random_sequence_entry g 0 d ps probs) st.
Proof.
  unfold create_random_sequence_entry. apply tree_bind.
  - destruct probs; [apply tree_choice_p|apply tree_int].
  - intros s i. destruct (nth_error _ _) as [p|]; [|apply tree_raise]. apply tree_bind.
    + destruct (p_source p); [apply tree_ret|]. apply tree_bind; [apply tree_values|]. intros. apply tree_lift.
    + intros s1 u. apply tree_bind; [|intros; apply tree_entry]. destruct (p_allowed p).
      * apply tree_bind; [apply tree_int|]. intros. apply tree_ret.
      * apply tree_distinct.
Qed.

Lemma instance_dim p u : instance 0 p u -> u_dim u = src_dim (p_source p).
Proof.
  unfold instance. destruct (p_source p) as [v|pu]; [now intros ->|]. intros (vs & _ & E). apply as_unitary_ok_inv in E.
  destruct E as (_ & d & m & _ & _ & E). apply mk_unitary_inv in E. destruct E as (_ & _ & _ & _ & _ & ->). reflexivity.
Qed.

Lemma create_hits e n ps probs p gt : 0 < e -> continuous_source (p_source p) -> choosable ps probs -> weighted ps probs p -> good_primitive 0 n p -> allows 0 (2 ^ n) p gt ->
  exists w, 0 < w <= 1 /\ forall st, rhits (fun g => create_random_sequence_entry g 0 (2 ^ n) ps probs) st
    (fun st' l => exists gt', gate_near e gt gt' /\ has_gate (r_world st') l gt' /\ forall s, spares 0 s (r_world st) (r_world st')) w.
Proof.
  intros He HCS [CN CP] (i & Hi & HW) [GS GA] (I & Hq & ND & NE & HL & HB). change (filter has_place ps) with (filter usable ps) in Hi.
  assert (Li : (i < List.length (filter usable ps))%nat) by (apply nth_error_Some; congruence).
  assert (Dm := instance_dim _ _ I).
  assert (X1 : exists w1, 0 < w1 <= 1 /\ forall st, rhits (fun g => match probs with
        | None => choice_unif g (List.length (filter usable ps))
        | Some q => choice_p g (List.length (filter usable ps)) q end) st (fun _ j => j = i) w1).
  { destruct probs as [q|].
    - apply hits_choice_p; auto.
    - apply (hits_int _ i (fun j => j = i)); auto. }
  assert (X2 : exists w2, 0 < w2 <= 1 /\ forall st, rhits (fun g => match p_source p with
        | Fixed u => se_ret u
        | Family pu => vs <-- random_values g (pu_params pu) ;; se_lift (as_unitary 0 pu vs) end) st
        (fun _ u => gate_near e gt (u, snd gt) /\ instance 0 p u) w2).
  { unfold instance in *. destruct gt as [u0 qs]. cbn [fst snd] in *. destruct (p_source p) as [v|pu].
    - exists 1. split; [lra|]. intros st. apply hits_ret. subst v. split; auto. apply gate_near_refl. lra.
    - destruct I as (vs & V1 & V2). destruct (family_near pu vs u0 e GS HCS V1 V2 He) as (d & Hd & HN).
      destruct (hits_values d Hd _ _ V1) as (w & Hw & HV). exists (w * 1). split; [lra|].
      intros st. eapply hits_bind; [lra|apply HV| |intros; apply tree_lift].
      intros s vs' [R1 R2]. apply hits_lift. intros u E. split; [|eauto]. now apply (HN vs'). }
  assert (PL : placement n (snd gt)).
  { split; auto. split; auto. intros q Hin. specialize (HB q Hin). apply Nat.pow_le_mono_r_iff in HB; lia. }
  assert (X3 : exists w3, 0 < w3 <= 1 /\ forall u st, instance 0 p u -> rhits (fun g => match p_allowed p with
        | Some allowed => k <-- choice_unif g (List.length allowed) ;; se_ret (nth k allowed [])
        | None => choice_distinct g (Nat.log2 (2 ^ n)) (Nat.log2 (u_dim u)) end) st (fun _ qs => qs = snd gt) w3).
  { destruct (p_allowed p) as [ls|].
    - specialize (Hq ls eq_refl). apply In_nth_error in Hq. destruct Hq as (k & Hk).
      assert (Lk : (k < List.length ls)%nat) by (apply nth_error_Some; congruence).
      destruct (hits_int (List.length ls) k (fun j => j = k) Lk eq_refl) as (w & Hw & HI). exists (w * 1). split; [lra|].
      intros u st _. eapply hits_bind; [lra|apply HI| |intros; apply tree_ret]. intros s j ->. apply hits_ret. now apply nth_error_nth.
    - assert (PLen := placement_length n _ PL).
      assert (Pm := complete_perm (snd gt) n ND (proj2 (proj2 PL))).
      destruct (hits_distinct n (List.length (snd gt)) _ (fun l => l = snd gt) PLen Pm) as (w & Hw & HI).
      + unfold complete. rewrite firstn_app, firstn_all, Nat.sub_diag. simpl. apply app_nil_r.
      + exists w. split; auto. intros u st Iu. rewrite (instance_dim _ _ Iu), <- Dm, <- HL, !Nat.log2_pow2 by lia. apply HI. }
  destruct X1 as (w1 & W1 & X1), X2 as (w2 & W2 & X2), X3 as (w3 & W3 & X3).
  exists (w1 * (w2 * (w3 * 1))). split; [split; [repeat apply Rmult_lt_0_compat; lra|]|].
  { assert (w3 * 1 <= 1) by lra. assert (0 <= w2 * (w3 * 1) <= 1) by (split; [apply Rmult_le_pos; lra|nra]). nra. }
  assert (R3 : 0 <= w2 * (w3 * 1) <= 1) by (split; [apply Rmult_le_pos; lra|nra]).
  intros st. apply hits_weaken with (Q := fun st' l => (exists gt', gate_near e gt gt' /\ has_gate (r_world st') l gt') /\
    forall s, spares 0 s (r_world st) (r_world st')).
  { intros st' l ((gt' & H1 & H2) & H3). eauto. }
  apply hits_and with (Q' := fun st' _ => forall s, spares 0 s (r_world st) (r_world st')).
  { intros g st' l G E. apply (create_ok g 0 G) in E. destruct E as (_ & _ & _ & E). exact E. }
  unfold create_random_sequence_entry. eapply hits_bind; [exact R3|apply X1| |].
  2:{ intros s j. cbv beta. destruct (nth_error (filter usable ps) j) as [p'|]; [|apply tree_raise]. apply tree_bind.
      - destruct (p_source p'); [apply tree_ret|]. apply tree_bind; [apply tree_values|]. intros. apply tree_lift.
      - intros s1 u. apply tree_bind; [|intros; apply tree_entry]. destruct (p_allowed p').
        + apply tree_bind; [apply tree_int|]. intros. apply tree_ret.
        + apply tree_distinct. }
  intros s j ->. cbv beta. rewrite Hi. eapply hits_bind; [lra|apply X2| |].
  2:{ intros s1 u. apply tree_bind; [|intros; apply tree_entry]. destruct (p_allowed p).
      - apply tree_bind; [apply tree_int|]. intros. apply tree_ret.
      - apply tree_distinct. }
  intros s1 u (HA & Iu). eapply hits_bind; [lra|apply X3, Iu| |intros; apply tree_entry].
  intros s2 qs ->. cbv beta.
  destruct (call_entry 0 (NewEntry u (map Z.of_nat (snd gt))) s2) as [s3 x] eqn:E. apply hits_det with (s' := s3) (x := x); auto.
  - unfold call_entry, se_bind, call in E. destruct (step _ _ _) as [w' [v|err]]; [destruct v|]; now inversion E.
  - intros l ->. apply call_entry_ok in E. destruct E as [E _]. destruct (new_entry_view 0 _ _ _ _ _ E) as (l' & E' & HG & _).
    injection E' as <-. rewrite to_of_nat in HG. eauto.
Qed.

(** * A layer *)
Lemma tree_list d ps : forall st, rtree (fun g => create_list g d ps) st.
Proof.
  induction ps as [|p t IH]; intros st; cbn [create_list]; [apply tree_ret|].
  apply tree_bind; [apply tree_create|]. intros s l. apply tree_bind; [apply IH|]. intros. apply tree_ret.
Qed.
Lemma tree_layer d counts st : rtree (fun g => create_random_layer g 0 d counts) st.
Proof.
  unfold create_random_layer. apply tree_bind; [|intros; apply tree_shuffle].
  apply hits_ext with (m := fun g => create_list g d (table_list counts)); [|apply tree_list]. intros g _. symmetry. apply create_loop_list.
Qed.

Lemma list_hits e n : 0 < e -> forall ps gts, good_list n ps -> (forall p, In p ps -> continuous_source (p_source p)) ->
  Forall2 (allows 0 (2 ^ n)) ps gts ->
  exists w, 0 < w <= 1 /\ forall st, WG 0 anyg (r_world st) -> rhits (fun g => create_list g (2 ^ n) ps) st
    (fun st' ls => exists gts', Forall2 (gate_near e) gts gts' /\ Forall2 (has_gate (r_world st')) ls gts' /\
       forall s, spares 0 s (r_world st) (r_world st')) w.
Proof.
  intros He. induction ps as [|p t IH]; intros gts GL HC HA; inversion HA as [|? gt ? gts0 A1 A2]; subst.
  - exists 1. split; [lra|]. intros st HW. cbn [create_list]. apply hits_ret. exists []. split; [constructor|]. split; [constructor|].
    intros. apply spares_refl.
  - destruct (IH gts0 (fun q Hq => GL q (or_intror Hq)) (fun q Hq => HC q (or_intror Hq)) A2) as (w2 & W2 & H2).
    destruct (GL p (or_introl eq_refl)) as [GP U].
    destruct (create_hits e n [p] None p gt He (HC p (or_introl eq_refl)) (good_list_choosable n (p :: t) p GL (or_introl eq_refl))) as (w1 & W1 & H1); auto.
    { exists 0%nat. change has_place with usable. cbn [filter]. rewrite U. split; [reflexivity|]. discriminate. }
    exists (w1 * (w2 * 1)). split; [split; [apply Rmult_lt_0_compat; lra|nra]|].
    intros st HW. cbn [create_list]. eapply hits_bind; [lra|apply H1| |].
    2:{ intros s l. apply tree_bind; [apply tree_list|]. intros. apply tree_ret. }
    intros s1 l (gt' & N1 & L1 & Sp1). assert (HW1 : WG 0 anyg (r_world s1)) by (now apply (Sp1 0%nat)).
    eapply hits_bind; [lra|apply H2; auto| |intros; apply tree_ret].
    intros s2 ls (gts' & N2 & L2 & Sp2). apply hits_ret. exists (gt' :: gts'). split; [now constructor|]. split.
    + constructor; auto. now apply (Sp2 0%nat).
    + intros s. eapply spares_trans; eauto.
Qed.

(** The layer consists of one gate of each primitive of the table, in some order. *)
Definition layer_on_offer (n : nat) (counts : list (primitive * Z)) (layer : list gate_on) : Prop :=
  exists l, Forall2 (allows 0 (2 ^ n)) (table_list counts) l /\ In layer (orders l).

Notation pick o gts := (map (fun i => nth i gts (e_unitary no_entry, @nil nat)) o).

Lemma order_pick (l : list gatety) x : In x (orders l) -> exists o, Permutation o (seq 0 (List.length l)) /\ x = pick o l.
Proof.
  intros H. rewrite <- (map_nth_seq l (e_unitary no_entry, @nil nat)) in H. rewrite orders_map in H. apply in_map_iff in H.
  destruct H as (o & <- & Ho). apply orders_spec in Ho. eauto.
Qed.

Lemma Forall2_pick {A B} (R : A -> B -> Prop) l l' da db o : Forall2 R l l' -> (forall i, In i o -> (i < List.length l)%nat) ->
  Forall2 R (map (fun i => nth i l da) o) (map (fun i => nth i l' db) o).
Proof. intros H Ho. now apply Forall2_nth_perm. Qed.

Lemma table_list_good n counts : good_table 0 n counts -> good_list n (table_list counts).
Proof.
  intros HC. apply (table_good n {| c_dim := 2 ^ n; c_array := false; c_prims := []; c_probs := None; c_max_beta := 0; c_beta := 0; c_rate := 0; c_append := 0 |}); auto.
Qed.

Lemma layer_hits e n counts layer : 0 < e -> good_table 0 n counts -> (forall p, In p (table_list counts) -> continuous_source (p_source p)) ->
  layer_on_offer n counts layer ->
  exists w, 0 < w <= 1 /\ forall st, WG 0 anyg (r_world st) -> rhits (fun g => create_random_layer g 0 (2 ^ n) counts) st
    (fun st' ls => exists gts', Forall2 (gate_near e) layer gts' /\ Forall2 (has_gate (r_world st')) ls gts' /\
       forall s, spares 0 s (r_world st) (r_world st')) w.
Proof.
  intros He HC HCS (l & HA & HL). destruct (order_pick l layer HL) as (o & Po & ->).
  destruct (list_hits e n He (table_list counts) l (table_list_good n counts HC) HCS HA) as (w1 & W1 & H1).
  destruct (hits_shuffle (List.length l) o Po) as (w2 & W2 & H2).
  exists (w1 * w2). split; [split; [apply Rmult_lt_0_compat; lra|nra]|]. intros st HW. unfold create_random_layer.
  assert (Bo : forall i, In i o -> (i < List.length l)%nat) by (intros i Hi; apply (Permutation_in _ Po), in_seq in Hi; lia).
  eapply hits_bind; [lra| | |intros; apply tree_shuffle].
  - apply hits_ext with (m := fun g => create_list g (2 ^ n) (table_list counts)); [|now apply H1]. intros g _. symmetry. apply create_loop_list.
  - intros s1 ls (gts' & N & L & Sp). assert (E1 := F2_length _ _ _ N). assert (E2 := F2_length _ _ _ L).
    eapply hits_weaken; [|apply H2; congruence]. intros s2 ls' [Ew ->]. exists (pick o gts'). rewrite Ew. split; [|split; auto].
    + now apply Forall2_pick.
    + apply Forall2_pick; auto. rewrite E2, <- E1. exact Bo.
Qed.
