(** Sequences: the statements C14-C23 that need the product invariant. *)
From Coq Require Import Reals List Arith Lia Lra Psatz Bool String ZArith Setoid Morphisms.
From Coquelicot Require Import Rcomplements Complex.
From Verif Require Import Base CMat CMatFacts Det DetFacts CRoot Norms ModelUnitary ModelEntry
  ModelSequence Spec SpecModel PUnitary PBits PEmbed PEntry PDrift PUnitaryProps PSeqHeap PSeqMeth PSeqNear PSeqWorld
  PSeqUndo PSeqInv PSeqHist.
Import ListNotations.
Open Scope R_scope.
Open Scope C_scope.
Open Scope se_scope.

(** ** Histories *)
Lemma history_weaken eps (P P' : unitary -> Prop) (Q Q' : world -> nat -> Prop) os :
  (forall u, P u -> P' u) -> (forall w s, Q w s -> Q' w s) ->
  forall w, history eps P Q os w -> history eps P' Q' os w.
Proof.
  intros HP HQ. induction os as [|o os IH]; intros w; cbn [history]; auto.
  intros [H1 H2]. split; auto. destruct o; auto.
Qed.
Lemma history_app eps P Q os1 os2 : forall w,
  history eps P Q (os1 ++ os2) w <-> history eps P Q os1 w /\ history eps P Q os2 (exec eps os1 w).
Proof.
  induction os1 as [|o os IH]; intros w; cbn [history exec app]; [tauto|].
  rewrite IH. tauto.
Qed.

(** ** Threshold zero *)
Lemma xi_zero n : xi 0 n = 0%R.
Proof. unfold xi. ring. Qed.
Lemma err_zero n c : err 0 n c = 0%R.
Proof. unfold err. rewrite xi_zero, Rplus_0_r, pow1. ring. Qed.
Lemma lim0_zero n c : lim 0 n c.
Proof. unfold lim. rewrite err_zero. split; lra. Qed.
Lemma lim_zero {b} n c : limb 0 b n c.
Proof. left. apply lim0_zero. Qed.
Lemma near_zero {b} n c P p : nearb 0 b n c P p ->
  u_dim p = (2 ^ n)%nat /\ special (2 ^ n) P /\ meq (2 ^ n) (u_mat p) P.
Proof.
  intros [N _]. split; [apply N|]. split; [apply N|]. apply (near_0 0 n P p).
  destruct N as (A & B & D & F). split; auto. split; auto. split; auto. now rewrite err_zero in *.
Qed.

Notation exact_history := (history 0 (built 0) odd_entries).

Lemma exact_winv os : exact_history os w_empty ->
  winv 0 true (updates os 0) (exec 0 os w_empty).
Proof.
  intros H. apply exec_winv; [lra|lra| |apply winv_empty].
  eapply history_weaken; [| |exact H].
  - intros u B. apply built_wf in B. split; [apply wf_rough; auto; lra|]. intros _. split; auto. apply eps_clean_0.
  - intros w s HD. auto.
Qed.

Lemma C14_lemma : forall os s n,
  history 0 (built 0) odd_entries os w_empty ->
  has_dim (exec 0 os w_empty) s (2 ^ n) ->
  let w := exec 0 os w_empty in
  exists p, answers 0 w s p /\ u_dim p = (2 ^ n)%nat /\
    meq (2 ^ n) (u_mat p) (ordered n (contents w s)).
Proof.
  intros os s n H HD. cbv zeta.
  destruct (winv_exact 0 _ _ s n ltac:(lra) (exact_winv os H) HD (lim_zero _ _)) as (p & A & N).
  apply near_zero in N. exists p. tauto.
Qed.

Lemma C14_unique os s n p :
  history 0 (built 0) odd_entries os w_empty ->
  has_dim (exec 0 os w_empty) s (2 ^ n) -> answers 0 (exec 0 os w_empty) s p ->
  u_dim p = (2 ^ n)%nat /\ meq (2 ^ n) (u_mat p) (ordered n (contents (exec 0 os w_empty) s)).
Proof.
  intros H HD HA. destruct (C14_lemma os s n H HD) as (p' & A & D & E).
  assert (p' = p) by (unfold answers in *; congruence). subst. auto.
Qed.

(** ** The linear bound *)
Lemma pow_linear x c : (0 <= x)%R -> (INR c * x <= 1)%R ->
  ((1 + x) ^ c <= 1 + INR c * x + (INR c * x) ^ 2)%R.
Proof.
  intros Hx. induction c as [|c IH]; intros H; [simpl; lra|].
  rewrite S_INR in *. assert (C0 := pos_INR c).
  assert (Hc : (INR c * x <= 1)%R) by nra. specialize (IH Hc).
  cbn [pow]. set (p := ((1 + x) ^ c)%R) in *. set (k := INR c) in *.
  assert (H1 : ((1 + x) * p <= (1 + x) * (1 + k * x + (k * x) ^ 2))%R) by (apply Rmult_le_compat_l; lra).
  eapply Rle_trans; [exact H1|]. simpl.
  assert (H2 : (0 <= x * x)%R) by nra.
  assert (H3 : (k * x * (k * (x * x)) <= 1 * (k * (x * x)))%R) by (apply Rmult_le_compat_r; nra).
  nra.
Qed.

Lemma err_linear eps n c B : (0 <= eps)%R ->
  (INR c * xi eps n <= B)%R -> (B <= / 100)%R -> (err eps n c <= B * (1 + / 100))%R.
Proof.
  intros He H1 H2. assert (X := xi_pos eps He n). unfold err.
  assert (Y : (0 <= INR c * xi eps n)%R) by (apply Rmult_le_pos; [apply pos_INR|auto]).
  assert (P := pow_linear (xi eps n) c X ltac:(lra)). nra.
Qed.

Definition drift (k : R) (K n : nat) (eps : R) : R :=
  (k * INR K * INR (2 ^ n) * (sqrt (INR (2 ^ n)) + 1) * eps)%R.

Lemma drift_lim eps n c K k : (0 <= eps)%R ->
  (INR c * (8 / 5) * (101 / 100) <= k * INR K)%R ->
  (drift k K n eps <= 45 / 10 ^ 10)%R -> (INR (2 ^ n) * drift k K n eps <= / 100)%R ->
  (err eps n c <= drift k K n eps)%R /\ lim eps n c.
Proof.
  intros He Hk H1 H2.
  assert (E : (INR c * xi eps n * (101 / 100) <= drift k K n eps)%R).
  { unfold xi, kappa0, drift. set (d := INR (2 ^ n)). set (q := sqrt d).
    assert (0 <= d)%R by apply pos_INR. assert (0 <= q)%R by apply sqrt_pos.
    assert (T : (0 <= d * (q + 1) * eps)%R) by (apply Rmult_le_pos; [apply Rmult_le_pos|]; lra).
    replace (INR c * (8 / 5 * d * (q + 1) * eps) * (101 / 100))%R
      with ((INR c * (8 / 5) * (101 / 100)) * (d * (q + 1) * eps))%R by ring.
    replace (k * INR K * d * (q + 1) * eps)%R with ((k * INR K) * (d * (q + 1) * eps))%R by ring.
    apply Rmult_le_compat_r; auto. }
  assert (B : (err eps n c <= (drift k K n eps * (100 / 101)) * (1 + / 100))%R).
  { apply err_linear; auto; [lra|].
    replace (10 ^ 10)%R with 10000000000%R in H1 by ring. lra. }
  assert (B' : (err eps n c <= drift k K n eps)%R) by lra.
  split; auto. split; [lra|].
  eapply Rle_trans; [|exact H2]. apply Rmult_le_compat_l; auto. apply pos_INR.
Qed.

Lemma C15_lemma : forall eps os s n,
  (0 <= eps <= 1)%R ->
  history eps (made eps) (fun _ _ => False) os w_empty ->
  has_dim (exec eps os w_empty) s (2 ^ n) ->
  let D := (14 * INR (updates os 0) * INR (2 ^ n) * (sqrt (INR (2 ^ n)) + 1) * eps)%R in
  (D <= 45 / 10 ^ 10)%R -> (INR (2 ^ n) * D <= / 100)%R ->
  let w := exec eps os w_empty in
  exists p, answers eps w s p /\ u_dim p = (2 ^ n)%nat /\
    (fro (2 ^ n) (mminus (u_mat p) (ordered n (contents w s))) <= D)%R.
Proof.
  intros eps os s n He H HD D H1 H2. cbv zeta. set (K := updates os 0) in *.
  destruct (drift_lim eps n (8 * K) K 14) as [B L]; auto; [lra| |].
  { rewrite mult_INR. simpl (INR 8). assert (0 <= INR K)%R by apply pos_INR. lra. }
  destruct (winv_stored eps K (exec eps os w_empty) s n) as (p & A & N & _ & F & _); auto.
  - apply exec_winv; [lra|lra| |apply winv_empty].
    eapply history_weaken; [| |exact H].
    + intros u Bu. split; [apply made_rough; auto; lra|discriminate].
    + intros w t [].
  - destruct N as (N1 & _). exists p. split; auto. split; auto.
    eapply Rle_trans; [exact F|]. exact B.
Qed.

(** Gates without stored components in (0, eps), with inverse(). *)
Lemma C15_clean_lemma : forall eps os s n,
  (0 <= eps <= 1)%R ->
  history eps (fun u => built eps u /\ eps_clean eps (u_dim u) (u_mat u)) odd_entries os w_empty ->
  has_dim (exec eps os w_empty) s (2 ^ n) ->
  let D := (2 * INR (updates os 0) * INR (2 ^ n) * (sqrt (INR (2 ^ n)) + 1) * eps)%R in
  (D <= 45 / 10 ^ 10)%R -> (INR (2 ^ n) * D <= / 100)%R ->
  let w := exec eps os w_empty in
  exists p, answers eps w s p /\ u_dim p = (2 ^ n)%nat /\
    (fro (2 ^ n) (mminus (u_mat p) (ordered n (contents w s))) <= D)%R.
Proof.
  intros eps os s n He H HD D H1 H2. cbv zeta. set (K := updates os 0) in *.
  destruct (drift_lim eps n (1 * K) K 2) as [B L]; auto; [lra| |].
  { rewrite Nat.mul_1_l. assert (0 <= INR K)%R by apply pos_INR. lra. }
  destruct (winv_exact eps K (exec eps os w_empty) s n) as (p & A & N); auto.
  - apply exec_winv; [lra|lra| |apply winv_empty].
    eapply history_weaken; [| |exact H].
    + intros u [Bu Cu]. apply built_wf in Bu. split; [apply wf_rough; auto; lra|auto].
    + intros w t HT. auto.
  - now left.
  - destruct N as [(N1 & N2 & N3 & N4) _]. exists p. split; auto. split; auto.
    eapply Rle_trans; [exact N4|]. exact B.
Qed.

(** ** Undo: the product *)
Lemma has_dim_exec eps os os' s d :
  has_dim (exec eps os w_empty) s d -> has_dim (exec eps (os ++ os') w_empty) s d.
Proof.
  rewrite exec_app. intros H.
  assert (K : forall os w, WG eps anyg w -> has_dim w s d -> has_dim (exec eps os w) s d).
  { clear. induction os as [|o os IH]; intros w HW HD; cbn [exec]; auto.
    apply IH; [now apply W_step|]. destruct HD as (q & Hq & <-).
    destruct (mutates o s) eqn:Hm.
    2:{ destruct (step_frame eps anyg o w (any_allowed eps o) HW) as (_ & _ & _ & F).
        destruct (F s q Hm Hq) as (q' & H1 & H2). exists q'. split; auto. apply H2. }
    destruct (target_meth eps o) as [[t m]|] eqn:Et.
    2:{ destruct o; discriminate. }
    assert (Ets : t = s).
    { destruct o; simpl in Hm, Et; try discriminate; apply Nat.eqb_eq in Hm; congruence. }
    subst t.
    assert (Hcase : fst (step eps o w) = w \/ fst (step eps o w) = fst (on_seq s m w) /\
       (match o with AppendFirst _ l _ | AppendLast _ l _ => (l < List.length (w_heap w))%nat | _ => True end)).
    { destruct o; simpl in Et; try discriminate; injection Et as -> <-.
      - rewrite step_append_first. destruct (Nat.ltb_spec l (List.length (w_heap w))); auto.
        right. split; auto. apply se_bind_ret.
      - rewrite step_append_last. destruct (Nat.ltb_spec l (List.length (w_heap w))); auto.
        right. split; auto. apply se_bind_ret.
      - right. split; auto. cbn [step]. apply se_bind_ret.
      - right. split; auto. cbn [step]. apply se_bind_ret.
      - right. split; auto. cbn [step]. apply se_bind_ret. }
    destruct Hcase as [->|[-> HL]]; [exists q; auto|].
    destruct (mutator_frame eps anyg o s m (w_heap w) q Et (WG_G eps anyg w s q HW Hq) HL)
      as (h' & q' & r & E & X & GG & D & _).
    destruct (on_seq_target s m w q h' q' r Hq E) as [-> E2]. exists q'. split; auto. }
  apply K; auto. apply W_exec.
Qed.

Lemma quiet_history_app eps s os1 os2 : forall w,
  quiet_history eps s (os1 ++ os2) w <-> quiet_history eps s os1 w /\ quiet_history eps s os2 (exec eps os1 w).
Proof.
  induction os1 as [|o os IH]; intros w; cbn [quiet_history exec app]; [tauto|]. rewrite IH. tauto.
Qed.

Lemma C16_product_lemma : forall os o os' s n p,
  history 0 (built 0) odd_entries (os ++ o :: os') w_empty ->
  has_dim (exec 0 os w_empty) s (2 ^ n) ->
  saves (exec 0 os w_empty) s o ->
  quiet_history 0 s os' (fst (step 0 o (exec 0 os w_empty))) ->
  answers 0 (exec 0 os w_empty) s p ->
  exists p', answers 0 (exec 0 (os ++ o :: os' ++ [Undo s]) w_empty) s p' /\
    u_dim p' = u_dim p /\ meq (u_dim p) (u_mat p') (u_mat p).
Proof.
  intros os o os' s n p H HD HS HQ HA.
  destruct (C14_unique os s n p) as [D1 E1]; auto.
  { apply history_app in H. tauto. }
  assert (Eq : os ++ o :: os' ++ [Undo s] = (os ++ o :: os') ++ [Undo s]) by now rewrite <- app_assoc.
  rewrite Eq.
  destruct (C14_lemma ((os ++ o :: os') ++ [Undo s]) s n) as (p' & A & D2 & E2).
  - apply history_app. split; auto. cbn. auto.
  - rewrite <- app_assoc. now apply has_dim_exec.
  - exists p'. split; auto. split; [congruence|]. rewrite D1, E1, E2.
    destruct (C16_undo_lemma 0 os o os' s HS HQ) as [_ C].
    rewrite (exec_app 0 (os ++ o :: os') [Undo s]). cbn [exec]. rewrite C. reflexivity.
Qed.

(** ** combine *)
(** The product of a list of operators, the first one applied first. *)
Lemma chain_ordered os w n : w = exec 0 os w_empty -> exact_history os w_empty -> forall ss ps P,
  (forall s, In s ss -> has_dim w s (2 ^ n)) -> Forall2 (answers 0 w) ss ps ->
  meq (2 ^ n) (fold_left (fun P p => mmul (2 ^ n) (u_mat p) P) ps P)
    (mmul (2 ^ n) (ordered n (List.concat (map (contents w) ss))) P).
Proof.
  intros -> H. induction ss as [|s ss IH]; intros ps P HD HF; inversion HF; subst; cbn [fold_left map List.concat].
  - rewrite ordered_nil. symmetry. apply mmul_1_l.
  - rewrite IH; auto; [|intros; apply HD; simpl; auto]. rewrite ordered_app.
    destruct (C14_unique os s n y) as [_ E]; auto; [apply HD; simpl; auto|].
    rewrite E. now rewrite mmul_assoc.
Qed.

Lemma C17_lemma : forall os ss n,
  history 0 (built 0) odd_entries os w_empty ->
  ss <> [] -> (forall s, In s ss -> has_dim (exec 0 os w_empty) s (2 ^ n)) ->
  let w := exec 0 os w_empty in
  let w' := fst (step 0 (Combine ss) w) in
  exists c p,
    snd (step 0 (Combine ss) w) = Ok (VSequence c) /\ has_dim w' c (2 ^ n) /\ ~ has_dim w c (2 ^ n) /\
    contents w' c = List.concat (map (contents w) ss) /\
    answers 0 w' c p /\
    (forall ps, Forall2 (answers 0 w) ss ps ->
       meq (2 ^ n) (u_mat p) (fold_left (fun P q => mmul (2 ^ n) (u_mat q) P) ps mid)) /\
    (forall s, In s ss -> contents w' s = contents w s).
Proof.
  intros os ss n H Hne HD. cbv zeta. set (w := exec 0 os w_empty) in *.
  destruct ss as [|s0 st] eqn:Ess; [congruence|]. rewrite <- Ess in *.
  assert (HW := exact_winv os H). fold w in HW.
  destruct (HD s0) as (q0 & Hq0 & Hd0); [subst; simpl; auto|].
  destruct (combine_sat 0 ltac:(lra) ltac:(lra) true n _ ss w q0 s0 st HW Ess Hq0 Hd0 (lim_zero _ _))
    as (w1 & q & E & W1 & R1 & D1 & A1 & C1 & S1 & _).
  { intros s Hs. exact (HD s Hs). }
  assert (EC : step 0 (Combine ss) w =
    ({| w_heap := w_heap w1; w_seqs := w_seqs w1 ++ [q] |}, Ok (VSequence (List.length (w_seqs w1))))).
  { cbn [step]. unfold se_bind, add_seq. rewrite E. reflexivity. }
  set (c := List.length (w_seqs w1)) in *.
  assert (Hc : nth_error (w_seqs w1 ++ [q]) c = Some q).
  { rewrite nth_error_app2 by (unfold c; lia). unfold c. now rewrite Nat.sub_diag. }
  assert (HDc : has_dim (fst (step 0 (Combine ss) w)) c (2 ^ n)).
  { rewrite EC. exists q. auto. }
  assert (HC : contents (fst (step 0 (Combine ss) w)) c = List.concat (map (contents w) ss)).
  { rewrite EC. unfold contents at 1. cbn [fst w_seqs w_heap]. rewrite Hc. exact C1. }
  destruct (C14_lemma (os ++ [Combine ss]) c n) as (p & A & D & M).
  { apply history_app. split; auto. cbn. auto. }
  { rewrite exec_app. exact HDc. }
  rewrite exec_app in A, M. cbn [exec] in A, M. fold w in A, M.
  exists c, p. split; [now rewrite EC|]. split; auto. split.
  { intros (q' & Hq' & _).
    assert (L : (c < List.length (w_seqs w))%nat) by (apply nth_error_Some; congruence).
    assert (K := keeps_combine 0 ss w). rewrite E in K. cbn [fst] in K. unfold c in L. lia. }
  split; auto. split; auto. split.
  - intros ps HF. rewrite M, HC. rewrite (chain_ordered os w n eq_refl H ss ps mid); auto.
    symmetry. apply mmul_1_r.
  - intros s Hs. destruct (HD s Hs) as (qs & Hqs & _). rewrite EC. cbn [fst].
    rewrite <- (content_wrel 0 true w w1 s qs (proj1 HW) R1 Hqs).
    destruct R1 as (_ & _ & R1). destruct (R1 s qs Hqs) as (qs' & Hqs' & _).
    unfold contents. cbn [w_seqs w_heap]. rewrite nth_error_app1 by (apply nth_error_Some; congruence).
    reflexivity.
Qed.

Lemma C17_reject_lemma : forall eps w,
  step eps (Combine []) w = (w, Raise AssertionError) /\
  forall ss s t d e, (forall s, In s ss -> exists d, has_dim w s d) ->
    In s ss -> In t ss -> has_dim w s d -> has_dim w t e -> d <> e ->
    step eps (Combine ss) w = (w, Raise AssertionError).
Proof.
  intros eps w. split; [reflexivity|]. intros ss s t d e Hex Hs Ht (qs & Hqs & <-) (qt & Hqt & <-) Hne.
  cbn [step]. unfold se_bind at 1. unfold combine. unfold se_bind at 1, se_get.
  destruct ss as [|s0 st]; [destruct Hs|].
  destruct (Hex s0) as (d0 & q0 & Hq0 & <-); [simpl; auto|]. rewrite Hq0.
  unfold se_bind at 1, se_assert, se_lift at 1, assert.
  match goal with |- context [forallb ?f (s0 :: st)] => destruct (forallb f (s0 :: st)) eqn:V end; [|reflexivity].
  exfalso. rewrite forallb_forall in V. assert (Vs := V s Hs). assert (Vt := V t Ht).
  cbv beta in Vs, Vt. rewrite Hqs in Vs. rewrite Hqt in Vt. apply Nat.eqb_eq in Vs, Vt. congruence.
Qed.

(** ** inverse *)
Lemma inv_gate_meq g g' : gok 0 true g -> inv_gate 0 true g g' ->
  snd g' = snd g /\ u_dim (fst g') = u_dim (fst g) /\
  meq (u_dim (fst g)) (u_mat (fst g')) (adj (u_mat (fst g))).
Proof.
  intros _ (H1 & _ & H2 & H3). auto.
Qed.

Lemma C18_lemma : forall os s n,
  history 0 (built 0) odd_entries os w_empty ->
  has_dim (exec 0 os w_empty) s (2 ^ n) -> from_array (exec 0 os w_empty) s false ->
  odd_entries (exec 0 os w_empty) s ->
  let w := exec 0 os w_empty in
  let w' := fst (step 0 (Inverse s) w) in
  exists i p q,
    snd (step 0 (Inverse s) w) = Ok (VSequence i) /\ has_dim w' i (2 ^ n) /\ ~ has_dim w i (2 ^ n) /\
    Forall2 (fun g g' => snd g' = snd g /\ u_dim (fst g') = u_dim (fst g) /\
               meq (u_dim (fst g)) (u_mat (fst g')) (adj (u_mat (fst g))))
      (rev (contents w s)) (contents w' i) /\
    answers 0 w s p /\ answers 0 w' i q /\
    meq (2 ^ n) (mmul (2 ^ n) (u_mat q) (u_mat p)) mid /\
    meq (2 ^ n) (u_mat q) (ordered n (contents w' i)) /\
    contents w' s = contents w s.
Proof.
  intros os s n H HD HA HN. cbv zeta. set (w := exec 0 os w_empty) in *.
  assert (HW := exact_winv os H). fold w in HW. set (K := updates os 0) in *.
  destruct HD as (q & Hq & Hd). destruct HA as (q' & Hq' & Ar). rewrite Hq in Hq'. injection Hq' as <-.
  assert (GG := WG_G 0 _ w s q (proj1 HW) Hq).
  destruct (inverse_sat 0 ltac:(lra) ltac:(lra) true n K (w_heap w) q eq_refl GG Hd Ar (HN q Hq) (lim_zero _ _))
    as (h1 & q1 & i & E & Di & Ai & Si & Fi & Ni).
  { apply (proj2 HW s q n Hq Hd (lim_zero _ _)). }
  destruct (on_seq_target s (inverse 0) w q h1 q1 (Ok i) Hq E) as [E1 E2].
  set (ws := list_set (w_seqs w) s q1) in *.
  assert (Lw : List.length ws = List.length (w_seqs w)).
  { unfold ws. apply list_set_length. }
  assert (ES : step 0 (Inverse s) w = ({| w_heap := h1; w_seqs := ws ++ [i] |}, Ok (VSequence (List.length ws)))).
  { cbn [step]. unfold se_bind, add_seq. rewrite E1. reflexivity. }
  set (c := List.length ws) in *.
  assert (Hc : nth_error (ws ++ [i]) c = Some i).
  { rewrite nth_error_app2 by (unfold c; lia). unfold c. now rewrite Nat.sub_diag. }
  assert (HDc : has_dim (fst (step 0 (Inverse s) w)) c (2 ^ n)) by (rewrite ES; exists i; auto).
  assert (HDs : has_dim w s (2 ^ n)) by (exists q; auto).
  destruct (C14_lemma os s n H HDs) as (p & A & D & M).
  destruct (C14_lemma (os ++ [Inverse s]) c n) as (p' & A' & D' & M').
  { apply history_app. split; auto. cbn. auto. }
  { rewrite exec_app. exact HDc. }
  rewrite exec_app in A', M'. cbn [exec] in A', M'. fold w in A, M, A', M'.
  assert (Gs : forall g, In g (rev (contents w s)) -> gok 0 true g /\ placement n (snd g)).
  { intros g Hg. apply in_rev in Hg. rewrite (contents_gates w s q Hq) in Hg.
    apply (part_gates 0 true n K (w_heap w) (s_entries q) (s_product q) (proj1 GG) (proj1 (proj2 GG))); auto.
    apply (proj2 HW s q n Hq Hd (lim_zero _ _)). }
  assert (Ci : contents (fst (step 0 (Inverse s) w)) c = gates h1 (s_entries i)).
  { rewrite ES. unfold contents. cbn [fst w_seqs w_heap]. now rewrite Hc. }
  exists c, p, p'. split; [now rewrite ES|]. split; auto. split.
  { intros (q' & Hq' & _).
    assert (L : (c < List.length (w_seqs w))%nat) by (apply nth_error_Some; congruence). unfold c in L. lia. }
  split.
  { rewrite Ci, (contents_gates w s q Hq).
    rewrite (contents_gates w s q Hq) in Gs. revert Gs Fi. generalize (rev (gates (w_heap w) (s_entries q))).
    generalize (gates h1 (s_entries i)). intros l l' Gs F. induction F; constructor.
    - apply inv_gate_meq; auto. apply Gs. simpl; auto.
    - apply IHF. intros g Hg. apply Gs. simpl; auto. }
  split; auto. split; auto. split.
  { rewrite M', M, Ci, (contents_gates w s q Hq).
    rewrite (contents_gates w s q Hq) in Gs. set (gs := gates (w_heap w) (s_entries q)) in *.
    assert (Gs' : forall g, In g gs -> gok 0 true g /\ placement n (snd g)).
    { intros g Hg. apply Gs. now apply in_rev in Hg. }
    apply Forall2_rev in Fi. rewrite rev_involutive in Fi.
    assert (EI := ordered_inverse 0 true eq_refl n _ _ Gs' Fi).
    rewrite rev_involutive in EI. rewrite EI. apply unitary_left.
    apply (ordered_special n gs). intros g Hg. destruct (Gs' g Hg) as [(_ & _ & _ & ? & Hw) ?]. destruct (Hw eq_refl); auto. }
  split; auto.
  assert (X := step_frame 0 anyg (Inverse s) w (any_allowed 0 _) (W_exec 0 os)).
  destruct X as (_ & X & _ & F). destruct (F s q eq_refl Hq) as (q2 & Hq2 & (_ & _ & E3 & _)).
  rewrite (contents_gates _ s q2 Hq2), (contents_gates w s q Hq), E3. apply gates_ext; auto.
  exact (proj1 (proj2 GG)).
Qed.
