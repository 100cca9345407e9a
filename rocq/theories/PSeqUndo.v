(** undo() and the isolation of sequences, for every clean-up threshold. *)
From Coq Require Import Reals List Arith Lia Lra Bool String ZArith.
From Coquelicot Require Import Complex.
From Verif Require Import Base CMat CMatFacts Det DetFacts ModelUnitary ModelEntry ModelSequence
  Spec SpecModel PUnitary PEntry PSeqHeap PSeqMeth PSeqWorld.
Import ListNotations.
Open Scope R_scope.
Open Scope C_scope.
Open Scope se_scope.

Section Any.
Variable eps : R.

(** All we know of gates here: they act on at least one qubit. *)
Definition anyg (g : unitary * list nat) : Prop := snd g <> [].
Notation W := (WG eps anyg).

Lemma any_allowed o : allowed eps anyg o.
Proof.
  destruct o; simpl; auto.
  - intros e H. unfold anyg, gate. cbn [snd].
    assert (X : exists e, mk_entry u apply_to = Ok e) by eauto. apply mk_entry_iff in X.
    apply mk_entry_fields in H. destruct H as (_ & -> & _). destruct apply_to; [tauto|discriminate].
  - intros u v qs H _. exact H.
Qed.

Lemma W_exec os : W (exec eps os w_empty).
Proof. apply WG_exec. intros o _. apply any_allowed. Qed.

Lemma W_step o w : W w -> W (fst (step eps o w)).
Proof. intros HW. apply step_frame; auto using any_allowed. Qed.

Lemma exec_app os1 os2 w : exec eps (os1 ++ os2) w = exec eps os2 (exec eps os1 w).
Proof. revert w. induction os1 as [|o os IH]; intros w; simpl; auto. Qed.

Lemma entry_valid_fits w d l : W w -> (l < List.length (w_heap w))%nat ->
  (entry_valid d (obj (w_heap w) l) = true <-> fits w d l).
Proof.
  intros HW Hl. destruct (proj1 HW l Hl) as [_ Hne]. unfold anyg, gate in Hne. cbn [snd] in Hne.
  unfold entry_valid, fits. rewrite andb_true_iff, !Nat.leb_le. unfold e_dim, list_maxn. split.
  - intros [H1 H2]. split; [exact H1|]. intros q Hq.
    pose proof (proj1 (list_maxn_ge (e_apply (obj (w_heap w) l)) 0%nat) q Hq) as M.
    eapply Nat.le_trans; [|exact H2]. apply Nat.pow_le_mono_r; [lia|]. lia.
  - intros [F1 F2]. split; [exact F1|].
    destruct (list_maxn_in (e_apply (obj (w_heap w) l)) 0%nat) as [M|M].
    + rewrite M. destruct (e_apply (obj (w_heap w) l)) as [|q t]; [congruence|].
      eapply Nat.le_trans; [|apply (F2 q); simpl; auto]. apply Nat.pow_le_mono_r; lia.
    + apply F2. exact M.
Qed.

Lemma entry_unfit w d l : W w -> (l < List.length (w_heap w))%nat -> ~ fits w d l ->
  entry_valid d (obj (w_heap w) l) = false.
Proof.
  intros HW Hl Hf. destruct (entry_valid d (obj (w_heap w) l)) eqn:E; auto.
  apply entry_valid_fits in E; tauto.
Qed.

(** Contents are gates. *)
Lemma contents_gates w s q : nth_error (w_seqs w) s = Some q -> contents w s = gates (w_heap w) (s_entries q).
Proof. intros H. unfold contents. now rewrite H. Qed.

Lemma list_set_same {A} (l : list A) i x : nth_error l i = Some x -> list_set l i x = l.
Proof. revert i; induction l as [|y l IH]; intros [|i] H; simpl in *; try congruence. f_equal. auto. Qed.

(** The state of the target after a mutating call. *)
Lemma on_seq_target {A} s (m : meth A) w q h' q' r :
  nth_error (w_seqs w) s = Some q -> m (w_heap w, q) = ((h', q'), r) ->
  on_seq s m w = ({| w_heap := h'; w_seqs := list_set (w_seqs w) s q' |}, r) /\
  nth_error (list_set (w_seqs w) s q') s = Some q'.
Proof.
  intros Es E. unfold on_seq. rewrite Es, E. split; auto.
  rewrite (nth_error_list_set _ _ _ _ _ Es). now rewrite Nat.eqb_refl.
Qed.

Lemma world_eta w : {| w_heap := w_heap w; w_seqs := w_seqs w |} = w.
Proof. destruct w; reflexivity. Qed.

(** A call that raises before doing anything, or does nothing. *)
Lemma on_seq_nop {A} s (m : meth A) w q r :
  nth_error (w_seqs w) s = Some q -> m (w_heap w, q) = ((w_heap w, q), r) -> on_seq s m w = (w, r).
Proof.
  intros Es E. unfold on_seq. rewrite Es, E. rewrite (list_set_same _ _ _ Es). now rewrite world_eta.
Qed.

Definition prev_same (q q' : sequence) : Prop :=
  s_prev_entries q' = s_prev_entries q /\ s_prev_product q' = s_prev_product q.

Lemma quiet_step w s o q :
  W w -> quiet w s o -> nth_error (w_seqs w) s = Some q ->
  exists q', nth_error (w_seqs (fst (step eps o w))) s = Some q' /\ prev_same q q'.
Proof.
  intros HW HQ Hq.
  destruct (mutates o s) eqn:Hm.
  2:{ destruct (step_frame eps anyg o w (any_allowed o) HW) as (_ & _ & _ & F).
      destruct (F s q Hm Hq) as (q' & H1 & H2). exists q'. split; auto.
      split; apply H2. }
  assert (HG := WG_G eps anyg w s q HW Hq).
  assert (Nul : exists q', nth_error (w_seqs w) s = Some q' /\ prev_same q q')
    by (exists q; split; [auto|split; auto]).
  destruct o; simpl in Hm; try discriminate Hm; apply Nat.eqb_eq in Hm; subst s0; cbn [quiet] in HQ.
  - assert (Es : save_undo = false) by tauto. subst. rewrite step_append_first.
    destruct (Nat.ltb_spec l (List.length (w_heap w))) as [L|L]; [|exact Nul].
    rewrite (proj1 (se_bind_ret _ _ _)).
    destruct (entry_valid (s_dim q) (obj (w_heap w) l)) eqn:V.
    + destruct (mutate_frame eps anyg l false (fun ls => l :: ls) (upd_first eps) _ q HG L)
        as (h' & q' & r & E & _ & _ & _ & _ & _ & N & _).
      { intros ls x [->|H]; auto. }
      destruct (on_seq_target s (append_first eps l false) w q h' q' r Hq) as [E1 E2].
      { now rewrite append_first_eq, V. }
      rewrite E1. exists q'. split; auto. apply N; auto.
    + rewrite (on_seq_nop s (append_first eps l false) w q (Raise AssertionError) Hq); auto.
      now rewrite append_first_eq, V.
  - assert (Es : save_undo = false) by tauto. subst. rewrite step_append_last.
    destruct (Nat.ltb_spec l (List.length (w_heap w))) as [L|L]; [|exact Nul].
    rewrite (proj1 (se_bind_ret _ _ _)).
    destruct (entry_valid (s_dim q) (obj (w_heap w) l)) eqn:V.
    + destruct (mutate_frame eps anyg l false (fun ls => ls ++ [l]) (upd_last eps) _ q HG L)
        as (h' & q' & r & E & _ & _ & _ & _ & _ & N & _).
      { intros ls x H. apply in_app_or in H. destruct H as [H|[->|[]]]; auto. }
      destruct (on_seq_target s (append_last eps l false) w q h' q' r Hq) as [E1 E2].
      { now rewrite append_last_eq, V. }
      rewrite E1. exists q'. split; auto. apply N; auto.
    + rewrite (on_seq_nop s (append_last eps l false) w q (Raise AssertionError) Hq); auto.
      now rewrite append_last_eq, V.
  - cbn [step]. rewrite (proj1 (se_bind_ret _ _ _)).
    destruct (s_entries q) as [|l t] eqn:El.
    + rewrite (on_seq_nop s (remove_first eps save_undo) w q (Ok tt) Hq); auto.
      now rewrite remove_first_eq, El.
    + assert (Es : save_undo = false).
      { destruct HQ as [HQ|[HQ|HQ]]; [tauto|auto|]. rewrite (contents_gates w s q Hq), El in HQ. discriminate. }
      subst. destruct (mutate_frame eps anyg l false (@tl nat) (upd_unfirst eps) _ q HG)
        as (h' & q' & r & E & _ & _ & _ & _ & _ & N & _).
      { apply (proj1 (proj2 HG)). rewrite El. simpl; auto. }
      { intros ls x H. right. now apply in_tl. }
      destruct (on_seq_target s (remove_first eps false) w q h' q' r Hq) as [E1 E2].
      { now rewrite remove_first_eq, El. }
      rewrite E1. exists q'. split; auto. apply N; auto.
  - cbn [step]. rewrite (proj1 (se_bind_ret _ _ _)).
    destruct (rev (s_entries q)) as [|l t] eqn:El.
    + rewrite (on_seq_nop s (remove_last eps save_undo) w q (Ok tt) Hq); auto.
      now rewrite remove_last_eq, El.
    + assert (Es : save_undo = false).
      { destruct HQ as [HQ|[HQ|HQ]]; [tauto|auto|]. rewrite (contents_gates w s q Hq) in HQ.
        destruct (s_entries q); discriminate. }
      subst. destruct (mutate_frame eps anyg l false (@removelast nat) (upd_unlast eps) _ q HG)
        as (h' & q' & r & E & _ & _ & _ & _ & _ & N & _).
      { apply (proj1 (proj2 HG)). apply in_rev. rewrite El. simpl; auto. }
      { intros ls x H. right. now apply in_removelast. }
      destruct (on_seq_target s (remove_last eps false) w q h' q' r Hq) as [E1 E2].
      { now rewrite remove_last_eq, El. }
      rewrite E1. exists q'. split; auto. apply N; auto.
  - tauto.
Qed.

Lemma step_ext o w : W w -> heap_ext (w_heap w) (w_heap (fst (step eps o w))).
Proof. intros HW. apply (step_frame eps anyg o w (any_allowed o) HW). Qed.

Lemma quiet_exec s os : forall w q,
  W w -> quiet_history eps s os w -> nth_error (w_seqs w) s = Some q ->
  W (exec eps os w) /\ heap_ext (w_heap w) (w_heap (exec eps os w)) /\
  exists q', nth_error (w_seqs (exec eps os w)) s = Some q' /\ prev_same q q'.
Proof.
  induction os as [|o os IH]; intros w q HW HQ Hq; cbn [exec quiet_history] in *.
  - split; auto. split; [apply heap_ext_refl|]. exists q. split; auto. split; auto.
  - destruct HQ as [Q1 Q2]. destruct (quiet_step w s o q HW Q1 Hq) as (q1 & Hq1 & P1).
    destruct (IH _ q1 (W_step o w HW) Q2 Hq1) as (W2 & X2 & q2 & Hq2 & P2).
    split; auto. split; [eapply heap_ext_trans; [|exact X2]; now apply step_ext|].
    exists q2. split; auto. unfold prev_same in *. intuition congruence.
Qed.

(** Taking the snapshot. *)
Lemma saves_step w s o :
  W w -> saves w s o ->
  exists q' ls, nth_error (w_seqs (fst (step eps o w))) s = Some q' /\
    s_prev_entries q' = Some ls /\ gates (w_heap (fst (step eps o w))) ls = contents w s.
Proof.
  intros HW HS.
  destruct o; cbn [saves] in HS; try (destruct HS; fail).
  - destruct HS as (-> & -> & L & d & (q & Hq & <-) & V). apply entry_valid_fits in V; auto. assert (HG := WG_G eps anyg w s q HW Hq).
    rewrite step_append_first. replace (Nat.ltb l (List.length (w_heap w))) with true by (symmetry; now apply Nat.ltb_lt).
    rewrite (proj1 (se_bind_ret _ _ _)).
    destruct (mutate_frame eps anyg l true (fun ls => l :: ls) (upd_first eps) _ q HG L)
      as (h' & q' & r & E & _ & _ & _ & _ & N & _).
    { intros ls x [->|H]; auto. }
    destruct (on_seq_target s (append_first eps l true) w q h' q' r Hq) as [E1 E2].
    { now rewrite append_first_eq, V. }
    rewrite E1, (contents_gates w s q Hq). destruct (N eq_refl) as (ls & N1 & N2). exists q', ls. auto.
  - destruct HS as (-> & -> & L & d & (q & Hq & <-) & V). apply entry_valid_fits in V; auto. assert (HG := WG_G eps anyg w s q HW Hq).
    rewrite step_append_last. replace (Nat.ltb l (List.length (w_heap w))) with true by (symmetry; now apply Nat.ltb_lt).
    rewrite (proj1 (se_bind_ret _ _ _)).
    destruct (mutate_frame eps anyg l true (fun ls => ls ++ [l]) (upd_last eps) _ q HG L)
      as (h' & q' & r & E & _ & _ & _ & _ & N & _).
    { intros ls x H. apply in_app_or in H. destruct H as [H|[->|[]]]; auto. }
    destruct (on_seq_target s (append_last eps l true) w q h' q' r Hq) as [E1 E2].
    { now rewrite append_last_eq, V. }
    rewrite E1, (contents_gates w s q Hq). destruct (N eq_refl) as (ls & N1 & N2). exists q', ls. auto.
  - destruct HS as (-> & -> & Hne). cbn [step]. rewrite (proj1 (se_bind_ret _ _ _)).
    destruct (nth_error (w_seqs w) s) as [q|] eqn:Hq.
    2:{ unfold contents in Hne. rewrite Hq in Hne. congruence. }
    assert (HG := WG_G eps anyg w s q HW Hq). rewrite (contents_gates w s q Hq) in *.
    destruct (s_entries q) as [|l t] eqn:El; [simpl in Hne; congruence|].
    destruct (mutate_frame eps anyg l true (@tl nat) (upd_unfirst eps) _ q HG)
      as (h' & q' & r & E & _ & _ & _ & _ & N & _).
    { apply (proj1 (proj2 HG)). rewrite El. simpl; auto. }
    { intros ls x H. right. now apply in_tl. }
    destruct (on_seq_target s (remove_first eps true) w q h' q' r Hq) as [E1 E2].
    { now rewrite remove_first_eq, El. }
    rewrite E1. destruct (N eq_refl) as (ls & N1 & N2). rewrite El in N2. exists q', ls. auto.
  - destruct HS as (-> & -> & Hne). cbn [step]. rewrite (proj1 (se_bind_ret _ _ _)).
    destruct (nth_error (w_seqs w) s) as [q|] eqn:Hq.
    2:{ unfold contents in Hne. rewrite Hq in Hne. congruence. }
    assert (HG := WG_G eps anyg w s q HW Hq). rewrite (contents_gates w s q Hq) in *.
    destruct (rev (s_entries q)) as [|l t] eqn:El.
    { destruct (s_entries q) as [|x y]; [simpl in Hne; congruence|]. simpl in El. destruct (rev y); discriminate. }
    destruct (mutate_frame eps anyg l true (@removelast nat) (upd_unlast eps) _ q HG)
      as (h' & q' & r & E & _ & _ & _ & _ & N & _).
    { apply (proj1 (proj2 HG)). apply in_rev. rewrite El. simpl; auto. }
    { intros ls x H. right. now apply in_removelast. }
    destruct (on_seq_target s (remove_last eps true) w q h' q' r Hq) as [E1 E2].
    { now rewrite remove_last_eq, El. }
    rewrite E1. destruct (N eq_refl) as (ls & N1 & N2). exists q', ls. auto.
Qed.

(** Using it up. *)
Lemma undo_some w s q ls : nth_error (w_seqs w) s = Some q -> s_prev_entries q = Some ls ->
  exists q', step eps (Undo s) w = ({| w_heap := w_heap w; w_seqs := list_set (w_seqs w) s q' |}, Ok VNone) /\
    nth_error (list_set (w_seqs w) s q') s = Some q' /\
    s_entries q' = ls /\ s_prev_entries q' = None /\ s_prev_product q' = None /\
    s_product q' = s_prev_product q.
Proof.
  intros Hq Hp.
  assert (E : undo (w_heap w, q) = ((w_heap w, {| s_dim := s_dim q; s_array := s_array q; s_entries := ls;
                         s_product := s_prev_product q; s_prev_entries := None;
                         s_prev_product := None |}), Ok tt)).
  { unfold undo, se_bind, m_self, m_upd. cbn [snd fst]. now rewrite Hp. }
  destruct (on_seq_target s undo w q _ _ _ Hq E) as [E1 E2].
  eexists. split; [|split; [exact E2|]]; [|auto].
  cbn [step]. unfold se_bind. rewrite E1. reflexivity.
Qed.

Lemma undo_none w s q : nth_error (w_seqs w) s = Some q -> s_prev_entries q = None ->
  step eps (Undo s) w = (w, Raise AssertionError).
Proof.
  intros Hq Hp. cbn [step]. unfold se_bind at 1.
  rewrite (on_seq_nop s undo w q (Raise AssertionError) Hq); auto.
  unfold undo, se_bind, m_self, se_raise. cbn [snd fst]. now rewrite Hp.
Qed.
End Any.

(** ** The statements *)
Lemma C16_undo_lemma : forall eps os o os' s,
  saves (exec eps os w_empty) s o ->
  quiet_history eps s os' (fst (step eps o (exec eps os w_empty))) ->
  let w0 := exec eps os w_empty in
  let w1 := exec eps (os ++ o :: os') w_empty in
  let w2 := fst (step eps (Undo s) w1) in
  snd (step eps (Undo s) w1) = Ok VNone /\ contents w2 s = contents w0 s.
Proof.
  intros eps os o os' s HS HQ. cbv zeta. rewrite exec_app. cbn [exec].
  set (w0 := exec eps os w_empty) in *. assert (W0 : WG eps anyg w0) by apply W_exec.
  destruct (saves_step eps w0 s o W0 HS) as (q1 & ls & Hq1 & Hp1 & Hg1).
  set (w1 := fst (step eps o w0)) in *. assert (W1 : WG eps anyg w1) by now apply W_step.
  destruct (quiet_exec eps s os' w1 q1 W1 HQ Hq1) as (W2 & X2 & q2 & Hq2 & P2 & _).
  set (w2 := exec eps os' w1) in *. rewrite Hp1 in P2.
  destruct (undo_some eps w2 s q2 ls Hq2 P2) as (q3 & E & Hq3 & L3 & _). rewrite E. cbn [fst snd].
  split; auto. unfold contents at 1. cbn [w_seqs w_heap]. rewrite Hq3, L3.
  rewrite <- Hg1. change (gates (w_heap w2) ls = gates (w_heap w1) ls). apply gates_ext; auto.
  apply (proj2 W1 s q1 Hq1). auto.
Qed.

Lemma C16_once_lemma : forall eps os os' s,
  snd (step eps (Undo s) (exec eps os w_empty)) = Ok VNone ->
  quiet_history eps s os' (fst (step eps (Undo s) (exec eps os w_empty))) ->
  let w := exec eps (os ++ Undo s :: os') w_empty in
  step eps (Undo s) w = (w, Raise AssertionError).
Proof.
  intros eps os os' s HU HQ. cbv zeta. rewrite exec_app. cbn [exec].
  set (w0 := exec eps os w_empty) in *. assert (W0 : WG eps anyg w0) by apply W_exec.
  destruct (nth_error (w_seqs w0) s) as [q0|] eqn:Hq0.
  2:{ exfalso. revert HU. cbn [step]. unfold se_bind, on_seq. rewrite Hq0. discriminate. }
  destruct (s_prev_entries q0) as [ls|] eqn:Hp0.
  2:{ rewrite (undo_none eps w0 s q0 Hq0 Hp0) in HU. discriminate. }
  destruct (undo_some eps w0 s q0 ls Hq0 Hp0) as (q1 & E & Hq1 & _ & Hp1 & _).
  assert (W1 := W_step eps (Undo s) w0 W0).
  assert (Hq1' : nth_error (w_seqs (fst (step eps (Undo s) w0))) s = Some q1) by (rewrite E; exact Hq1).
  destruct (quiet_exec eps s os' _ q1 W1 HQ Hq1') as (W2 & X2 & q2 & Hq2 & P2 & _).
  apply (undo_none eps _ s q2 Hq2). congruence.
Qed.

(** A new sequence has no snapshot. *)
Lemma C16_new_lemma : forall eps os d a ls os' s,
  snd (step eps (NewSequence d a ls) (exec eps os w_empty)) = Ok (VSequence s) ->
  quiet_history eps s os' (fst (step eps (NewSequence d a ls) (exec eps os w_empty))) ->
  let w := exec eps (os ++ NewSequence d a ls :: os') w_empty in
  step eps (Undo s) w = (w, Raise AssertionError).
Proof.
  intros eps os d a ls os' s HU HQ. cbv zeta. rewrite exec_app. cbn [exec].
  set (w0 := exec eps os w_empty) in *. assert (W0 : WG eps anyg w0) by apply W_exec.
  assert (W1 := W_step eps (NewSequence d a ls) w0 W0).
  assert (H : exists q, nth_error (w_seqs (fst (step eps (NewSequence d a ls) w0))) s = Some q /\
                        s_prev_entries q = None).
  { revert HU. cbn [step]. unfold se_bind, se_get, on_heap.
    destruct (forallb (fun l => Nat.ltb l (List.length (w_heap w0))) ls); [|discriminate].
    unfold new_sequence. destruct (forallb (fun l => entry_valid d (obj (w_heap w0) l)) ls); [|discriminate].
    destruct (deepcopy (w_heap w0) ls) as [h' ls']. unfold add_seq. cbn [fst snd w_seqs w_heap].
    intros [= <-]. eexists. split; [rewrite nth_error_app2, Nat.sub_diag by lia; reflexivity|reflexivity]. }
  destruct H as (q & Hq & Hp).
  destruct (quiet_exec eps s os' _ q W1 HQ Hq) as (W2 & X2 & q2 & Hq2 & P2 & _).
  apply (undo_none eps _ s q2 Hq2). congruence.
Qed.

Lemma answers_iff eps w s q p : WG eps anyg w -> nth_error (w_seqs w) s = Some q ->
  (answers eps w s p <-> reported eps (w_heap w) q = Ok p).
Proof.
  intros HW Hq. unfold answers. rewrite (step_product eps anyg w s q HW Hq).
  destruct (reported eps (w_heap w) q) as [p'|x].
  - split; intros H; injection H as ->; auto.
  - split; discriminate.
Qed.

Lemma C20_lemma : forall eps os os' t d,
  has_dim (exec eps os w_empty) t d ->
  (forall o, In o os' -> mutates o t = false) ->
  let w := exec eps os w_empty in
  let w' := exec eps (os ++ os') w_empty in
  has_dim w' t d /\ contents w' t = contents w t /\
  forall p, answers eps w' t p <-> answers eps w t p.
Proof.
  intros eps os os' t d (q & Hq & Hd) Hm. cbv zeta. rewrite exec_app.
  set (w := exec eps os w_empty) in *. assert (W0 : WG eps anyg w) by apply W_exec.
  destruct (exec_frame eps anyg os' (fun o _ => any_allowed eps o) w W0) as (W1 & X & _ & F).
  destruct (F t q Hm Hq) as (q' & Hq' & (D & A & E & _ & _ & R & _)).
  split; [exists q'; split; congruence|]. split.
  - rewrite (contents_gates _ t q' Hq'), (contents_gates w t q Hq), E. apply gates_ext; auto.
    exact (proj1 (proj2 W0 t q Hq)).
  - intros p. rewrite (answers_iff eps _ t q' p W1 Hq'), (answers_iff eps w t q p W0 Hq). now rewrite R.
Qed.


Lemma C21_lemma : forall eps os s d l sv,
  has_dim (exec eps os w_empty) s d -> (l < List.length (w_heap (exec eps os w_empty)))%nat ->
  ~ fits (exec eps os w_empty) d l ->
  let w := exec eps os w_empty in
  step eps (AppendFirst s l sv) w = (w, Raise AssertionError) /\
  step eps (AppendLast s l sv) w = (w, Raise AssertionError).
Proof.
  intros eps os s d l sv (q & Hq & <-) Hl Hf. cbv zeta. set (w := exec eps os w_empty) in *.
  assert (V := entry_unfit eps w (s_dim q) l (W_exec eps os) Hl Hf).
  rewrite step_append_first, step_append_last.
  replace (Nat.ltb l (List.length (w_heap w))) with true by (symmetry; now apply Nat.ltb_lt).
  split; unfold se_bind at 1.
  - rewrite (on_seq_nop s (append_first eps l sv) w q (Raise AssertionError) Hq); auto.
    now rewrite append_first_eq, V.
  - rewrite (on_seq_nop s (append_last eps l sv) w q (Raise AssertionError) Hq); auto.
    now rewrite append_last_eq, V.
Qed.

Lemma C21_new_lemma : forall eps os d ia ls,
  (forall l, In l ls -> (l < List.length (w_heap (exec eps os w_empty)))%nat) ->
  (exists l, In l ls /\ ~ fits (exec eps os w_empty) d l) ->
  let w := exec eps os w_empty in
  step eps (NewSequence d ia ls) w = (w, Raise AssertionError).
Proof.
  intros eps os d ia ls Hl (l & Hin & Hf). cbv zeta. set (w := exec eps os w_empty) in *.
  cbn [step]. unfold se_bind at 1, se_get.
  replace (forallb (fun l => Nat.ltb l (List.length (w_heap w))) ls) with true.
  2:{ symmetry. apply forallb_forall. intros x Hx. apply Nat.ltb_lt. auto. }
  unfold se_bind, on_heap, new_sequence.
  replace (forallb (fun l => entry_valid d (obj (w_heap w) l)) ls) with false.
  { now rewrite world_eta. }
  symmetry. apply Bool.not_true_iff_false. rewrite forallb_forall. intros H.
  apply Hf. apply (entry_valid_fits eps w d l (W_exec eps os)); auto.
Qed.

(** An array-built sequence. *)
Lemma mutate_array_frame eps l sv f upd h q :
  G eps anyg h q -> s_array q = true ->
  exists h' q' x, mutate eps l sv f upd (h, q) = ((h', q'), Raise x) /\
    heap_ext h h' /\ s_entries q' = s_entries q /\ s_product q' = s_product q /\ s_dim q' = s_dim q /\
    (sv = false \/ s_product q = None -> x = AttributeError).
Proof.
  intros HG Ha. unfold mutate. unfold se_bind at 1. destruct sv; cbn [m_save].
  - destruct (save_spec eps anyg h q HG) as (h' & ls & X & _ & _ & _ & _ & E). rewrite E.
    destruct (s_product q) as [p|] eqn:Ep.
    + destruct (rewrap eps p) as [p'|x].
      * unfold se_bind at 1. unfold m_change_list. unfold se_bind at 1. cbn [m_self snd].
        cbn [set_prev_product set_prev_entries s_array]. rewrite Ha.
        eexists _, _, _. split; [reflexivity|]. split; auto.
      * eexists _, _, _. split; [reflexivity|]. split; auto. repeat split; auto. intros [|]; discriminate.
    + unfold se_bind at 1. unfold m_change_list. unfold se_bind at 1. cbn [m_self snd].
      cbn [set_prev_product set_prev_entries s_array]. rewrite Ha.
      eexists _, _, _. split; [reflexivity|]. split; auto.
  - unfold se_ret at 1. unfold se_bind at 1. unfold m_change_list. unfold se_bind at 1. cbn [m_self snd].
    rewrite Ha. eexists _, _, _. split; [reflexivity|]. split; [apply heap_ext_refl|auto].
Qed.

Lemma effective_mutate eps w s o q : WG eps anyg w -> nth_error (w_seqs w) s = Some q -> effective w s o ->
  exists l sv f upd, step eps o w = se_bind (on_seq s (mutate eps l sv f upd)) (fun _ => se_ret VNone) w /\
    (l < List.length (w_heap w))%nat /\
    (forall ls x, In x (f ls) -> x = l \/ In x ls) /\
    sv = match o with AppendFirst _ _ b | AppendLast _ _ b | RemoveFirst _ b | RemoveLast _ b => b | _ => false end.
Proof.
  intros HW Hq HE.
  assert (Hon : forall (m m' : meth unit), m (w_heap w, q) = m' (w_heap w, q) ->
     se_bind (on_seq s m) (fun _ => se_ret VNone) w = se_bind (on_seq s m') (fun _ => se_ret VNone) w).
  { intros m m' E. unfold se_bind, on_seq. now rewrite Hq, E. }
  destruct o; cbn [effective] in HE; try (destruct HE; fail).
  - destruct HE as (-> & L & d & (q' & Hq' & <-) & V). rewrite Hq in Hq'. injection Hq' as <-.
    apply (entry_valid_fits eps) in V; auto.
    exists l, save_undo, (fun ls => l :: ls), (upd_first eps). rewrite step_append_first.
    replace (Nat.ltb l (List.length (w_heap w))) with true by (symmetry; now apply Nat.ltb_lt).
    split; [|repeat split; auto; intros ls x [->|H]; auto]. apply Hon. now rewrite append_first_eq, V.
  - destruct HE as (-> & L & d & (q' & Hq' & <-) & V). rewrite Hq in Hq'. injection Hq' as <-.
    apply (entry_valid_fits eps) in V; auto.
    exists l, save_undo, (fun ls => ls ++ [l]), (upd_last eps). rewrite step_append_last.
    replace (Nat.ltb l (List.length (w_heap w))) with true by (symmetry; now apply Nat.ltb_lt).
    split; [|repeat split; auto; intros ls x H; apply in_app_or in H; destruct H as [H|[->|[]]]; auto].
    apply Hon. now rewrite append_last_eq, V.
  - destruct HE as (-> & Hne). rewrite (contents_gates w s q Hq) in Hne.
    destruct (s_entries q) as [|l t] eqn:El; [simpl in Hne; congruence|].
    exists l, save_undo, (@tl nat), (upd_unfirst eps). cbn [step].
    split; [apply Hon; now rewrite remove_first_eq, El|].
    split; [apply (proj2 HW s q Hq); rewrite El; simpl; auto|].
    split; auto. intros ls x H. right. now apply in_tl.
  - destruct HE as (-> & Hne). rewrite (contents_gates w s q Hq) in Hne.
    destruct (rev (s_entries q)) as [|l t] eqn:El.
    { destruct (s_entries q) as [|x y]; [simpl in Hne; congruence|]. simpl in El. destruct (rev y); discriminate. }
    exists l, save_undo, (@removelast nat), (upd_unlast eps). cbn [step].
    split; [apply Hon; now rewrite remove_last_eq, El|].
    split; [apply (proj2 HW s q Hq); apply in_rev; rewrite El; simpl; auto|].
    split; auto. intros ls x H. right. now apply in_removelast.
Qed.

Lemma C23_lemma : forall eps os s o,
  from_array (exec eps os w_empty) s true -> effective (exec eps os w_empty) s o ->
  let w := exec eps os w_empty in
  let w' := fst (step eps o w) in
  (exists x, snd (step eps o w) = Raise x) /\
  contents w' s = contents w s /\ forall p, answers eps w' s p <-> answers eps w s p.
Proof.
  intros eps os s o (q & Hq & Ha) HE. cbv zeta. set (w := exec eps os w_empty) in *.
  assert (W0 : WG eps anyg w) by apply W_exec. assert (W1 := W_step eps o w W0).
  destruct (effective_mutate eps w s o q W0 Hq HE) as (l & sv & f & upd & E & L & Hf & _).
  destruct (mutate_array_frame eps l sv f upd (w_heap w) q (WG_G eps anyg w s q W0 Hq) Ha)
    as (h' & q' & x & Em & X & He & Hp & Hd & _).
  destruct (on_seq_target s _ w q h' q' _ Hq Em) as [E1 E2].
  rewrite E in *. unfold se_bind in *. rewrite E1 in *. cbn [fst snd] in *.
  split; [eauto|]. split.
  - unfold contents. cbn [w_seqs w_heap]. rewrite E2, Hq, He. apply (gates_ext (w_heap w) h'); auto.
    exact (proj1 (proj2 W0 s q Hq)).
  - intros p. rewrite (answers_iff eps _ s q' p W1 E2), (answers_iff eps w s q p W0 Hq).
    cbn [w_heap]. unfold reported. rewrite Hp, He, Hd. destruct (s_product q); [tauto|].
    rewrite (gates_ext (w_heap w) h' _ X); [tauto|]. exact (proj1 (proj2 W0 s q Hq)).
Qed.

