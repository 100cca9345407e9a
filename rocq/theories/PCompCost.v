(** The recorded costs and the stored product, for every clean-up threshold. *)
From Coq Require Import Reals List Arith Lia Lra Bool String ZArith.
From Coquelicot Require Import Rcomplements Complex.
From Verif Require Import Base CMat CMatFacts Det DetFacts Norms ModelUnitary ModelEntry ModelPrimitive
  ModelSequence ModelCompiler Spec SpecModel SpecCompiler PUnitary PEntry PSeqHeap PSeqMeth PSeqWorld
  PSeqUndo PCompView PCompRun PCompEntry PCompLoop PCompTrace PCompProps PCompMore PSeqNear PSeqHist PCompTotal PHamRun PCompCases PCompEx.
Import ListNotations.
Open Scope R_scope.
Open Scope C_scope.
Open Scope se_scope.

Section Cost.
Variables (g : rng) (eps : R).
Hypothesis G : rng_ok g.

(** What the constructor makes of the matrix of [P]. *)
Notation rewraps P p := (mk_unitary eps (u_dim P) (Some (square (u_dim P) (u_mat P))) None [] false [] = Ok p).

(** The stored product is [P]; a copy of [P] is saved. *)
Definition kept (s : nat) (P : unitary) (w : world) : Prop :=
  exists q, nth_error (w_seqs w) s = Some q /\ s_product q = Some P.
Definition saved (s : nat) (P : unitary) (w : world) : Prop :=
  exists q P' P1, nth_error (w_seqs w) s = Some q /\ s_product q = Some P1 /\
    s_prev_product q = Some P' /\ rewraps P P'.

Lemma kept_answers s P w : kept s P w -> answers eps w s P.
Proof.
  intros (q & Hq & HP). unfold answers. cbn [step]. unfold se_bind, on_seq, product, m_self, se_bind.
  rewrite Hq. cbn [snd fst]. rewrite HP. reflexivity.
Qed.

Lemma product_kept s w w' P : step eps (Product s) w = (w', Ok (VUnitary P)) -> kept s P w'.
Proof.
  cbn [step]. intros H. apply bind_ok in H. destruct H as (u & w1 & H1 & H). apply ret_ok in H. destruct H as [-> H].
  injection H as <-. unfold on_seq in H1. destruct (nth_error (w_seqs w) s) as [q|] eqn:Hq; [|discriminate].
  destruct (product eps (w_heap w, q)) as [[h' q'] r] eqn:E. injection H1 as <- ->.
  exists q'. split; [cbn [w_seqs]; rewrite (nth_error_list_set _ _ _ _ _ Hq), Nat.eqb_refl; reflexivity|].
  unfold product in E. apply bind_ok in E. destruct E as (q0 & st0 & E0 & E). unfold m_self in E0. injection E0 as <- <-.
  cbn [snd] in E. destruct (s_product q) as [p|] eqn:EP.
  - apply ret_ok in E. destruct E as [E ->]. injection E as _ ->. exact EP.
  - apply bind_ok in E. destruct E as (p0 & st1 & _ & E). apply bind_ok in E. destruct E as (p & st2 & _ & E).
    apply bind_ok in E. destruct E as (t & st3 & E3 & E). unfold m_upd in E3. injection E3 as <- _.
    apply ret_ok in E. destruct E as [E ->]. injection E as _ ->. reflexivity.
Qed.

Lemma mutate_slots l sv f upd h q h' q' P : mutate eps l sv f upd (h, q) = ((h', q'), Ok tt) -> s_product q = Some P ->
  (exists P1, s_product q' = Some P1) /\
  (if sv then exists P', s_prev_product q' = Some P' /\ rewraps P P' else s_prev_product q' = s_prev_product q).
Proof.
  intros H HP. unfold mutate in H. apply bind_ok in H. destruct H as (t & [h1 q1] & H1 & H). destruct t.
  assert (S1 : s_product q1 = Some P /\
    (if sv then exists P', s_prev_product q1 = Some P' /\ rewraps P P' else s_prev_product q1 = s_prev_product q)).
  { unfold m_save in H1. destruct sv.
    - unfold save_undo_state in H1. apply bind_ok in H1. destruct H1 as (q0 & st0 & E0 & H1). unfold m_self in E0. injection E0 as <- <-.
      apply bind_ok in H1. destruct H1 as (ls & [h2 q2] & E2 & H1).
      assert (q2 = q) by (unfold m_heap, h_deepcopy in E2; cbn [fst snd] in E2; destruct (deepcopy h (s_entries q)); now injection E2).
      subst q2. apply bind_ok in H1. destruct H1 as (t & st3 & E3 & H1). unfold m_upd in E3. injection E3 as <- _.
      cbn [snd fst] in H1. rewrite HP in H1. apply bind_ok in H1. destruct H1 as (P' & st4 & E4 & H1).
      apply lift_ok in E4. destruct E4 as [-> E4]. unfold m_upd in H1. injection H1 as _ <-. cbn [snd set_prev_product set_prev_entries s_product s_prev_product].
      split; auto. exists P'. auto.
    - apply ret_ok in H1. destruct H1 as [H1 _]. injection H1 as -> ->. auto. }
  clear H1. destruct S1 as [S1 S2]. apply bind_ok in H. destruct H as (t & [h2 q2] & H2 & H). destruct t.
  assert (S3 : s_product q2 = s_product q1 /\ s_prev_product q2 = s_prev_product q1).
  { unfold m_change_list in H2. apply bind_ok in H2. destruct H2 as (q0 & st0 & E0 & H2). unfold m_self in E0. injection E0 as <- <-.
    cbn [snd] in H2. destruct (s_array q1); [discriminate|]. unfold m_upd in H2. injection H2 as _ <-. auto. }
  destruct S3 as [S3 S4]. rewrite S1 in S3. rewrite <- S4 in S2. clear H2 S4 S1 HP.
  apply bind_ok in H. destruct H as (q0 & st0 & E0 & H). unfold m_self in E0. injection E0 as <- <-. cbn [snd] in H. rewrite S3 in H.
  apply bind_ok in H. destruct H as (u & [h3 q3] & E3 & H).
  assert (q3 = q2) by (unfold m_heap in E3; cbn [fst snd] in E3; destruct (h_full eps l (s_dim q2) h2); now injection E3).
  subst q3. apply bind_ok in H. destruct H as (p' & st4 & E4 & H). apply lift_ok in E4. destruct E4 as [-> E4].
  unfold m_upd in H. injection H as _ <-. cbn [snd set_product s_product s_prev_product]. split; [eauto|exact S2].
Qed.

(** One call on the sequence. *)
Inductive change_op (s : nat) : bool -> op -> Prop :=
| co_first l sv : change_op s sv (AppendFirst s l sv)
| co_last l sv : change_op s sv (AppendLast s l sv)
| co_unfirst sv : change_op s sv (RemoveFirst s sv)
| co_unlast sv : change_op s sv (RemoveLast s sv).

Definition empty_at (s : nat) (w : world) : Prop :=
  exists q, nth_error (w_seqs w) s = Some q /\ s_entries q = [].

Lemma change_op_mutate s sv o w w' v : change_op s sv o -> step eps o w = (w', Ok v) ->
  (w' = w /\ empty_at s w /\ forall l, o <> AppendFirst s l sv /\ o <> AppendLast s l sv) \/
  exists q h' q' l f upd, nth_error (w_seqs w) s = Some q /\ mutate eps l sv f upd (w_heap w, q) = ((h', q'), Ok tt) /\
    nth_error (w_seqs w') s = Some q'.
Proof.
  assert (X : forall (m : meth unit) (w w' : world) v, se_bind (on_seq s m) (fun _ => se_ret VNone) w = (w', Ok v) ->
    exists q h' q', nth_error (w_seqs w) s = Some q /\ m (w_heap w, q) = ((h', q'), Ok tt) /\
      nth_error (w_seqs w') s = Some q' /\ w_heap w' = h' /\ w_seqs w' = list_set (w_seqs w) s q').
  { clear. intros m w w' v H. apply bind_ok in H. destruct H as (t & w1 & H1 & H). apply ret_ok in H. destruct H as [-> _]. destruct t.
    unfold on_seq in H1. destruct (nth_error (w_seqs w) s) as [q|] eqn:Hq; [|discriminate].
    destruct (m (w_heap w, q)) as [[h' q'] r] eqn:E. injection H1 as <- ->. exists q, h', q'. cbn [w_seqs w_heap].
    split; auto. split; auto. split; [now rewrite (nth_error_list_set _ _ _ _ _ Hq), Nat.eqb_refl|auto]. }
  assert (Y : forall w w' : world, forall q, nth_error (w_seqs w) s = Some q -> w_heap w' = w_heap w -> w_seqs w' = list_set (w_seqs w) s q -> w' = w).
  { clear. intros w w' q Hq H1 H2. destruct w as [h qs], w' as [h' qs']. cbn in *. subst. f_equal.
    revert s Hq. induction qs as [|x qs IH]; intros [|s] Hq; cbn in *; try discriminate; [now injection Hq as ->|f_equal; auto]. }
  intros [l sv0|l sv0|sv0|sv0] H.
  - right. rewrite step_append_first in H. destruct (Nat.ltb l (List.length (w_heap w))); [|discriminate].
    apply X in H. destruct H as (q & h' & q' & Hq & E & Hq' & _). rewrite append_first_eq in E.
    destruct (entry_valid (s_dim q) (obj (w_heap w) l)); [|discriminate]. do 6 eexists. eauto.
  - right. rewrite step_append_last in H. destruct (Nat.ltb l (List.length (w_heap w))); [|discriminate].
    apply X in H. destruct H as (q & h' & q' & Hq & E & Hq' & _). rewrite append_last_eq in E.
    destruct (entry_valid (s_dim q) (obj (w_heap w) l)); [|discriminate]. do 6 eexists. eauto.
  - cbn [step] in H. apply X in H. destruct H as (q & h' & q' & Hq & E & Hq' & Eh & Es). rewrite remove_first_eq in E.
    destruct (s_entries q) as [|l ls] eqn:Q.
    + left. injection E as <- <-. split; [eapply Y; eauto|]. split; [exists q; auto|]. intros l. split; discriminate.
    + right. do 6 eexists. eauto.
  - cbn [step] in H. apply X in H. destruct H as (q & h' & q' & Hq & E & Hq' & Eh & Es). rewrite remove_last_eq in E.
    destruct (rev (s_entries q)) as [|l ls] eqn:Q.
    + left. injection E as <- <-. split; [eapply Y; eauto|]. split; [exists q; split; auto|intros l; split; discriminate].
      rewrite <- (rev_involutive (s_entries q)), Q. reflexivity.
    + right. do 6 eexists. eauto.
Qed.

(** The first call of a change. *)
Lemma first_call s o w w' v P : change_op s true o -> step eps o w = (w', Ok v) -> kept s P w ->
  saved s P w' \/ (w' = w /\ empty_at s w /\ forall l, o <> AppendFirst s l true /\ o <> AppendLast s l true).
Proof.
  intros C H (q & Hq & HP). destruct (change_op_mutate s true o w w' v C H) as [X|(q0 & h' & q' & l & f & upd & E0 & E & E')]; auto.
  left. assert (q0 = q) by congruence. subst q0. destruct (mutate_slots _ _ _ _ _ _ _ _ _ E HP) as [(P1 & H1) (P' & H2 & H3)].
  exists q', P', P1. auto.
Qed.
(** The later ones. *)
Lemma next_call s o w w' v P : change_op s false o -> step eps o w = (w', Ok v) -> saved s P w -> saved s P w'.
Proof.
  intros C H (q & P' & P1 & Hq & HP & HPP & HR).
  destruct (change_op_mutate s false o w w' v C H) as [(-> & _)|(q0 & h' & q' & l & f & upd & E0 & E & E')]; [exists q, P', P1; auto|].
  assert (q0 = q) by congruence. subst q0. destruct (mutate_slots _ _ _ _ _ _ _ _ _ E HP) as [(P2 & H1) H2].
  exists q', P', P2. rewrite H2. auto.
Qed.
Lemma empty_call s sv w w' v : (step eps (RemoveFirst s sv) w = (w', Ok v) \/ step eps (RemoveLast s sv) w = (w', Ok v)) ->
  empty_at s w -> w' = w.
Proof.
  intros H (q & Hq & HE).
  assert (E : step eps (RemoveFirst s sv) w = (w, Ok VNone) /\ step eps (RemoveLast s sv) w = (w, Ok VNone)).
  { split; cbn [step]; unfold se_bind.
    - erewrite (on_seq_nop _ _ _ _ (Ok tt)); [reflexivity|exact Hq|]. now rewrite remove_first_eq, HE.
    - erewrite (on_seq_nop _ _ _ _ (Ok tt)); [reflexivity|exact Hq|]. now rewrite remove_last_eq, HE. }
  destruct E as [E1 E2]. destruct H as [H|H]; congruence.
Qed.

(** Making entries does not touch sequences. *)
Definition seqs_kept {A} (m : RM A) : Prop := forall st, w_seqs (r_world (fst (m st))) = w_seqs (r_world st).
Lemma seqs_bind {A B} (m : RM A) (f : A -> RM B) : seqs_kept m -> (forall a, seqs_kept (f a)) -> seqs_kept (se_bind m f).
Proof.
  intros H1 H2 st. unfold se_bind. specialize (H1 st). destruct (m st) as [st1 [a|x]]; [|exact H1].
  rewrite H2. exact H1.
Qed.
Lemma seqs_draws {A} (m : RM A) : draws_only m -> seqs_kept m.
Proof. intros H st. now rewrite H. Qed.
Lemma seqs_create d ps probs : seqs_kept (create_random_sequence_entry g eps d ps probs).
Proof.
  apply seqs_bind; [destruct probs; apply seqs_draws; [apply draws_choice_p|apply draws_choice_unif]|]. intros i.
  destruct (nth_error (filter usable ps) i) as [pr|]; [|apply seqs_draws, draws_raise].
  apply seqs_bind.
  { destruct (p_source pr); [apply seqs_draws, draws_ret|].
    apply seqs_bind; [apply seqs_draws, draws_random_values|]. intros. apply seqs_draws, draws_lift. }
  intros u. apply seqs_bind.
  { destruct (p_allowed pr); [|apply seqs_draws, draws_choice_distinct].
    apply seqs_bind; [apply seqs_draws, draws_choice_unif|]. intros. apply seqs_draws, draws_ret. }
  intros qs. apply seqs_bind.
  - intros st. unfold call. cbn [step]. destruct (mk_entry u (map Z.of_nat qs)); reflexivity.
  - intros []; apply seqs_draws; solve [apply draws_ret|apply draws_raise].
Qed.
Lemma seqs_entries d p n : seqs_kept (create_entries g eps d p n).
Proof.
  induction n as [|n IH]; simpl; [apply seqs_draws, draws_ret|].
  apply seqs_bind; [apply seqs_create|]. intros. apply seqs_bind; [exact IH|]. intros. apply seqs_draws, draws_ret.
Qed.
Lemma seqs_layer d counts : seqs_kept (create_random_layer g eps d counts).
Proof.
  apply seqs_bind; [|intros; apply seqs_draws, draws_shuffle].
  induction counts as [|[p c] cs IH]; simpl; [apply seqs_draws, draws_ret|].
  apply seqs_bind; [apply seqs_entries|]. intros. apply seqs_bind; [exact IH|]. intros. apply seqs_draws, draws_ret.
Qed.
Lemma kept_seqs {A} (m : RM A) s P st st' r : seqs_kept m -> m st = (st', r) -> kept s P (r_world st) -> kept s P (r_world st').
Proof. intros H E (q & Hq & HP). exists q. split; auto. specialize (H st). rewrite E in H. cbn [fst] in H. now rewrite H. Qed.

(** A change that did not raise saved the product, or did nothing. *)
Definition change_saves (change : nat -> CM unit) : Prop :=
  forall s st c st' c' P, change s (st, c) = ((st', c'), Ok tt) -> kept s P (r_world st) ->
    saved s P (r_world st') \/ kept s P (r_world st').

Lemma saves_single : change_saves (make_random_change g eps).
Proof.
  intros s st c st' c' P H HK. unfold make_random_change in H.
  apply bind_ok in H. destruct H as (cc & stc & H0 & H). unfold c_self in H0. injection H0 as <- <-. cbn [snd] in H.
  apply bind_ok in H. destruct H as (a & [st1 c1] & H1 & H). apply c_run_inv in H1. destruct H1 as [H1 ->].
  apply (kept_seqs _ s P _ _ _ (seqs_draws _ (draws_choose_action g _)) H1) in HK.
  assert (A : forall o, change_op s true o -> forall sta, kept s P (r_world sta) ->
    se_bind (c_run (call eps o)) (fun _ => se_ret tt) (sta, c) = ((st', c'), Ok tt) -> saved s P (r_world st') \/ kept s P (r_world st')).
  { intros o C sta HKa E. apply bind_ok in E. destruct E as (v & [st2 c2] & E2 & E). apply c_run_inv in E2. destruct E2 as [E2 ->].
    apply ret_ok in E. destruct E as [E _]. injection E as -> ->. apply call_ok in E2. destruct E2 as [E2 _].
    destruct (first_call s o _ _ _ P C E2 HKa) as [X|(X & _)]; [now left|right; now rewrite X]. }
  destruct a.
  - apply bind_ok in H. destruct H as (l & [st2 c2] & H2 & H). apply c_run_inv in H2. destruct H2 as [H2 ->].
    apply (kept_seqs _ s P _ _ _ (seqs_create _ _ _) H2) in HK. eapply A; [|exact HK|exact H]. constructor.
  - apply bind_ok in H. destruct H as (l & [st2 c2] & H2 & H). apply c_run_inv in H2. destruct H2 as [H2 ->].
    apply (kept_seqs _ s P _ _ _ (seqs_create _ _ _) H2) in HK. eapply A; [|exact HK|exact H]. constructor.
  - eapply A; [|exact HK|exact H]. constructor.
  - eapply A; [|exact HK|exact H]. constructor.
Qed.

Lemma saves_layered counts : change_saves (make_random_change_layered g eps counts).
Proof.
  intros s st c st' c' P H HK. unfold make_random_change_layered in H.
  apply bind_ok in H. destruct H as (cc & stc & H0 & H). unfold c_self in H0. injection H0 as <- <-. cbn [snd] in H.
  apply bind_ok in H. destruct H as (a & [st1 c1] & H1 & H). apply c_run_inv in H1. destruct H1 as [H1 ->].
  apply (kept_seqs _ s P _ _ _ (seqs_draws _ (draws_choose_action g _)) H1) in HK.
  assert (A2 : forall mk, (forall l b, change_op s b (mk l b)) -> forall ls sta stb, saved s P (r_world sta) ->
    append_all eps mk ls false sta = (stb, Ok tt) -> saved s P (r_world stb)).
  { intros mk HM. induction ls as [|l ls IH]; intros sta stb HS E; cbn [append_all] in E.
    - apply ret_ok in E. destruct E as [-> _]. exact HS.
    - apply bind_ok in E. destruct E as (v & st2 & E2 & E). apply call_ok in E2. destruct E2 as [E2 _].
      eapply IH; [|exact E]. eapply next_call; [apply HM|exact E2|exact HS]. }
  assert (A1 : forall mk, (mk = AppendFirst s \/ mk = AppendLast s) -> forall ls sta stb, kept s P (r_world sta) ->
    append_all eps mk ls true sta = (stb, Ok tt) ->
    saved s P (r_world stb) \/ kept s P (r_world stb)).
  { intros mk HM0 ls sta stb HKa E.
    assert (HM : forall l b, change_op s b (mk l b)) by (intros l b; destruct HM0 as [->| ->]; constructor).
    destruct ls as [|l ls]; cbn [append_all] in E.
    - apply ret_ok in E. destruct E as [-> _]. auto.
    - apply bind_ok in E. destruct E as (v & st2 & E2 & E). apply call_ok in E2. destruct E2 as [E2 _].
      destruct (first_call s _ _ _ _ P (HM l true) E2 HKa) as [X|(_ & _ & X)].
      + left. eapply A2; eauto.
      + exfalso. specialize (X l). destruct HM0 as [->| ->]; tauto. }
  assert (B2 : forall mk, (forall b, change_op s b (mk b)) -> forall k sta stb, saved s P (r_world sta) ->
    remove_all eps mk k false sta = (stb, Ok tt) -> saved s P (r_world stb)).
  { intros mk HM. induction k as [|k IH]; intros sta stb HS E; cbn [remove_all] in E.
    - apply ret_ok in E. destruct E as [-> _]. exact HS.
    - apply bind_ok in E. destruct E as (v & st2 & E2 & E). apply call_ok in E2. destruct E2 as [E2 _].
      eapply IH; [|exact E]. eapply next_call; [apply HM|exact E2|exact HS]. }
  assert (B3 : forall mk, (mk = RemoveFirst s \/ mk = RemoveLast s) -> forall k b sta stb, empty_at s (r_world sta) ->
    remove_all eps mk k b sta = (stb, Ok tt) -> r_world stb = r_world sta).
  { intros mk HM. induction k as [|k IH]; intros b sta stb HE E; cbn [remove_all] in E.
    - apply ret_ok in E. destruct E as [-> _]. reflexivity.
    - apply bind_ok in E. destruct E as (v & st2 & E2 & E). apply call_ok in E2. destruct E2 as [E2 _].
      assert (X : r_world st2 = r_world sta) by (eapply empty_call; [|exact HE]; destruct HM as [->| ->]; eauto).
      rewrite <- X. eapply IH; [|exact E]. now rewrite X. }
  assert (B1 : forall mk, (mk = RemoveFirst s \/ mk = RemoveLast s) -> forall k sta stb, kept s P (r_world sta) ->
    remove_all eps mk k true sta = (stb, Ok tt) ->
    saved s P (r_world stb) \/ kept s P (r_world stb)).
  { intros mk HM k sta stb HKa E.
    assert (HM' : forall b, change_op s b (mk b)) by (intros b; destruct HM as [->| ->]; constructor).
    destruct k as [|k]; cbn [remove_all] in E.
    - apply ret_ok in E. destruct E as [-> _]. auto.
    - apply bind_ok in E. destruct E as (v & st2 & E2 & E). apply call_ok in E2. destruct E2 as [E2 _].
      destruct (first_call s _ _ _ _ P (HM' true) E2 HKa) as [X|(X & XE & _)].
      + left. eapply B2; eauto.
      + right. rewrite (B3 mk HM k false st2 stb); [now rewrite X|now rewrite X|exact E]. }
  destruct a.
  - apply bind_ok in H. destruct H as (ls & [st2 c2] & H2 & H). apply c_run_inv in H2. destruct H2 as [H2 ->].
    apply (kept_seqs _ s P _ _ _ (seqs_layer _ _) H2) in HK. apply c_run_inv in H. destruct H as [H ->].
    eapply A1; [|exact HK|exact H]. auto.
  - apply bind_ok in H. destruct H as (ls & [st2 c2] & H2 & H). apply c_run_inv in H2. destruct H2 as [H2 ->].
    apply (kept_seqs _ s P _ _ _ (seqs_layer _ _) H2) in HK. apply c_run_inv in H. destruct H as [H ->].
    eapply A1; [|exact HK|exact H]. auto.
  - apply c_run_inv in H. destruct H as [H ->]. eapply B1; [|exact HK|exact H]. auto.
  - apply c_run_inv in H. destruct H as [H ->]. eapply B1; [|exact HK|exact H]. auto.
Qed.

(** ** Steps and runs *)
Definition priced (Q : unitary -> Prop) (s : nat) (target : unitary) (cost : R) (w : world) : Prop :=
  exists p q, kept s p w /\ (q = p \/ rewraps q p /\ Q q) /\ u_distance_from eps target q = Ok cost.

Lemma step_priced (Q : unitary -> Prop) change s target st c st' c' cost : change_saves change ->
  (forall q, answers eps (r_world st) s q -> Q q) ->
  compile_step g eps change s target (st, c) = ((st', c'), Ok cost) -> priced Q s target cost (r_world st').
Proof.
  intros HC HQ H. unfold compile_step in H.
  apply bind_ok in H. destruct H as (t0 & [sta ca] & Ha & H). unfold anneal in Ha. cbn [fst] in Ha. injection Ha as <- <- _.
  apply bind_ok in H. destruct H as (p & [st1 c1] & H1 & H). apply c_run_inv in H1. destruct H1 as [H1 ->].
  apply call_unitary_ok in H1. destruct H1 as [H1 _].
  assert (HQp : Q p) by (apply HQ; unfold answers; cbn [fst r_world] in H1; now rewrite H1).
  apply product_kept in H1.
  apply bind_ok in H. destruct H as (t1 & [st2 c2] & HCH & H). destruct t1. apply (HC _ _ _ _ _ p) in HCH; [|exact H1].
  apply bind_ok in H. destruct H as (current & sty & H2 & H). apply lift_ok in H2. destruct H2 as [-> H2].
  apply bind_ok in H. destruct H as (p1 & [st3 c3] & H3 & H). apply c_run_inv in H3. destruct H3 as [H3 ->].
  apply call_unitary_ok in H3. destruct H3 as [H3 _].
  assert (HK3 := product_kept _ _ _ _ H3).
  apply bind_ok in H. destruct H as (proposed & sty & H4 & H). apply lift_ok in H4. destruct H4 as [-> H4].
  apply bind_ok in H. destruct H as (acc & [st4 c4] & H5 & H).
  unfold accept_proposed_change in H5. apply bind_ok in H5. destruct H5 as (cc & sty & H6 & H5).
  unfold c_self in H6. injection H6 as <- <-. cbn [snd] in H5.
  apply bind_ok in H5. destruct H5 as (x & [st5 c5] & H6 & H5).
  apply c_run_inv in H6. destruct H6 as [H6 ->]. apply ret_ok in H5. destruct H5 as [H5 Hacc].
  injection H5 as -> ->. unfold draw_unif in H6. injection H6 as <- Hx.
  destruct acc.
  - apply ret_ok in H. destruct H as [H ->]. injection H as -> ->. exists p1, p1. auto.
  - apply bind_ok in H. destruct H as (v & [st6 c6] & H7 & H). apply c_run_inv in H7. destruct H7 as [H7 ->].
    apply ret_ok in H. destruct H as [H ->]. injection H as -> ->.
    apply call_ok in H7. destruct H7 as [H7 _]. cbn [r_world] in H7.
    destruct HCH as [(q & P' & P1 & Hq & HP & HPP & HR)|HK].
    + (* product() only reads *)
      assert (Hq3 : exists q3, nth_error (w_seqs (r_world st3)) s = Some q3 /\ s_prev_product q3 = Some P').
      { cbn [step] in H3. apply bind_ok in H3. destruct H3 as (u & w1 & E1 & E2). apply ret_ok in E2. destruct E2 as [-> _].
        unfold on_seq in E1. rewrite Hq in E1. destruct (product eps (w_heap (r_world st2), q)) as [[h' q'] r] eqn:E.
        injection E1 as <- ->. exists q'. cbn [w_seqs]. rewrite (nth_error_list_set _ _ _ _ _ Hq), Nat.eqb_refl. split; auto.
        unfold product, se_bind, m_self in E. cbn [snd fst] in E. rewrite HP in E. apply ret_ok in E.
        destruct E as [E _]. injection E as _ ->. exact HPP. }
      destruct Hq3 as (q3 & Hq3 & HPP3).
      assert (X : kept s P' (r_world st6)).
      { cbn [step] in H7. apply bind_ok in H7. destruct H7 as (u & w1 & E1 & E2). apply ret_ok in E2. destruct E2 as [-> _].
        unfold on_seq in E1. rewrite Hq3 in E1. destruct (undo (w_heap (r_world st3), q3)) as [[h' q'] r] eqn:E.
        injection E1 as <- ->. exists q'. cbn [w_seqs]. rewrite (nth_error_list_set _ _ _ _ _ Hq3), Nat.eqb_refl. split; auto.
        unfold undo, se_bind, m_self in E. cbn [snd fst] in E. destruct (s_prev_entries q3); [|discriminate].
        unfold m_upd in E. injection E as _ <- _. cbn [s_product]. exact HPP3. }
      exists P', p. auto.
    + exfalso. apply kept_answers in HK. unfold answers in HK. rewrite H3 in HK. cbn [snd] in HK. injection HK as ->.
      assert (proposed = current) by congruence. subst proposed.
      symmetry in Hacc. assert (B := proj1 G (r_draws st3)).
      match type of Hacc with ?a = false => assert (Y : a = true) end.
      { apply Rltb_spec. match goal with |- context [exp ?a] => replace a with 0%R by ring end. rewrite exp_0, Rmin_left by lra. lra. }
      congruence.
Qed.

Lemma loop_priced (Q : unitary -> Prop) (J : list R -> rstate -> compiler -> Prop) change s target thr max : change_saves change ->
  (forall costs st c p w', J costs st c -> step eps (Product s) (r_world st) = (w', Ok (VUnitary p)) ->
    J costs {| r_world := w'; r_draws := r_draws st |} c) ->
  (forall costs st c st' c' cost, J costs st c -> (Z.of_nat (List.length costs) < max)%Z ->
    compile_step g eps change s target (st, c) = ((st', c'), Ok cost) -> J (costs ++ [cost]) st' c') ->
  (forall costs st c q, J costs st c -> answers eps (r_world st) s q -> Q q) ->
  forall fuel costs st c st' c' costs', J costs st c ->
  (costs = [] \/ priced Q s target (last costs 0%R) (r_world st)) ->
  compile_loop g eps change s target thr max costs fuel (st, c) = ((st', c'), Ok costs') ->
  J costs' st' c' /\ (costs' = [] \/ priced Q s target (last costs' 0%R) (r_world st')).
Proof.
  intros HC J1 J2 J3. induction fuel as [|fuel IH]; intros costs st c st' c' costs' HJ HL H; [discriminate|].
  cbn [compile_loop] in H.
  apply bind_ok in H. destruct H as (p & [st1 c1] & H1 & H). apply c_run_inv in H1. destruct H1 as [H1 ->].
  apply call_unitary_ok in H1. destruct H1 as [H1 H1'].
  assert (HL1 : costs = [] \/ priced Q s target (last costs 0%R) (r_world st1)).
  { destruct HL as [->|(p0 & q0 & A0 & D0 & E0)]; auto. right. exists p0, q0. split; auto.
    apply kept_answers in A0. unfold answers in A0. rewrite H1 in A0. cbn [snd] in A0. injection A0 as ->.
    eapply product_kept; eauto. }
  apply (J1 _ _ _ _ _ HJ) in H1. rewrite <- H1' in H1. destruct st1 as [w1 d1]. cbn [r_world r_draws] in H1. clear HJ.
  apply bind_ok in H. destruct H as (close & sty & H2 & H). apply lift_ok in H2. destruct H2 as [-> H2].
  destruct close; [|destruct (Z.ltb (Z.of_nat (List.length costs)) max) eqn:Hlt].
  - apply ret_ok in H. destruct H as [H ->]. injection H as -> ->. auto.
  - apply bind_ok in H. destruct H as (cost & [st2 c2] & H3 & H). apply Z.ltb_lt in Hlt.
    assert (HJ2 := J2 _ _ _ _ _ _ H1 Hlt H3).
    apply (step_priced Q) in H3; [|exact HC|intros q; apply (J3 _ _ _ _ H1)].
    eapply IH; [exact HJ2| |exact H]. right. rewrite last_last. exact H3.
  - apply ret_ok in H. destruct H as [H ->]. injection H as -> ->. auto.
Qed.

Lemma with_priced change target thr max st c st' c' s costs : change_saves change ->
  compile_with g eps change target thr max (st, c) = ((st', c'), Ok (s, costs)) ->
  costs <> [] -> priced (fun _ => True) s target (last costs 0%R) (r_world st').
Proof.
  intros HC H HN. unfold compile_with in H.
  apply bind_ok in H. destruct H as (cc & sty & H0 & H). unfold c_self in H0. injection H0 as <- <-.
  cbn [snd] in H. apply bind_ok in H. destruct H as (s0 & [st1 c1] & H1 & H).
  apply bind_ok in H. destruct H as (costs1 & [st2 c2] & H2 & H). apply ret_ok in H. destruct H as [H H3].
  injection H as -> ->. injection H3 as -> ->.
  apply (loop_priced (fun _ => True) (fun _ _ _ => True)) in H2; auto. destruct H2 as [_ []]; [contradiction|auto].
Qed.
End Cost.

(** ** Within the drift regime *)
Lemma distance_lipschitz eps n target p q x i I' : u_inverse eps target = Ok i ->
  u_dim target = (2 ^ n)%nat -> u_dim p = (2 ^ n)%nat -> u_dim q = (2 ^ n)%nat ->
  unitary_mx (2 ^ n) I' -> (fro (2 ^ n) (mminus (u_mat i) I') <= / 100)%R ->
  u_distance_from eps target q = Ok x ->
  exists y, u_distance_from eps target p = Ok y /\
    (Rabs (y - x) <= 101 / 100 * fro (2 ^ n) (mminus (u_mat p) (u_mat q)))%R.
Proof.
  intros Ei Dt Dp Dq UI FI H. unfold u_distance_from, u_distance_from_array, square in *. cbn [nrows ncols elt] in *.
  rewrite Dt, Dp, Dq, Nat.eqb_refl in *. cbn [andb assert bind] in *. rewrite Ei in *. cbn [bind] in *. injection H as <-.
  eexists. split; [reflexivity|]. set (d := (2 ^ n)%nat) in *.
  assert (Hd : (0 < INR d)%R) by (apply lt_0_INR, PBits.pow2_pos).
  set (a := mtrace d (mmul d (u_mat i) (u_mat p))). set (b := mtrace d (mmul d (u_mat i) (u_mat q))).
  assert (X : (Rabs (Cmod b - Cmod a) <= Cmod (a - b))%R).
  { assert (A := Cmod_triangle (a - b) b). assert (B := Cmod_triangle (b - a) a).
    replace (a - b + b)%C with a in A by ring. replace (b - a + a)%C with b in B by ring.
    assert (E : Cmod (b - a) = Cmod (a - b)) by (rewrite <- (Cmod_opp (a - b)); f_equal; ring).
    apply Rabs_le. lra. }
  assert (Y : (Cmod (a - b) <= INR d * (101 / 100 * fro d (mminus (u_mat p) (u_mat q))))%R).
  { replace (a - b)%C with (mtrace d (mmul d (u_mat i) (mminus (u_mat p) (u_mat q)))).
    2: { unfold a, b, mtrace. rewrite <- csum_minus. apply csum_ext. intros k Hk. exact (mmul_mminus_r d _ _ _ k k Hk Hk). }
    eapply Rle_trans; [apply mtrace_fro|]. apply Rmult_le_compat_l; [lra|].
    assert (E : meq d (mmul d (u_mat i) (mminus (u_mat p) (u_mat q)))
      (mplus (mmul d I' (mminus (u_mat p) (u_mat q))) (mmul d (mminus (u_mat i) I') (mminus (u_mat p) (u_mat q))))).
    { rewrite mmul_mminus_l. intros r c _ _. unfold mplus, mminus. ring. }
    rewrite E. eapply Rle_trans; [apply fro_triangle|]. rewrite fro_unitary_l by auto.
    assert (M := fro_mmul d (mminus (u_mat i) I') (mminus (u_mat p) (u_mat q))).
    assert (N := fro_nonneg d (mminus (u_mat p) (u_mat q))). assert (N2 := fro_nonneg d (mminus (u_mat i) I')). nra. }
  replace (1 - Cmod a / INR d - (1 - Cmod b / INR d))%R with (/ INR d * (Cmod b - Cmod a))%R by (field; lra).
  rewrite Rabs_mult, Rabs_pos_eq by (apply Rlt_le, Rinv_0_lt_compat; lra).
  apply (Rmult_le_reg_l (INR d)); [lra|]. rewrite <- Rmult_assoc, Rinv_r, Rmult_1_l by lra. lra.
Qed.

Lemma with_cost_drift g eps change Rel c k target thr max st st' c' s costs n K :
  rng_ok g -> change_ok eps change Rel c -> change_saves eps change -> (forall s, ctraced eps (made eps) c k (change s)) ->
  c_dim c = (2 ^ n)%nat -> drift_world eps K (r_world st) -> made eps target -> u_dim target = (2 ^ n)%nat ->
  small_drift eps n (Datatypes.S (K + k * Z.to_nat max)) ->
  compile_with g eps change target thr max (st, c) = ((st', c'), Ok (s, costs)) -> costs <> [] ->
  exists p x, answers eps (r_world st') s p /\ u_distance_from eps target p = Ok x /\
    (Rabs (x - last costs 0%R) <= 3 * drift_bound eps n (Datatypes.S (K + k * Z.to_nat max)))%R.
Proof.
  intros G HC HS HT Hd HX HM HD SD H HN. assert (HE := proj1 SD). destruct HE as [e0 e1].
  destruct (drift_small _ _ _ SD) as [L B]. set (N := (K + k * Z.to_nat max)%nat) in *.
  unfold compile_with in H.
  apply bind_ok in H. destruct H as (cc & sty & H0 & H). unfold c_self in H0. injection H0 as <- <-.
  cbn [snd] in H. apply bind_ok in H. destruct H as (s0 & [st1 c1] & H1 & H).
  apply c_run_inv in H1. destruct H1 as [H1 ->]. apply call_sequence_ok in H1. destruct H1 as [H1 _].
  assert (HX1 : drift_world eps K (r_world st1)).
  { assert (T := evolves_step eps (made eps) 0 (NewSequence (c_dim c) false []) (r_world st) eq_refl). rewrite H1 in T. cbn [fst] in T.
    rewrite <- (Nat.add_0_r K). eapply evolves_drift; eauto. }
  destruct (new_sequence_view eps (r_world st) (c_dim c) (winv_any _ _ _ _ (drift_winv eps K _ (conj e0 e1) HX))) as (w1 & E & S1).
  rewrite E in H1. injection H1 as E1 E2.
  apply bind_ok in H. destruct H as (costs1 & [st2 c2] & H2 & H). apply ret_ok in H. destruct H as [H H3].
  injection H as -> ->. injection H3 as -> ->. rewrite E1, E2 in S1. clear E E1 E2 w1 HX.
  assert (L6 : lim eps n (Datatypes.S (6 * N))) by (eapply lim_mono; [exact e0|exact e1| |exact L]; lia).
  set (Q := fun q => exists P, near eps n (6 * N) P q).
  set (J := fun (costs : list R) st c' => exists bt cs pv, c' = set_beta c bt /\
    drift_world eps (K + k * List.length costs) (r_world st) /\ sees eps (r_world st) s0 (c_dim c) cs pv /\
    (List.length costs <= Z.to_nat max)%nat).
  assert (X : J costs1 st2 c2 /\ (costs1 = [] \/ priced eps Q s0 target (last costs1 0%R) (r_world st2))).
  { apply (loop_priced g eps G Q J change s0 target thr max HS) with (6 := H2); auto.
    - intros cs0 sta ca p w' (bt & cs & pv & -> & D & S & Lc) HP. exists bt, cs, pv. cbn [r_world].
      destruct (product_view eps _ _ _ _ _ _ _ S HP) as (_ & _ & S' & _). split; auto. split; [|auto].
      assert (T := evolves_step eps (made eps) 0 (Product s0) (r_world sta) I). rewrite HP in T. cbn [fst] in T.
      rewrite <- (Nat.add_0_r (K + _)). eapply evolves_drift; eauto.
    - intros cs0 sta ca stb cb cost (bt & cs & pv & -> & D & S & Lc) Hlt HP.
      destruct (step_ok g eps G change Rel c bt s0 target _ _ _ _ _ _ HC S HP)
        as (-> & q1 & q2 & q3 & q4 & cs1 & q5 & _ & _ & _ & _ & _ & D').
      assert (X : exists cs2 pv2, sees eps (r_world stb) s0 (c_dim c) cs2 pv2).
      { destruct D' as [(_ & _ & [pv1 D'] & _)|(_ & _ & D')]; eauto. }
      destruct X as (cs2 & pv2 & S2). eexists _, cs2, pv2. split; [reflexivity|].
      destruct (step_traced g eps (made eps) c k change s0 target HT sta bt) as [T _]. rewrite HP in T. cbn [fst] in T.
      rewrite app_length. cbn [List.length]. split; [|split; [exact S2|lia]].
      replace (K + k * (List.length cs0 + 1))%nat with (K + k * List.length cs0 + k)%nat by lia.
      eapply evolves_drift; eauto.
    - intros cs0 sta ca q (bt & cs & pv & -> & D & S & Lc) A. rewrite Hd in S.
      assert (HW := drift_winv eps _ _ (conj e0 e1) D). assert (LN : (K + k * List.length cs0 <= N)%nat) by (unfold N; nia).
      destruct (winv_stored eps _ _ s0 n (conj e0 e1) HW (sees_has_dim _ _ _ _ _ _ S)) as (p' & A' & NP & _).
      { eapply lim_mono; [exact e0|exact e1| |exact L]. lia. }
      assert (p' = q) by (eapply answers_unique; eauto). subst p'. eexists. eapply near_mono; [exact e0| |exact NP]. lia.
    - exists (c_beta c), [], None. split; [symmetry; apply set_beta_same|]. cbn [List.length]. rewrite Nat.mul_0_r, Nat.add_0_r. split; auto. split; auto. lia. }
  destruct X as [_ [->|(p & q & A & D & C)]]; [contradiction|]. apply kept_answers with (eps := eps) in A.
  exists p. assert (B0 : (0 <= drift_bound eps n (Datatypes.S N))%R).
  { eapply Rle_trans; [|exact B]. apply err_pos; auto. }
  destruct D as [->|[D (P & NP)]].
  - exists (last costs1 0%R). split; auto. split; auto. unfold Rminus. rewrite Rplus_opp_r, Rabs_R0. lra.
  - destruct (near_rewrap eps e0 n _ P q NP L6) as (p' & E' & NP'). unfold rewrap in E'. rewrite D in E'. injection E' as ->.
    assert (L2 : lim eps n 2) by (eapply lim_mono; [exact e0|exact e1| |exact L]; lia).
    assert (L3 : lim eps n 3) by (eapply lim_mono; [exact e0|exact e1| |exact L]; lia).
    destruct (near_inverse eps e0 n 2 _ _ (rough_near eps e0 e1 n target (made_rough eps e0 target HM) HD L2) L3) as (i & Ei & Ni).
    destruct Ni as (_ & (Ui & _) & _ & Fi).
    assert (Fi' : (fro (2 ^ n) (mminus (u_mat i) (adj (ideal eps target))) <= / 100)%R).
    { eapply Rle_trans; [exact Fi|]. destruct L3 as [L1 _]. lra. }
    destruct (distance_lipschitz eps n target p' q _ i _ Ei HD (proj1 NP') (proj1 NP) Ui Fi' C) as (y & Ey & Hy).
    exists y. split; auto. split; auto. eapply Rle_trans; [exact Hy|].
      destruct NP as (_ & _ & _ & F1), NP' as (_ & _ & _ & F2).
      assert (T := fro_minus_triangle (2 ^ n) (u_mat p') P (u_mat q)). rewrite (fro_minus_sym _ P) in T.
      assert (M1 := err_mono eps e0 n (6 * N) (8 * Datatypes.S N) ltac:(lia)).
      assert (M2 := err_mono eps e0 n (Datatypes.S (6 * N)) (8 * Datatypes.S N) ltac:(lia)). lra.
Qed.

Lemma C25_priced_lemma : forall g eps st c target thr max st' c' s costs,
  rng_ok g -> compile g eps target thr max (st, c) = ((st', c'), Ok (s, costs)) -> costs <> [] ->
  exists p q, answers eps (r_world st') s p /\
    (q = p \/ mk_unitary eps (u_dim q) (Some (square (u_dim q) (u_mat q))) None [] false [] = Ok p) /\
    u_distance_from eps target q = Ok (last costs 0%R).
Proof.
  intros g eps st c target thr max st' c' s costs G H HN. apply compile_inv in H.
  destruct (with_priced g eps G _ _ _ _ _ _ _ _ _ _ (saves_single g eps) H HN) as (p & q & A & B & C).
  exists p, q. split; [now apply kept_answers|]. split; [tauto|exact C].
Qed.
Lemma C25_priced_layered_lemma : forall g eps st c target counts thr max st' c' s costs,
  rng_ok g -> compile_layered g eps target counts thr max (st, c) = ((st', c'), Ok (s, costs)) -> costs <> [] ->
  exists p q, answers eps (r_world st') s p /\
    (q = p \/ mk_unitary eps (u_dim q) (Some (square (u_dim q) (u_mat q))) None [] false [] = Ok p) /\
    u_distance_from eps target q = Ok (last costs 0%R).
Proof.
  intros g eps st c target counts thr max st' c' s costs G H HN.
  destruct (with_priced g eps G _ _ _ _ _ _ _ _ _ _ (saves_layered g eps counts) H HN) as (p & q & A & B & C).
  exists p, q. split; [now apply kept_answers|]. split; [tauto|exact C].
Qed.

Lemma C25_drift_lemma : forall g eps st c target thr max st' c' s costs n K,
  rng_ok g -> drift_world eps K (r_world st) -> c_dim c = (2 ^ n)%nat ->
  (forall p, In p (c_prims c) -> good_source eps (p_source p)) ->
  made eps target -> u_dim target = (2 ^ n)%nat ->
  small_drift eps n (Datatypes.S (K + Z.to_nat max)) ->
  compile g eps target thr max (st, c) = ((st', c'), Ok (s, costs)) -> costs <> [] ->
  exists p x, answers eps (r_world st') s p /\ u_distance_from eps target p = Ok x /\
    (Rabs (x - last costs 0%R) <= 3 * drift_bound eps n (Datatypes.S (K + Z.to_nat max)))%R.
Proof.
  intros g eps st c target thr max st' c' s costs n K G HX Hd HP HM HD SD H HN. apply compile_inv in H.
  rewrite <- (Nat.mul_1_l (Z.to_nat max)) in SD |- *.
  eapply (with_cost_drift g eps _ _ c 1); eauto; [now apply change_single|now apply saves_single|].
  intros s0. apply single_traced; auto. now apply (good_safe eps).
Qed.
Lemma C25_drift_layered_lemma : forall g eps st c target counts thr max st' c' s costs n K,
  rng_ok g -> drift_world eps K (r_world st) -> c_dim c = (2 ^ n)%nat ->
  (forall pc, In pc counts -> good_source eps (p_source (fst pc))) ->
  made eps target -> u_dim target = (2 ^ n)%nat ->
  small_drift eps n (Datatypes.S (K + table_size counts * Z.to_nat max)) ->
  compile_layered g eps target counts thr max (st, c) = ((st', c'), Ok (s, costs)) -> costs <> [] ->
  exists p x, answers eps (r_world st') s p /\ u_distance_from eps target p = Ok x /\
    (Rabs (x - last costs 0%R) <= 3 * drift_bound eps n (Datatypes.S (K + table_size counts * Z.to_nat max)))%R.
Proof.
  intros g eps st c target counts thr max st' c' s costs n K G HX Hd HP HM HD SD H HN.
  eapply (with_cost_drift g eps _ _ c (layer_size counts)); eauto; [now apply change_layered|now apply saves_layered|].
  intros s0. apply layered_traced; auto. now apply (good_safe_counts eps).
Qed.

(** A threshold that no distance meets. *)
Lemma far_close eps n c1 c2 P Q p u : (0 <= eps)%R -> (n <= 1)%nat ->
  near eps n c1 P p -> near eps n c2 Q u -> lim eps n (Datatypes.S c1 + c2) -> u_close_to eps p u (Some 10%R) = Ok false.
Proof.
  intros E0 Hn NP NQ L.
  assert (L1 : lim eps n (Datatypes.S c1)).
  { destruct L as [A B]. assert (M := err_mono eps E0 n (Datatypes.S c1) (Datatypes.S c1 + c2) ltac:(lia)).
    assert (P2 := pos_INR (2 ^ n)). split; [lra|nra]. }
  assert (F : (fro (2 ^ n) (mminus P (mscale 1 Q)) <= 4)%R).
  { assert (T := fro_minus_triangle (2 ^ n) P (fun _ _ => 0) (mscale 1 Q)).
    assert (E1 : fro (2 ^ n) (mminus P (fun _ _ => 0)) = fro (2 ^ n) P) by (apply fro_proper; intros i j _ _; unfold mminus; ring).
    assert (E2 : fro (2 ^ n) (mminus (fun _ _ => 0) (mscale 1 Q)) = fro (2 ^ n) Q).
    { rewrite fro_minus_sym. apply fro_proper. intros i j _ _. unfold mminus, mscale. ring. }
    rewrite E1, E2 in T. destruct NP as (_ & (UP & _) & _), NQ as (_ & (UQ & _) & _).
    rewrite (fro_unitary _ _ UP), (fro_unitary _ _ UQ) in T.
    assert (S : (sqrt (INR (2 ^ n)) <= 2)%R).
    { rewrite <- (sqrt_Rsqr 2) by lra. apply sqrt_le_1_alt. unfold Rsqr.
      assert (n = 0 \/ n = 1)%nat as [->| ->] by lia; simpl; lra. }
    lra. }
  destruct (distance_near eps n c1 c2 P Q p u 4 1 E0 NP NQ L1 Cmod_1 F) as (x & Ex & Hx).
  unfold u_close_to. rewrite Ex. cbn [bind]. f_equal. destruct L as [L _].
  apply Rabs_le_between in Hx. destruct (Rleb x (1 - 10)) eqn:EB; auto. apply Rleb_spec in EB. lra.
Qed.

Lemma ex_cost_lemma : exists g c target st st' c' s costs,
  rng_ok g /\ drift_world eps_code 0 (r_world st) /\ good_compiler eps_code 1 c /\ made eps_code target /\ u_dim target = 2%nat /\
  small_drift eps_code 1 61 /\
  compile g eps_code target (Some 10%R) 60 (st, c) = ((st', c'), Ok (s, costs)) /\ List.length costs = 60%nat.
Proof.
  destruct ex_drift_lemma as (g & c & target & st & G & HX & GC & HA & B & D & SD).
  change (Datatypes.S (0 + Z.to_nat 60)) with 61%nat in SD.
  assert (M := built_made _ _ B).
  destruct (C28_drift_lemma g eps_code st c target (Some 10%R) 60 1 0 G HX GC (or_introl HA) M D SD) as (st' & c' & s & costs & E).
  exists g, c, target, st, st', c', s, costs. do 7 (split; [assumption|]).
  assert (HE := proj1 SD). destruct (drift_small _ _ _ SD) as [L _].
  assert (HR : reachable eps_code (r_world st)) by (destruct HX as (os & -> & _); now exists os).
  destruct (C24_lemma g eps_code st c target (Some 10%R) 60 st' c' s costs G HR E) as (L1 & _).
  destruct GC as (Hd & _ & HP & _).
  assert (SD' : small_drift eps_code 1 (0 + Z.to_nat 60)).
  { change (0 + Z.to_nat 60)%nat with 60%nat. destruct SD as (S1 & S2 & S3).
    assert (DB : (drift_bound eps_code 1 60 <= drift_bound eps_code 1 61)%R).
    { unfold drift_bound. assert (I : (INR 60 <= INR 61)%R) by (apply le_INR; lia).
      assert (I2 := pos_INR (2 ^ 1)). assert (I3 := sqrt_pos (INR (2 ^ 1))).
      apply Rmult_le_compat_r; [lra|]. apply Rmult_le_compat_r; [lra|]. apply Rmult_le_compat_r; lra. }
    split; [exact S1|]. split; [lra|]. assert (I2 := pos_INR (2 ^ 1)). nra. }
  destruct (C26_drift_lemma g eps_code st c target (Some 10%R) 60 st' c' s costs 1 0 G HX Hd) as (HX' & p & close & A & Dp & _ & Ec & N); auto.
  { intros q Hq. apply (HP q Hq). }
  destruct (C27_lemma g eps_code st c target (Some 10%R) 60 st' c' s costs G HR E) as (HD & _). rewrite Hd in HD.
  destruct (winv_stored eps_code _ _ s 1 HE (drift_winv _ _ _ HE HX') HD) as (p' & A' & NP & _).
  { eapply lim_mono; [apply HE|apply HE| |exact L]. cbn. lia. }
  assert (p' = p) by (eapply answers_unique; eauto). subst p'.
  assert (L2 : lim eps_code 1 2) by (eapply lim_mono; [apply HE|apply HE| |exact L]; lia).
  rewrite (far_close eps_code 1 _ 2 _ _ p target (proj1 HE) (le_n 1) NP
    (rough_near _ (proj1 HE) (proj2 HE) 1 target (made_rough _ (proj1 HE) target M) D L2)) in Ec.
  - injection Ec as <-. specialize (N eq_refl). lia.
  - eapply lim_mono; [apply HE|apply HE| |exact L]. change (0 + Z.to_nat 60)%nat with 60%nat. lia.
Qed.
