(** What a run of the compiler does to the world is a history of calls of the
    sequence API, with a bounded number of product updates. *)
From Coq Require Import Reals List Arith Lia Lra Bool String ZArith Permutation.
From Coquelicot Require Import Rcomplements Complex.
From Verif Require Import Base CMat CMatFacts Det DetFacts ModelUnitary ModelEntry ModelPrimitive
  ModelSequence ModelCompiler Spec SpecModel SpecCompiler PUnitary PEntry PSeqHeap PSeqMeth PSeqNear PSeqWorld
  PSeqUndo PSeqInv PSeqHist PCompView PCompRun PCompEntry PCompLoop.
Import ListNotations.
Open Scope R_scope.
Open Scope C_scope.
Open Scope se_scope.

Lemma updates_app os1 : forall os2 K, updates (os1 ++ os2) K = updates os2 (updates os1 K).
Proof. induction os1 as [|o os IH]; intros os2 K; simpl; auto. Qed.

Lemma history_app eps P Q os1 : forall os2 w,
  history eps P Q os1 w -> history eps P Q os2 (exec eps os1 w) -> history eps P Q (os1 ++ os2) w.
Proof.
  induction os1 as [|o os IH]; intros os2 w H1 H2; cbn [app history exec] in *; auto.
  destruct H1 as [H1 H3]. split; auto.
Qed.

Lemma updates_cost o os K : updates (o :: os) K = updates os (cost1 o K).
Proof. reflexivity. Qed.

Lemma updates_mono os : forall K K', (K <= K')%nat -> (updates os K <= updates os K')%nat.
Proof.
  induction os as [|o os IH]; intros K K' H; [exact H|]. rewrite !updates_cost. apply IH.
  destruct o; cbn [cost1]; try lia. nia.
Qed.

Section Trace.
Variable g : rng.
Variable eps : R.
Hypothesis G : rng_ok g.
(** What is asked of gates. *)
Variable safe : unitary -> Prop.

Definition evolves (k : nat) (w w' : world) : Prop :=
  exists os, w' = exec eps os w /\ history eps safe (fun _ _ => False) os w /\
    forall K, (updates os K <= K + k)%nat.

Lemma evolves_refl k w : evolves k w w.
Proof. exists []. split; auto. split; [exact I|]. intros K. simpl. lia. Qed.

Lemma evolves_trans k1 k2 w1 w2 w3 : evolves k1 w1 w2 -> evolves k2 w2 w3 -> evolves (k1 + k2) w1 w3.
Proof.
  intros (o1 & -> & H1 & U1) (o2 & -> & H2 & U2). exists (o1 ++ o2).
  split; [symmetry; apply exec_app|]. split; [now apply history_app|].
  intros K. rewrite updates_app. specialize (U1 K). specialize (U2 (updates o1 K)). lia.
Qed.

Lemma evolves_mono k k' w w' : (k <= k')%nat -> evolves k w w' -> evolves k' w w'.
Proof. intros H (os & E & H1 & U). exists os. split; auto. split; auto. intros K. specialize (U K). lia. Qed.

Lemma evolves_step k o w :
  match o with
  | NewEntry u _ => safe u
  | NewSequence _ _ ls => ls = []
  | AppendFirst _ _ _ | AppendLast _ _ _ | RemoveFirst _ _ | RemoveLast _ _ => (1 <= k)%nat
  | Undo _ | Product _ => True
  | _ => False
  end -> evolves k w (fst (step eps o w)).
Proof.
  intros H. exists [o]. split; [reflexivity|]. split.
  - cbn [history]. split; [|exact I]. destruct o; auto; contradiction.
  - intros K. cbn [updates]. destruct o; try contradiction; try lia. subst. simpl. lia.
Qed.

Definition traced {A} (k : nat) (m : RM A) : Prop :=
  forall st, evolves k (r_world st) (r_world (fst (m st))).

Lemma traced_bind {A B} k1 k2 (m : RM A) (f : A -> RM B) :
  traced k1 m -> (forall st st' a, m st = (st', Ok a) -> traced k2 (f a)) -> traced (k1 + k2) (se_bind m f).
Proof.
  intros H1 H2 st. unfold se_bind. specialize (H1 st). destruct (m st) as [st1 [a|x]] eqn:E.
  - eapply evolves_trans; [exact H1|]. now apply (H2 st st1 a E).
  - eapply evolves_mono; [|exact H1]. lia.
Qed.

Lemma traced_draws {A} k (m : RM A) : draws_only m -> traced k m.
Proof. intros H st. rewrite (H st). apply evolves_refl. Qed.

Lemma traced_call k o :
  match o with
  | NewEntry u _ => safe u
  | NewSequence _ _ ls => ls = []
  | AppendFirst _ _ _ | AppendLast _ _ _ | RemoveFirst _ _ | RemoveLast _ _ => (1 <= k)%nat
  | Undo _ | Product _ => True
  | _ => False
  end -> traced k (call eps o).
Proof.
  intros H st. apply (evolves_step k o (r_world st)) in H. unfold call.
  destruct (step eps o (r_world st)) as [w' r]. exact H.
Qed.

Lemma traced_call_unitary k s : traced k (call_unitary eps (Product s)).
Proof.
  replace k with (k + 0)%nat by lia. apply traced_bind; [now apply traced_call|].
  intros st st' v _. destruct v; apply traced_draws; first [apply draws_ret|apply draws_raise].
Qed.

Definition safe_primitive (p : primitive) : Prop := forall u, instance eps p u -> safe u.

Lemma create_traced k d ps probs : Forall safe_primitive ps ->
  traced k (create_random_sequence_entry g eps d ps probs).
Proof.
  intros HS st. destruct (create_random_sequence_entry g eps d ps probs st) as [st' [l|x]] eqn:E; cbn [fst].
  - apply (create_inv g eps G) in E. destruct E as (u & qs & pr & Hin & I & _ & H).
    pose proof (evolves_step k (NewEntry u (map Z.of_nat qs)) (r_world st)) as T.
    rewrite H in T. apply T. cbn. rewrite Forall_forall in HS. apply (HS pr); auto. eapply weighted_in; eauto.
  - apply create_raise in E. rewrite E. apply evolves_refl.
Qed.

Lemma create_entries_traced d p n : safe_primitive p -> traced 0 (create_entries g eps d p n).
Proof.
  intros HS. induction n as [|n IH]; simpl; [apply traced_draws, draws_ret|].
  apply (traced_bind 0 0); [apply create_traced; auto|]. intros.
  apply (traced_bind 0 0); [exact IH|]. intros. apply traced_draws, draws_ret.
Qed.

Lemma layer_loop_traced d counts : Forall (fun pc => safe_primitive (fst pc)) counts ->
  traced 0 (create_layer_loop g eps d counts).
Proof.
  induction 1 as [|[p c] t H _ IH]; simpl; [apply traced_draws, draws_ret|].
  apply (traced_bind 0 0); [now apply create_entries_traced|]. intros.
  apply (traced_bind 0 0); [exact IH|]. intros. apply traced_draws, draws_ret.
Qed.

Lemma layer_traced d counts : Forall (fun pc => safe_primitive (fst pc)) counts ->
  traced 0 (create_random_layer g eps d counts).
Proof.
  intros H. apply (traced_bind 0 0); [now apply layer_loop_traced|]. intros. apply traced_draws, draws_shuffle.
Qed.

(** Number of entries in a layer. *)
Definition layer_size (counts : list (primitive * Z)) : nat :=
  fold_right (fun pc n => (Z.to_nat (snd pc) + n)%nat) 0%nat counts.

Lemma layer_length_size counts : (Z.to_nat (layer_length counts) <= layer_size counts)%nat.
Proof.
  assert (H : (layer_length counts <= Z.of_nat (layer_size counts))%Z).
  { induction counts as [|[p c] t IH]; simpl; lia. }
  lia.
Qed.

Lemma create_entries_length d p n : forall st st' ls,
  create_entries g eps d p n st = (st', Ok ls) -> List.length ls = n.
Proof.
  induction n as [|n IH]; intros st st' ls H; simpl in H.
  - apply ret_ok in H. destruct H as [_ ->]. reflexivity.
  - apply bind_ok in H. destruct H as (l & st1 & _ & H). apply bind_ok in H. destruct H as (ls1 & st2 & H2 & H).
    apply ret_ok in H. destruct H as [_ ->]. simpl. f_equal. eauto.
Qed.

Lemma layer_loop_length d counts : forall st st' ls,
  create_layer_loop g eps d counts st = (st', Ok ls) -> List.length ls = layer_size counts.
Proof.
  induction counts as [|[p c] t IH]; intros st st' ls H; simpl in H.
  - apply ret_ok in H. destruct H as [_ ->]. reflexivity.
  - apply bind_ok in H. destruct H as (l1 & st1 & H1 & H). apply bind_ok in H. destruct H as (ls1 & st2 & H2 & H).
    apply ret_ok in H. destruct H as [_ ->]. rewrite app_length. simpl. f_equal; eauto using create_entries_length.
Qed.

Lemma layer_length_ok d counts st st' ls :
  create_random_layer g eps d counts st = (st', Ok ls) -> List.length ls = layer_size counts.
Proof.
  intros H. apply bind_ok in H. destruct H as (ls1 & st1 & H1 & H). unfold shuffle in H. injection H as _ <-.
  rewrite map_length. destruct G as (_ & _ & G3).
  rewrite (Permutation_length (G3 (r_draws st1) (List.length ls1))), seq_length.
  eapply layer_loop_length; eauto.
Qed.

Lemma append_all_traced mk ls :
  (exists s, mk = AppendFirst s \/ mk = AppendLast s) ->
  forall first, traced (List.length ls) (append_all eps mk ls first).
Proof.
  intros (s & M). induction ls as [|l t IH]; intros first; simpl; [apply traced_draws, draws_ret|].
  apply (traced_bind 1); [|intros; apply IH].
  destruct M as [->| ->]; apply traced_call; lia.
Qed.

Lemma remove_all_traced mk k :
  (exists s, mk = RemoveFirst s \/ mk = RemoveLast s) ->
  forall first, traced k (remove_all eps mk k first).
Proof.
  intros (s & M). induction k as [|k IH]; intros first; simpl; [apply traced_draws, draws_ret|].
  apply (traced_bind 1); [|intros; apply IH].
  destruct M as [->| ->]; apply traced_call; lia.
Qed.

(** ** Methods of the compiler *)
Definition ctraced {A} (c0 : compiler) (k : nat) (m : CM A) : Prop :=
  forall st b, evolves k (r_world st) (r_world (fst (fst (m (st, set_beta c0 b))))) /\
    exists b', snd (fst (m (st, set_beta c0 b))) = set_beta c0 b'.

Lemma ctraced_bind {A B} c0 k1 k2 (m : CM A) (f : A -> CM B) :
  ctraced c0 k1 m -> (forall st st' a, m st = (st', Ok a) -> ctraced c0 k2 (f a)) -> ctraced c0 (k1 + k2) (se_bind m f).
Proof.
  intros H1 H2 st b. unfold se_bind. destruct (H1 st b) as [H3 [b' H4]].
  destruct (m (st, set_beta c0 b)) as [[st1 c1] [a|x]] eqn:E; cbn [fst snd] in *.
  - subst c1. destruct (H2 _ _ _ E st1 b') as [H5 H6]. split; [eapply evolves_trans; eauto|exact H6].
  - split; [eapply evolves_mono; [|exact H3]; lia|eauto].
Qed.

Lemma ctraced_run {A} c0 k (m : RM A) : traced k m -> ctraced c0 k (c_run m).
Proof.
  intros H st b. specialize (H st). unfold c_run. cbn [fst snd]. destruct (m st) as [st' x]. cbn [fst snd].
  split; [exact H|eauto].
Qed.

Lemma ctraced_ret {A} c0 k (a : A) : ctraced c0 k (se_ret a).
Proof. intros st b. split; [apply evolves_refl|cbn; eauto]. Qed.

Lemma ctraced_lift {A} c0 k (r : res A) : ctraced c0 k (se_lift r).
Proof. intros st b. split; [apply evolves_refl|cbn; eauto]. Qed.

Lemma ctraced_self {A} c0 k (f : compiler -> CM A) :
  (forall b, ctraced c0 k (f (set_beta c0 b))) -> ctraced c0 k (c <-- c_self ;; f c).
Proof. intros H st b. unfold se_bind, c_self. cbn [snd]. apply (H b st b). Qed.

Lemma ctraced_mono {A} c0 k k' (m : CM A) : (k <= k')%nat -> ctraced c0 k m -> ctraced c0 k' m.
Proof. intros L H st b. destruct (H st b). split; auto. eapply evolves_mono; eauto. Qed.

Lemma single_traced c0 s : Forall safe_primitive (c_prims c0) -> ctraced c0 1 (make_random_change g eps s).
Proof.
  intros HS. apply ctraced_self. intros b.
  apply (ctraced_bind c0 0 1); [apply ctraced_run, traced_draws, draws_choose_action|]. intros st st' a _.
  assert (A : forall mk, (forall l, traced 1 (call eps (mk l true))) ->
    ctraced c0 1 (l <-- c_run (create_random_sequence_entry g eps (c_dim (set_beta c0 b)) (c_prims (set_beta c0 b)) (c_probs (set_beta c0 b)));;
     c_run (call eps (mk l true));;; se_ret tt)).
  { intros mk Hmk. apply (ctraced_bind c0 0 1); [apply ctraced_run, create_traced; exact HS|]. intros.
    apply (ctraced_bind c0 1 0); [apply ctraced_run, Hmk|]. intros. apply ctraced_ret. }
  destruct a.
  - apply (A (AppendFirst s)). intros. apply traced_call. lia.
  - apply (A (AppendLast s)). intros. apply traced_call. lia.
  - apply (ctraced_bind c0 1 0); [apply ctraced_run, traced_call; lia|]. intros. apply ctraced_ret.
  - apply (ctraced_bind c0 1 0); [apply ctraced_run, traced_call; lia|]. intros. apply ctraced_ret.
Qed.

Lemma layered_traced c0 counts s : Forall (fun pc => safe_primitive (fst pc)) counts ->
  ctraced c0 (layer_size counts) (make_random_change_layered g eps counts s).
Proof.
  intros HS. apply ctraced_self. intros b.
  apply (ctraced_bind c0 0 (layer_size counts)); [apply ctraced_run, traced_draws, draws_choose_action|]. intros st st' a _.
  assert (A : forall mk, (exists s, mk = AppendFirst s \/ mk = AppendLast s) ->
    ctraced c0 (layer_size counts) (ls <-- c_run (create_random_layer g eps (c_dim (set_beta c0 b)) counts);;
     c_run (append_all eps mk ls true))).
  { intros mk Hmk. apply (ctraced_bind c0 0 (layer_size counts)); [apply ctraced_run, layer_traced; exact HS|].
    intros [st1 c1] [st2 c2] ls E. apply c_run_inv in E. destruct E as [E _].
    apply ctraced_run. rewrite <- (layer_length_ok _ _ _ _ _ E). now apply append_all_traced. }
  pose proof (layer_length_size counts) as L.
  destruct a; [apply A; eauto|apply A; eauto| |];
    (apply ctraced_mono with (k := Z.to_nat (layer_length counts)); [exact L|]; apply ctraced_run;
     apply remove_all_traced; eauto).
Qed.

Lemma anneal_traced c0 : ctraced c0 0 anneal.
Proof. intros st b. split; [apply evolves_refl|]. eexists. unfold anneal. cbn [fst snd]. apply set_beta_set. Qed.

Lemma step_traced c0 k change s target :
  (forall s, ctraced c0 k (change s)) -> ctraced c0 k (compile_step g eps change s target).
Proof.
  intros HC. unfold compile_step.
  apply (ctraced_bind c0 0); [apply anneal_traced|]. intros.
  apply (ctraced_bind c0 0); [apply ctraced_run, traced_call_unitary|]. intros.
  replace k with (k + 0)%nat by lia. apply (ctraced_bind c0 k 0); [apply HC|]. intros.
  apply (ctraced_bind c0 0 0); [apply ctraced_lift|]. intros.
  apply (ctraced_bind c0 0 0); [apply ctraced_run, traced_call_unitary|]. intros.
  apply (ctraced_bind c0 0 0); [apply ctraced_lift|]. intros.
  apply (ctraced_bind c0 0 0).
  { apply ctraced_self. intros. apply (ctraced_bind c0 0 0); [apply ctraced_run, traced_draws, draws_unif|].
    intros. apply ctraced_ret. }
  intros sx sx' [|] _; [apply ctraced_ret|].
  apply (ctraced_bind c0 0 0); [apply ctraced_run, traced_call; exact I|]. intros. apply ctraced_ret.
Qed.

Lemma loop_traced c0 k change s target thr max :
  (forall s, ctraced c0 k (change s)) ->
  forall fuel costs,
  ctraced c0 (k * Z.to_nat (max - Z.of_nat (List.length costs)))
    (compile_loop g eps change s target thr max costs fuel).
Proof.
  intros HC. induction fuel as [|fuel IH]; intros costs; cbn [compile_loop].
  { intros st b. split; [apply evolves_refl|cbn; eauto]. }
  apply (ctraced_bind c0 0); [apply ctraced_run, traced_call_unitary|]. intros.
  apply (ctraced_bind c0 0); [apply ctraced_lift|]. intros st1 st1' [|] _; [apply ctraced_ret|].
  destruct (Z.ltb_spec (Z.of_nat (List.length costs)) max) as [L|L]; [|apply ctraced_ret].
  apply ctraced_mono with (k := (k + k * Z.to_nat (max - Z.of_nat (Datatypes.S (List.length costs))))%nat).
  { replace (Z.to_nat (max - Z.of_nat (List.length costs)))
      with (Datatypes.S (Z.to_nat (max - Z.of_nat (Datatypes.S (List.length costs))))) by lia. rewrite Nat.mul_succ_r. apply Nat.eq_le_incl, Nat.add_comm. }
  apply ctraced_bind; [now apply step_traced|]. intros st2 st2' cost _.
  replace (Datatypes.S (List.length costs)) with (List.length (costs ++ [cost])) by (rewrite app_length; simpl; lia).
  apply IH.
Qed.

Lemma with_traced c0 k change target thr max :
  (forall s, ctraced c0 k (change s)) ->
  ctraced c0 (k * Z.to_nat max) (compile_with g eps change target thr max).
Proof.
  intros HC. apply ctraced_self. intros b.
  apply (ctraced_bind c0 0 (k * Z.to_nat max)).
  { apply ctraced_run. apply (traced_bind 0 0); [now apply traced_call|].
    intros st st' v _. destruct v; apply traced_draws; first [apply draws_ret|apply draws_raise]. }
  intros st st' s _. replace (k * Z.to_nat max)%nat with (k * Z.to_nat (max - Z.of_nat (@List.length R [])) + 0)%nat.
  2:{ simpl. rewrite Z.sub_0_r. lia. }
  apply ctraced_bind; [now apply loop_traced|]. intros. apply ctraced_ret.
Qed.
End Trace.

(** ** Consequences for the invariant of histories *)
Section TraceInv.
Variable eps : R.
Hypothesis eps0 : (0 <= eps)%R.
Hypothesis eps1 : (eps <= 1)%R.
Variable b : bool.
Definition safe_gate (u : unitary) : Prop := rough eps u /\ (b = true -> wf u /\ eps_clean eps (u_dim u) (u_mat u)).

Lemma evolves_winv K k w w' : winv eps b K w -> evolves eps safe_gate k w w' -> winv eps b (K + k) w'.
Proof.
  intros HW (os & -> & H & U). eapply winv_mono; [exact eps0|exact eps1|apply U|].
  apply exec_winv; auto. clear U HW. revert w H. induction os as [|o os IH]; intros w H; auto.
  cbn [history] in *. destruct H as [H1 H2]. split; [|now apply IH].
  destruct o; auto; contradiction.
Qed.
End TraceInv.
