(** Runs with primitives whose qubits are not listed, the drawn qubits renumbered: C115. *)
From Coq Require Import Reals List Arith Lia Lra Bool String ZArith Permutation.
From Coquelicot Require Import Complex.
From Verif Require Import Base CMat CMatFacts Det DetFacts CRoot ModelUnitary ModelEntry ModelPrimitive ModelSequence ModelCompiler
  ModelRound ModelRoundComp Spec SpecModel SpecCompiler SpecAgree SpecRepro SpecTurn SpecRelabel PUnitary PEntry PSeqHeap PSeqMeth PSeqWorld
  PSeqUndo PCompView PCompRun PCompEntry PCompLoop PAgree PAgree2 PAgreeEx PSu2 PRepro PPhase PTurn PTurn2 PRelabel PRelabel2.
Import ListNotations.
Open Scope R_scope.
Open Scope list_scope.
Open Scope se_scope.
Set Bullet Behavior "Strict Subproofs".

Section Two.
Variables g1 g2 : rng.
Variables d1 d2 : nat.
Variable eps : R.
Hypothesis RG1 : rng_ok g1.
Variable n : nat.
Variable f : nat -> nat.
Hypothesis N0 : (0 < n)%nat.
Hypothesis RL : relabelling n f.
Hypothesis SN : renumbered_answers n f g1 d1 g2 d2.
Notation ask := (ask d1 d2).
Notation tied := (tied d1 d2).
Notation born := (born d1 d2 eps).
Let PL : forall i, (i < 2 ^ n)%nat -> (phi n f i < 2 ^ n)%nat := fun i _ => phi_lt n f N0 RL i.
Let PI := phi_inj n f N0 RL.
Notation tiedr := (PTurn2.tiedr d1 d2).
Notation one_gate := (PRelabel2.one_gate n f).

(** The second generator without the renumbering. *)
Let g3 : rng := {| g_unif := g_unif g2; g_int := g_int g2; g_perm := fun j m => g_perm g1 (d1 + (j - d2)) m |}.
Lemma SA : same_answers g1 d1 g3 d2.
Proof. intros k. destruct (SN k) as (A & B & _). split; [exact A|]. split; [exact B|]. intros m. cbn. f_equal. lia. Qed.
Lemma u_choice m : tied (choice_unif g1 m) (choice_unif g2 m). Proof. exact (tied_choice_unif g1 g3 d1 d2 SA m). Qed.
Lemma u_choice_p m p : tied (choice_p g1 m p) (choice_p g2 m p). Proof. exact (tied_choice_p g1 g3 d1 d2 SA m p). Qed.
Lemma u_values ps : tied (random_values g1 ps) (random_values g2 ps). Proof. exact (tied_values g1 g3 d1 d2 SA ps). Qed.
Lemma u_action a : tied (choose_action g1 a) (choose_action g2 a). Proof. exact (tied_action g1 g3 d1 d2 SA a). Qed.
Lemma u_unif : tied (draw_unif g1) (draw_unif g2). Proof. exact (tied_unif g1 g3 d1 d2 SA). Qed.
Lemma u_distinct k : tiedr (fun a b => (placement n a \/ a = []) /\ b = map f a) (choice_distinct g1 n k) (choice_distinct g2 n k).
Proof.
  intros st1 st2 HA. unfold choice_distinct. destruct (Nat.ltb n k); [reflexivity|]. unfold two. cbn [fst snd r_world].
  assert (X := ask_next _ _ _ _ HA). destruct HA as (j & E1 & E2). rewrite E1, E2 in *. destruct (SN j) as (_ & _ & EP).
  split; [|auto]. rewrite EP, firstn_map. split; [|reflexivity].
  assert (PM := proj2 (proj2 RG1) (d1 + j)%nat n). destruct (firstn k (g_perm g1 (d1 + j) n)) as [|q l] eqn:F; [now right|left].
  split; [|split; [discriminate|]].
  - rewrite <- F. assert (ND : NoDup (firstn k (g_perm g1 (d1 + j) n) ++ skipn k (g_perm g1 (d1 + j) n))).
    { rewrite firstn_skipn. eapply Permutation_NoDup; [apply Permutation_sym, PM|apply seq_NoDup]. }
    revert ND. generalize (skipn k (g_perm g1 (d1 + j) n)) as t. generalize (firstn k (g_perm g1 (d1 + j) n)) as h. clear.
    induction h as [|x h IH]; intros t ND; [constructor|]. cbn [app] in ND. inversion ND as [|? ? NI ND']; subst.
    constructor; [|now apply (IH t)]. intros I. apply NI, in_or_app. now left.
  - intros r Hr. rewrite <- F in Hr. assert (I : In r (g_perm g1 (d1 + j) n)) by (rewrite <- (firstn_skipn k); apply in_or_app; now left).
    apply (Permutation_in r PM), in_seq in I. lia.
Qed.

Notation tprim := (renumbered_primitive n f).
Lemma usable_free ps qs : Forall2 tprim ps qs -> Forall2 tprim (filter usable ps) (filter usable qs).
Proof.
  intros H. induction H as [|p q ps qs T _ IH]; cbn [filter]; [constructor|].
  replace (usable q) with (usable p).
  - destruct (usable p); [now constructor|exact IH].
  - destruct T as (_ & T). unfold usable. destruct (p_allowed p) as [ls|]; [|now rewrite T]. rewrite (proj1 T). now destruct ls.
Qed.
Lemma born_create ps qs probs : Forall2 tprim ps qs ->
  born one_gate (create_random_sequence_entry g1 eps (2 ^ n) ps probs) (create_random_sequence_entry g2 eps (2 ^ n) qs probs).
Proof.
  intros HP. apply usable_free in HP. unfold create_random_sequence_entry. rewrite (F2_length _ _ _ HP).
  apply born_after.
  { destruct probs; [apply u_choice_p|apply u_choice]. }
  intros i. assert (X := nth_turned _ _ _ HP i).
  destruct (nth_error (filter usable ps) i) as [pr|], (nth_error (filter usable qs) i) as [qr|]; try contradiction;
    [|intros st1 st2 _ _ _; reflexivity].
  destruct X as (SR & AL). rewrite SR.
  apply born_after.
  { destruct (p_source pr) as [u|pu]; [apply tied_ret|]. apply tied_bind; [apply u_values|].
    intros vs st1 st2 HA. unfold two, se_lift. cbn [fst snd]. destruct (as_unitary eps pu vs); auto. }
  intros u.
  apply born_afterr with (P := fun a b : list nat => (placement n a \/ a = []) /\ b = map f a).
  { destruct (p_allowed pr) as [ls|].
    - destruct AL as [-> PLs]. rewrite map_length.
      eapply tiedr_bind; [apply tiedr_tied, u_choice|]. intros k ? <- st1 st2 HA. cbn. split; [|auto]. split.
      + destruct (nth_in_or_default k ls []) as [I|E]; [left; now apply PLs|now right].
      + rewrite <- (map_nth (map f)). reflexivity.
    - rewrite AL, Nat.log2_pow2 by lia. apply u_distinct. }
  intros a b [HP' ->]. now apply (PRelabel2.born_entry d1 d2 eps n f N0 RL).
Qed.

Variables s1 s2 : nat.
Notation twins := (PRelabel2.twins d1 d2 eps n f s1 s2).
Definition tcomp (c d : compiler) : Prop := renumbered_compiler n f c d /\ c_dim c = (2 ^ n)%nat.
Notation both := (PRelabel2.both d1 d2 eps n f s1 s2).
Lemma tc_append c d : tcomp c d -> c_append d = c_append c. Proof. intros [[_ ->] _]. reflexivity. Qed.
Lemma tc_dim c d : tcomp c d -> c_dim d = c_dim c. Proof. intros [[_ ->] _]. reflexivity. Qed.
Lemma tc_probs c d : tcomp c d -> c_probs d = c_probs c. Proof. intros [[_ ->] _]. reflexivity. Qed.
Lemma tc_beta c d : tcomp c d -> c_beta d = c_beta c. Proof. intros [[_ ->] _]. reflexivity. Qed.
Lemma tc_rate c d : tcomp c d -> c_rate d = c_rate c. Proof. intros [[_ ->] _]. reflexivity. Qed.
Lemma tc_max c d : tcomp c d -> c_max_beta d = c_max_beta c. Proof. intros [[_ ->] _]. reflexivity. Qed.
Lemma tc_set c d b : tcomp c d -> tcomp (set_beta c b) (set_beta d b).
Proof. intros [[H E] D]. split; [|exact D]. split; [exact H|]. rewrite E. reflexivity. Qed.

Lemma change_both c d : tcomp c d -> both c d (make_random_change g1 eps s1) (make_random_change g2 eps s2).
Proof.
  intros TC st1 st2 HT. unfold make_random_change. apply two_selves.
  rewrite (tc_append c d TC), (tc_dim c d TC), (tc_probs c d TC), (proj2 TC).
  eapply two_bind; [apply run_two2, (PRelabel2.tied_twins d1 d2 eps n f s1 s2 _ _ (u_action (c_append c)) st1 st2 HT)|].
  intros a [t1 c1] b [t2 c2] ((<- & HT') & E1 & E2). cbn [fst snd] in *. subst c1 c2. clear HT st1 st2.
  assert (AP : forall fe : bool, two (fun a t1 b t2 => a = b /\ twins (fst t1) (fst t2) /\ snd t1 = c /\ snd t2 = d)
    ((l <-- c_run (create_random_sequence_entry g1 eps (2 ^ n) (c_prims c) (c_probs c)) ;;
      c_run (call eps ((if fe then AppendFirst s1 else AppendLast s1) l true)) ;;; se_ret tt) (t1, c))
    ((l <-- c_run (create_random_sequence_entry g2 eps (2 ^ n) (c_prims d) (c_probs c)) ;;
      c_run (call eps ((if fe then AppendFirst s2 else AppendLast s2) l true)) ;;; se_ret tt) (t2, d))).
  { intros fe. destruct HT' as (HA & HW1 & HW2 & V). assert (HT := conj HA (conj HW1 (conj HW2 V))). clear V.
    eapply two_bind; [apply run_two2, (born_create _ _ _ (proj1 (proj1 TC)) t1 t2 HA HW1 HW2)|].
    intros l1 [r1 c1] l2 [r2 c2] (((gt & ht & H1 & H2 & GH) & G1 & G2 & Y1 & Y2 & HA') & E1 & E2). cbn [fst snd] in *. subst c1 c2.
    assert (HT2 := PRelabel2.twins_grow d1 d2 eps n f s1 s2 t1 t2 r1 r2 HT G1 G2 Y1 Y2 HA').
    eapply two_bind.
    - apply run_two2, (PRelabel2.twins_call_unit d1 d2 eps n f N0 RL s1 s2 _ _ (if fe then RFirst gt true else RLast gt true) (if fe then RFirst ht true else RLast ht true) r1 r2 HT2);
        destruct fe; try (now apply has_gate_call); try (now apply has_gate_call_last); cbn; auto.
    - intros v [u1 c1] v' [u2 c2] ((_ & HT3) & E1 & E2). cbn in *. auto. }
  assert (RM : forall fe : bool, two (fun a t1 b t2 => a = b /\ twins (fst t1) (fst t2) /\ snd t1 = c /\ snd t2 = d)
    ((c_run (call eps ((if fe then RemoveFirst s1 else RemoveLast s1) true)) ;;; se_ret tt) (t1, c))
    ((c_run (call eps ((if fe then RemoveFirst s2 else RemoveLast s2) true)) ;;; se_ret tt) (t2, d))).
  { intros fe. eapply two_bind.
    - apply run_two2, (PRelabel2.twins_call_unit d1 d2 eps n f N0 RL s1 s2 _ _ (if fe then RPopFirst true else RPopLast true) (if fe then RPopFirst true else RPopLast true) t1 t2 HT');
        destruct fe; try constructor; reflexivity.
    - intros v [u1 c1] v' [u2 c2] ((_ & HT3) & E1 & E2). cbn in *. auto. }
  destruct a; [exact (AP true)|exact (AP false)|exact (RM true)|exact (RM false)].
Qed.

Lemma step_both target target2 (ch1 ch2 : nat -> CM unit) : urel (2 ^ n) (phi n f) target target2 ->
  (forall c d, tcomp c d -> both c d (ch1 s1) (ch2 s2)) -> forall st1 st2 c d, twins st1 st2 -> tcomp c d ->
  two (fun a t1 b t2 => a = b /\ twins (fst t1) (fst t2) /\ tcomp (snd t1) (snd t2))
    (compile_step g1 eps ch1 s1 target (st1, c)) (compile_step g2 eps ch2 s2 target2 (st2, d)).
Proof.
  intros TG HC st1 st2 c d HT TC. unfold compile_step. set (c' := set_beta c (Rmin (c_beta c + c_rate c) (c_max_beta c))).
  set (d' := set_beta d (Rmin (c_beta c + c_rate c) (c_max_beta c))). assert (TC' : tcomp c' d') by now apply tc_set.
  eapply two_bind with (Q := fun _ t1 _ t2 => t1 = (st1, c') /\ t2 = (st2, d')).
  { cbn. unfold d'. rewrite (tc_beta c d TC), (tc_rate c d TC), (tc_max c d TC). auto. }
  intros _ ? _ ? [-> ->].
  eapply two_bind; [apply run_two2, (PRelabel2.alike_product d1 d2 eps n f N0 RL s1 s2 st1 st2 HT)|].
  intros pb [t1 k1] pb' [t2 k2] ((PB & HT1) & E1 & E2). cbn [fst snd] in *. subst k1 k2.
  eapply two_bind; [apply (HC c' d' TC' t1 t2 HT1)|].
  intros x [r1 k1] x' [r2 k2] (_ & HT2 & E1 & E2). cbn [fst snd] in *. subst k1 k2. clear x x'.
  eapply two_bind with (Q := fun a t1 b t2 => a = b /\ t1 = (r1, c') /\ t2 = (r2, d')).
  { unfold two, se_lift. cbn [fst snd]. rewrite (distance_moved eps _ _ PL PI target target2 pb pb' TG PB). destruct (u_distance_from eps target2 pb'); auto. }
  intros cur ? cur' ? (<- & -> & ->).
  eapply two_bind; [apply run_two2, (PRelabel2.alike_product d1 d2 eps n f N0 RL s1 s2 r1 r2 HT2)|].
  intros pp [u1 k1] pp' [u2 k2] ((PP & HT3) & E1 & E2). cbn [fst snd] in *. subst k1 k2.
  eapply two_bind with (Q := fun a t1 b t2 => a = b /\ t1 = (u1, c') /\ t2 = (u2, d')).
  { unfold two, se_lift. cbn [fst snd]. rewrite (distance_moved eps _ _ PL PI target target2 pp pp' TG PP). destruct (u_distance_from eps target2 pp'); auto. }
  intros prop ? prop' ? (<- & -> & ->).
  eapply two_bind with (Q := fun a t1 b t2 => a = b /\ twins (fst t1) (fst t2) /\ snd t1 = c' /\ snd t2 = d').
  { unfold accept_proposed_change. apply two_selves. rewrite (tc_beta c' d' TC').
    eapply two_bind; [apply run_two2, (PRelabel2.tied_twins d1 d2 eps n f s1 s2 _ _ u_unif u1 u2 HT3)|].
    intros x [v1 k1] x' [v2 k2] ((<- & HT4) & E1 & E2). cbn [fst snd] in *. subst k1 k2. cbn. auto. }
  intros acc [v1 k1] acc' [v2 k2] (<- & HT4 & E1 & E2). cbn [fst snd] in *. subst k1 k2. destruct acc.
  - cbn. auto.
  - eapply two_bind; [apply run_two2, (PRelabel2.twins_call_unit d1 d2 eps n f N0 RL s1 s2 _ _ RUndo RUndo v1 v2 HT4 I (same_undo _ _) (same_undo _ _))|].
    intros v [w1 k1] v' [w2 k2] ((_ & HT5) & E1 & E2). cbn [fst snd] in *. subst. cbn. auto.
Qed.

Lemma loop_both target target2 thr K (ch1 ch2 : nat -> CM unit) : urel (2 ^ n) (phi n f) target target2 -> (forall c d, tcomp c d -> both c d (ch1 s1) (ch2 s2)) ->
  forall fuel costs st1 st2 c d, twins st1 st2 -> tcomp c d ->
  two (fun a t1 b t2 => a = b /\ twins (fst t1) (fst t2) /\ tcomp (snd t1) (snd t2))
    (compile_loop g1 eps ch1 s1 target thr K costs fuel (st1, c)) (compile_loop g2 eps ch2 s2 target2 thr K costs fuel (st2, d)).
Proof.
  intros TG HC. induction fuel as [|fuel IH]; intros costs st1 st2 c d HT TC; cbn [compile_loop]; [reflexivity|].
  eapply two_bind; [apply run_two2, (PRelabel2.alike_product d1 d2 eps n f N0 RL s1 s2 st1 st2 HT)|].
  intros p [t1 k1] p' [t2 k2] ((PP & HT1) & E1 & E2). cbn [fst snd] in *. subst k1 k2.
  eapply two_bind with (Q := fun a r1 b r2 => a = b /\ r1 = (t1, c) /\ r2 = (t2, d)).
  { unfold two, se_lift. cbn [fst snd]. rewrite (close_moved eps _ _ PL PI target target2 p p' thr TG PP). destruct (u_close_to eps p' target2 thr); auto. }
  intros cl ? cl' ? (<- & -> & ->). destruct cl; [cbn; auto|].
  destruct (Z.ltb _ _); [|cbn; auto].
  eapply two_bind; [apply (step_both target target2 ch1 ch2 TG HC t1 t2 c d HT1 TC)|].
  intros x [r1 k1] x' [r2 k2] (<- & HT2 & E). cbn [fst snd] in *. now apply IH.
Qed.
End Two.

Lemma with_both g1 g2 d1 d2 eps n f target target2 thr K (ch1 ch2 : nat -> CM unit) st1 st2 c d : urel (2 ^ n) (phi n f) target target2 -> (0 < n)%nat -> relabelling n f -> rng_ok g1 -> renumbered_answers n f g1 d1 g2 d2 ->
  (forall s1 s2 c d, tcomp n f c d -> PRelabel2.both d1 d2 eps n f s1 s2 c d (ch1 s1) (ch2 s2)) ->
  (exists k, r_draws st1 = (d1 + k)%nat /\ r_draws st2 = (d2 + k)%nat) -> WG eps anyg (r_world st1) -> WG eps anyg (r_world st2) ->
  tcomp n f c d -> c_dim c = (2 ^ n)%nat ->
  relabelled_compilation f d1 d2 (compile_with g1 eps ch1 target thr K (st1, c)) (compile_with g2 eps ch2 target2 thr K (st2, d)).
Proof.
  intros TG N0 RL RG SA HC HA W1 W2 TC HD.
  assert (KK : two (fun a t1 b t2 => snd a = snd b /\ PRelabel2.twins d1 d2 eps n f (fst a) (fst b) (fst t1) (fst t2) /\ tcomp n f (snd t1) (snd t2))
    (compile_with g1 eps ch1 target thr K (st1, c)) (compile_with g2 eps ch2 target2 thr K (st2, d))).
  { set (q0 := {| s_dim := c_dim c; s_array := false; s_entries := []; s_product := None; s_prev_entries := None; s_prev_product := None |}).
    assert (NS : forall st : rstate, step eps (NewSequence (c_dim c) false []) (r_world st) =
      ({| w_heap := w_heap (r_world st); w_seqs := w_seqs (r_world st) ++ [q0] |}, Ok (VSequence (List.length (w_seqs (r_world st)))))) by reflexivity.
    assert (VW : forall st : rstate, plain_view {| w_heap := w_heap (r_world st); w_seqs := w_seqs (r_world st) ++ [q0] |} (List.length (w_seqs (r_world st))) = Some (r_empty (c_dim c))).
    { intros st. unfold plain_view. cbn [w_seqs w_heap]. rewrite nth_error_app2, Nat.sub_diag by lia. reflexivity. }
    unfold compile_with. apply two_selves. rewrite (tc_dim n f c d TC).
    eapply two_bind with (Q := fun a t1 b t2 => PRelabel2.twins d1 d2 eps n f a b (fst t1) (fst t2) /\ snd t1 = c /\ snd t2 = d).
    - refine (run_two2 (fun a t1 b t2 => PRelabel2.twins d1 d2 eps n f a b t1 t2) _ _ c d st1 st2 _).
      unfold call_sequence, call, two, se_bind. rewrite !NS. cbn [fst snd se_ret].
      split; [exact HA|]. cbn [r_world].
      assert (Y1 := W_step eps (NewSequence (c_dim c) false []) _ W1). assert (Y2 := W_step eps (NewSequence (c_dim c) false []) _ W2).
      rewrite NS in Y1, Y2. split; [exact Y1|]. split; [exact Y2|]. exists (r_empty (c_dim c)), (r_empty (c_dim c)).
      split; [apply VW|]. split; [apply VW|]. unfold seq_moved. cbn. rewrite HD. repeat split; constructor.
    - intros a [t1 k1] b [t2 k2] (HT & E1 & E2). cbn [fst snd] in *. subst k1 k2.
      eapply two_bind; [apply (loop_both g1 g2 d1 d2 eps n f N0 RL SA a b target target2 thr K ch1 ch2 TG (HC a b) _ _ t1 t2 c d HT TC)|].
      intros costs [u1 k1] costs' [u2 k2] (<- & HT2 & E). cbn [fst snd] in *. cbn. auto. }
  unfold two, relabelled_compilation in *.
  destruct (compile_with g1 eps ch1 target thr K (st1, c)) as [[t1 k1] [[a ca]|e]],
    (compile_with g2 eps ch2 target2 thr K (st2, d)) as [[t2 k2] [[b cb]|e']]; cbn [fst snd] in *; auto.
  destruct KK as (-> & (HA' & _ & _ & q & r & V1 & V2 & T) & TC'). split; [reflexivity|]. split; [symmetry; now apply (tc_beta n f)|].
  split; [exact HA'|]. rewrite (view_contents _ _ _ V1), (view_contents _ _ _ V2).
  destruct T as (_ & _ & T & _). clear - T. induction T as [|g h gs hs (E & _) _ IH]; cbn [map]; [reflexivity|]. now rewrite E, IH.
Qed.

Theorem compile_free : forall g1 g2 eps n f t1 t2 thr K c d st1 st2, (0 < n)%nat -> relabelling n f ->
  relabelled_unitary n f t1 t2 ->
  rng_ok g1 -> renumbered_answers n f g1 (r_draws st1) g2 (r_draws st2) -> reachable eps (r_world st1) -> reachable eps (r_world st2) ->
  renumbered_compiler n f c d -> c_dim c = (2 ^ n)%nat ->
  relabelled_compilation f (r_draws st1) (r_draws st2) (compile g1 eps t1 thr K (st1, c)) (compile g2 eps t2 thr K (st2, d)).
Proof.
  intros g1 g2 eps n f t1 t2 thr K c d st1 st2 N0 RL TG RG SA [os1 R1] [os2 R2] TC HD. apply (unitary_urel n f N0 RL) in TG.
  assert (TD : tcomp n f c d) by (split; assumption).
  assert (AP : assert_primitives d = assert_primitives c).
  { unfold assert_primitives. rewrite <- (F2_length _ _ _ (proj1 TC)). destruct TC as [_ ->]. reflexivity. }
  assert (WB := with_both g1 g2 (r_draws st1) (r_draws st2) eps n f t1 t2 thr K (make_random_change g1 eps) (make_random_change g2 eps)
    st1 st2 c d TG N0 RL RG SA).
  unfold compile, c_self, se_bind, se_lift. cbn [fst snd]. rewrite AP. destruct (assert_primitives c) as [u|e]; [|exact eq_refl].
  apply WB; auto; [intros s1 s2 c0 d0 T0; now apply change_both|exists 0%nat; lia|rewrite R1; apply W_exec|rewrite R2; apply W_exec].
Qed.
