(** Two runs with primitives that differ by global phases, in any two worlds: C114. *)
From Coq Require Import Reals List Arith Lia Lra Bool String ZArith Permutation.
From Coquelicot Require Import Complex.
From Verif Require Import Base CMat CMatFacts Det DetFacts CRoot ModelUnitary ModelEntry ModelPrimitive ModelSequence ModelCompiler
  ModelRound ModelRoundComp Spec SpecModel SpecCompiler SpecAgree SpecRepro SpecTurn PUnitary PEntry PSeqHeap PSeqMeth PSeqWorld
  PSeqUndo PCompView PCompRun PCompEntry PCompLoop PAgree PAgree2 PAgreeEx PSu2 PRepro PPhase PTurn.
Import ListNotations.
Open Scope R_scope.
Open Scope list_scope.
Open Scope se_scope.
Set Bullet Behavior "Strict Subproofs".

Lemma two_selves {T1 T2 A B} (Q : A -> T1 * compiler -> B -> T2 * compiler -> Prop) (f1 : compiler -> SE (T1 * compiler) A)
    (f2 : compiler -> SE (T2 * compiler) B) (st1 : T1) (st2 : T2) c d :
  two Q (f1 c (st1, c)) (f2 d (st2, d)) ->
  two Q (se_bind (fun s => (s, Ok (snd s))) f1 (st1, c)) (se_bind (fun s => (s, Ok (snd s))) f2 (st2, d)).
Proof. intros H. exact H. Qed.

Section Two.
Variables g1 g2 : rng.
Variables d1 d2 : nat.
Variable eps : R.
Hypothesis RG1 : rng_ok g1.
Hypothesis SA : same_answers g1 d1 g2 d2.
Variable n : nat.
Notation W := (WG eps anyg).
Notation ask := (ask d1 d2).
Notation tied := (tied d1 d2).
Notation born := (born d1 d2 eps).
Notation turn := (turned eps).
Notation gturn := (gate_turned eps).

(** ** Random numbers only *)
Definition tiedr {A B} (P : A -> B -> Prop) (m1 : RM A) (m2 : RM B) : Prop := forall st1 st2, ask st1 st2 ->
  two (fun a s1 b s2 => P a b /\ r_world s1 = r_world st1 /\ r_world s2 = r_world st2 /\ ask s1 s2) (m1 st1) (m2 st2).
Lemma tiedr_tied {A} (m1 m2 : RM A) : tied m1 m2 -> tiedr eq m1 m2.
Proof. intros H. exact H. Qed.
Lemma tiedr_lift {A B} (P : A -> B -> Prop) x y : same_res P x y -> tiedr P (se_lift x) (se_lift y).
Proof. intros H st1 st2 HA. unfold two, se_lift. cbn [fst snd]. unfold same_res in H. destruct x, y; auto. Qed.
Lemma tiedr_bind {A B A' B'} (P : A -> B -> Prop) (P' : A' -> B' -> Prop) m1 m2 f1 f2 : tiedr P m1 m2 ->
  (forall a b, P a b -> tiedr P' (f1 a) (f2 b)) -> tiedr P' (se_bind m1 f1) (se_bind m2 f2).
Proof.
  intros H K st1 st2 HA. eapply two_bind; [exact (H st1 st2 HA)|].
  intros a s1 b s2 (HP & E1 & E2 & HA'). eapply two_mono; [exact (K a b HP s1 s2 HA')|].
  cbn. intros c t1 d t2 (X & F1 & F2 & HA2). rewrite F1, F2, E1, E2. auto.
Qed.

(** ** New entries *)
Lemma born_afterr {A B C} (P : A -> B -> Prop) (Rel : world -> world -> C -> C -> Prop) m1 m2 f1 f2 : tiedr P m1 m2 ->
  (forall a b, P a b -> born Rel (f1 a) (f2 b)) -> born Rel (se_bind m1 f1) (se_bind m2 f2).
Proof.
  intros H K st1 st2 HA HW1 HW2. eapply two_bind; [exact (H st1 st2 HA)|].
  intros a s1 b s2 (HP & E1 & E2 & HA'). rewrite <- E1 in HW1. rewrite <- E2 in HW2.
  eapply two_mono; [exact (K a b HP s1 s2 HA' HW1 HW2)|]. cbn. now rewrite E1, E2.
Qed.
Definition one_gate (w1 w2 : world) (l1 l2 : nat) : Prop := exists gt ht, has_gate w1 l1 gt /\ has_gate w2 l2 ht /\ gturn gt ht.
Definition all_gates (w1 w2 : world) (ls1 ls2 : list nat) : Prop :=
  exists gs hs, Forall2 (has_gate w1) ls1 gs /\ Forall2 (has_gate w2) ls2 hs /\ Forall2 gturn gs hs.

Lemma entry_turned u v qs : turn u v ->
  same_res (fun e f => turn (e_unitary e) (e_unitary f) /\ e_apply f = e_apply e) (mk_entry u qs) (mk_entry v qs).
Proof.
  intros T. unfold mk_entry. rewrite (proj1 T). destruct (nodupb_Z qs); [|exact eq_refl]. cbn [assert bind].
  destruct (Nat.eqb _ _); [|exact eq_refl]. cbn [assert bind]. destruct qs as [|q qs]; [exact eq_refl|].
  destruct (forallb _ _); [|exact eq_refl]. cbn. auto.
Qed.
Lemma born_entry u v qs : turn u v -> born one_gate (call_entry eps (NewEntry u qs)) (call_entry eps (NewEntry v qs)).
Proof.
  intros T st1 st2 HA HW1 HW2. unfold call_entry, call. assert (ME := entry_turned u v qs T). unfold same_res in ME.
  assert (Y1 := W_step eps (NewEntry u qs) _ HW1). assert (Y2 := W_step eps (NewEntry v qs) _ HW2).
  unfold two, se_bind. cbn [step] in *.
  destruct (mk_entry u qs) as [e|x], (mk_entry v qs) as [f|y]; try contradiction; cbn [fst snd se_ret se_raise] in *; [|exact ME].
  split; [|split; [|split; [|split; [|split]]]].
  - exists (e_unitary e, e_apply e), (e_unitary f, e_apply f). split; [|split; [|exact ME]];
      (split; [cbn; rewrite app_length; cbn; lia|]); unfold obj; cbn; rewrite nth_middle; reflexivity.
  - split; [reflexivity|apply heap_ext_app].
  - split; [reflexivity|apply heap_ext_app].
  - exact Y1.
  - exact Y2.
  - exact HA.
Qed.

Notation tprim := (turned_primitive eps).
Lemma usable_turned ps qs : Forall2 tprim ps qs -> Forall2 tprim (filter usable ps) (filter usable qs).
Proof.
  intros H. induction H as [|p q ps qs T _ IH]; cbn [filter]; [constructor|].
  replace (usable q) with (usable p) by (unfold usable; now rewrite (proj1 T)). destruct (usable p); [now constructor|exact IH].
Qed.
Lemma nth_turned {A B} (P : A -> B -> Prop) ps qs : Forall2 P ps qs -> forall i,
  match nth_error ps i, nth_error qs i with Some p, Some q => P p q | None, None => True | _, _ => False end.
Proof. intros H. induction H as [|a b ps qs H _ IH]; intros [|i]; cbn [nth_error]; auto. exact (IH i). Qed.

Lemma born_create d ps qs probs : Forall2 tprim ps qs ->
  born one_gate (create_random_sequence_entry g1 eps d ps probs) (create_random_sequence_entry g2 eps d qs probs).
Proof.
  intros HP. apply usable_turned in HP. unfold create_random_sequence_entry. rewrite (F2_length _ _ _ HP).
  apply born_after.
  { destruct probs; [apply tied_choice_p|apply tied_choice_unif]; exact SA. }
  intros i. assert (X := nth_turned _ _ _ HP i).
  destruct (nth_error (filter usable ps) i) as [pr|], (nth_error (filter usable qs) i) as [qr|]; try contradiction;
    [|intros st1 st2 _ _ _; reflexivity].
  destruct X as [AL SR]. rewrite AL.
  eapply born_afterr with (P := turn).
  { destruct (p_source pr) as [u|pu], (p_source qr) as [v|qu]; try contradiction.
    - intros st1 st2 HA. cbn. auto.
    - destruct SR as [-> SR]. eapply tiedr_bind; [apply tiedr_tied, tied_values; exact SA|]. intros vs ? <-. apply tiedr_lift, SR. }
  intros u v T. rewrite (proj1 T). apply born_after.
  { destruct (p_allowed pr) as [al|]; [|apply tied_distinct; exact SA].
    apply tied_bind; [apply tied_choice_unif; exact SA|]. intros k. apply tied_ret. }
  intros ap. now apply born_entry.
Qed.

Lemma one_gate_grows w1 w2 w1' w2' l1 l2 : grows w1 w1' -> grows w2 w2' -> one_gate w1 w2 l1 l2 -> one_gate w1' w2' l1 l2.
Proof.
  intros [_ X1] [_ X2] (gt & ht & H1 & H2 & G). exists gt, ht.
  assert (F1 := has_gates_ext w1 w1' [l1] [gt] X1 ltac:(repeat constructor; apply H1)).
  assert (F2 := has_gates_ext w2 w2' [l2] [ht] X2 ltac:(repeat constructor; apply H2)).
  inversion F1; inversion F2; subst. auto.
Qed.
Lemma all_gates_grows w1 w2 w1' w2' l1 l2 : grows w1 w1' -> grows w2 w2' -> all_gates w1 w2 l1 l2 -> all_gates w1' w2' l1 l2.
Proof.
  intros [_ X1] [_ X2] (gs & hs & H1 & H2 & G). exists gs, hs. split; [|split]; auto; eapply has_gates_ext; eauto.
Qed.

Lemma born_ret_nil : born all_gates (se_ret []) (se_ret []).
Proof.
  intros st1 st2 HA HW1 HW2. cbn. split; [exists [], []; repeat split; constructor|].
  split; [apply grows_refl|]. split; [apply grows_refl|]. auto.
Qed.

Lemma born_entries d p q k : tprim p q -> born all_gates (create_entries g1 eps d p k) (create_entries g2 eps d q k).
Proof.
  intros TP. induction k as [|k IH]; cbn [create_entries]; [apply born_ret_nil|].
  intros st1 st2 HA HW1 HW2. eapply two_bind; [exact (born_create d [p] [q] None ltac:(auto) st1 st2 HA HW1 HW2)|].
  intros l1 s1 l2 s2 (HR & G1 & G2 & W1 & W2 & HA1). eapply two_bind; [exact (IH s1 s2 HA1 W1 W2)|].
  intros ls1 t1 ls2 t2 (HR' & G3 & G4 & W3 & W4 & HA2). cbn.
  split; [|split; [eapply grows_trans; eauto|split; [eapply grows_trans; eauto|auto]]].
  apply (one_gate_grows _ _ _ _ _ _ G3 G4) in HR. destruct HR as (gt & ht & X1 & X2 & X3), HR' as (gs & hs & Y1 & Y2 & Y3).
  exists (gt :: gs), (ht :: hs). auto.
Qed.
Notation tcounts := (turned_table eps).
Lemma born_loop d x y : tcounts x y -> born all_gates (create_layer_loop g1 eps d x) (create_layer_loop g2 eps d y).
Proof.
  intros H. induction H as [|[p c] [q c'] x y [TP E] _ IH]; cbn [create_layer_loop]; [apply born_ret_nil|].
  cbn [fst snd] in TP, E. subst c'.
  intros st1 st2 HA HW1 HW2. eapply two_bind; [exact (born_entries d p q (Z.to_nat c) TP st1 st2 HA HW1 HW2)|].
  intros l1 s1 l2 s2 (HR & G1 & G2 & W1 & W2 & HA1). eapply two_bind; [exact (IH s1 s2 HA1 W1 W2)|].
  intros ls1 t1 ls2 t2 (HR' & G3 & G4 & W3 & W4 & HA2). cbn.
  split; [|split; [eapply grows_trans; eauto|split; [eapply grows_trans; eauto|auto]]].
  apply (all_gates_grows _ _ _ _ _ _ G3 G4) in HR. destruct HR as (gt & ht & X1 & X2 & X3), HR' as (gs & hs & Y1 & Y2 & Y3).
  exists (gt ++ gs), (ht ++ hs). split; [|split]; apply Forall2_app; auto.
Qed.
Lemma picked2 {A B} (P : A -> B -> Prop) (dA : A) (dB : B) ls gs : Forall2 P ls gs -> forall perm, (forall i, In i perm -> (i < List.length ls)%nat) ->
  Forall2 P (map (fun i => nth i ls dA) perm) (map (fun i => nth i gs dB) perm).
Proof.
  intros F. induction perm as [|i t IH]; intros H; cbn [map]; constructor; [|apply IH; intros; apply H; now right].
  specialize (H i (or_introl eq_refl)). clear IH. revert i H. induction F as [|x y ls gs H1 F IHF]; intros i H; [cbn in H; lia|].
  destruct i as [|i]; cbn [nth]; [exact H1|]. apply IHF. cbn in H. lia.
Qed.
Lemma born_layer d x y : tcounts x y -> born all_gates (create_random_layer g1 eps d x) (create_random_layer g2 eps d y).
Proof.
  intros TC st1 st2 HA HW1 HW2. unfold create_random_layer. eapply two_bind; [exact (born_loop d x y TC st1 st2 HA HW1 HW2)|].
  intros l1 s1 l2 s2 ((gs & hs & F1 & F2 & F3) & G1 & G2 & W1 & W2 & HA1). unfold two, shuffle. cbn [fst snd r_world].
  assert (X := ask_next _ _ _ _ HA1). destruct HA1 as (k & E1 & E2). rewrite E1, E2 in *. destruct (SA k) as (_ & _ & EP).
  assert (L1 := F2_length _ _ _ F1). assert (L2 := F2_length _ _ _ F2). assert (L3 := F2_length _ _ _ F3).
  assert (IN : forall i, In i (g_perm g1 (d1 + k) (List.length l1)) -> (i < List.length l1)%nat).
  { intros i Hi. apply (Permutation_in i (proj2 (proj2 RG1) _ _)) in Hi. apply in_seq in Hi. lia. }
  split; [|auto 6].
  destruct F3 as [|g0 h0 gs hs G0 F3].
  - destruct l1; [|discriminate]. destruct l2; [|discriminate]. cbn [List.length] in *. rewrite <- EP.
    destruct (g_perm g1 (d1 + k) 0) as [|i t]; [exists [], []; repeat split; constructor|]. specialize (IN i (or_introl eq_refl)). lia.
  - exists (map (fun i => nth i (g0 :: gs) g0) (g_perm g1 (d1 + k) (List.length l1))),
      (map (fun i => nth i (h0 :: hs) h0) (g_perm g1 (d1 + k) (List.length l1))). split; [now apply picked2|]. split.
    + rewrite <- EP. replace (List.length l2) with (List.length l1) by lia. apply picked2; [exact F2|]. intros i Hi. apply IN in Hi. lia.
    + apply picked2; [now constructor|]. intros i Hi. apply IN in Hi. lia.
Qed.

(** ** Calls on the sequences *)
Variables s1 s2 : nat.
Definition twins (st1 st2 : rstate) : Prop := ask st1 st2 /\ W (r_world st1) /\ W (r_world st2) /\
  exists q r, plain_view (r_world st1) s1 = Some q /\ plain_view (r_world st2) s2 = Some r /\ seq_turned eps n q r.

Lemma twins_grow st1 st2 t1 t2 : twins st1 st2 -> grows (r_world st1) (r_world t1) -> grows (r_world st2) (r_world t2) ->
  W (r_world t1) -> W (r_world t2) -> ask t1 t2 -> twins t1 t2.
Proof.
  intros (_ & HW1 & HW2 & q & r & V1 & V2 & T) G1 G2 HW1' HW2' HA. split; [exact HA|]. split; [exact HW1'|]. split; [exact HW2'|].
  exists q, r. split; [exact (grows_view eps _ _ _ _ HW1 G1 V1)|]. split; [exact (grows_view eps _ _ _ _ HW2 G2 V2)|exact T].
Qed.

Definition vturn (v v' : value) : Prop :=
  match v, v' with VUnitary u, VUnitary u' => turn u u' | _, _ => v = v' end.

Lemma twins_call o1 o2 m m' st1 st2 : twins st1 st2 -> op_turned eps m m' -> same_call (r_world st1) s1 o1 m -> same_call (r_world st2) s2 o2 m' ->
  two (fun v t1 v' t2 => vturn v v' /\ twins t1 t2 /\ heap_ext (w_heap (r_world st1)) (w_heap (r_world t1)) /\
    heap_ext (w_heap (r_world st2)) (w_heap (r_world t2))) (call eps o1 st1) (call eps o2 st2).
Proof.
  intros (HA & HW1 & HW2 & q & r & V1 & V2 & T) OT C1 C2.
  assert (A1 := step_agree eps _ _ _ _ _ HW1 V1 C1). assert (A2 := step_agree eps _ _ _ _ _ HW2 V2 C2).
  assert (Y1 := W_step eps o1 _ HW1). assert (Y2 := W_step eps o2 _ HW2).
  assert (X1 := step_ext eps o1 _ HW1). assert (X2 := step_ext eps o2 _ HW2).
  assert (ST := step_turned eps n q r m m' T OT). assert (PT := product_turned eps n q r T). unfold same_res in ST, PT.
  unfold two, call. destruct (r_step exact_arith eps q m) as [q'|x], (r_step exact_arith eps r m') as [r'|y]; try contradiction.
  - destruct A1 as (w1 & E1 & P1), A2 as (w2 & E2 & P2). rewrite E1 in *. rewrite E2 in *. cbn [fst snd r_world] in *.
    assert (RV : same_res vturn (match m with RProduct => bind (r_product exact_arith eps q) (fun p => Ok (VUnitary p)) | _ => Ok VNone end)
      (match m' with RProduct => bind (r_product exact_arith eps r) (fun p => Ok (VUnitary p)) | _ => Ok VNone end)).
    { destruct m, m'; try contradiction; try exact eq_refl.
      destruct (r_product exact_arith eps q), (r_product exact_arith eps r); try contradiction; [apply PT|exact PT]. }
    set (rv := match m with RProduct => _ | _ => _ end) in *. set (rv' := match m' with RProduct => _ | _ => _ end) in *. clearbody rv rv'.
    unfold same_res in RV. destruct rv as [v|x], rv' as [v'|y]; try contradiction; [|exact RV].
    split; [exact RV|]. split; [|auto]. split; [exact HA|]. split; [exact Y1|]. split; [exact Y2|]. exists q', r'. auto.
  - destruct A1 as (w1 & E1), A2 as (w2 & E2). rewrite E1, E2. exact ST.
Qed.

Definition alike {A B} (R : A -> B -> Prop) (m1 : RM A) (m2 : RM B) : Prop := forall st1 st2, twins st1 st2 ->
  two (fun a t1 b t2 => R a b /\ twins t1 t2) (m1 st1) (m2 st2).

Lemma alike_product : alike turn (call_unitary eps (Product s1)) (call_unitary eps (Product s2)).
Proof.
  intros st1 st2 HT. unfold call_unitary. eapply two_bind; [exact (twins_call _ _ RProduct RProduct st1 st2 HT I (same_product _ _) (same_product _ _))|].
  intros v t1 v' t2 (VT & HT' & _). destruct v, v'; cbn in VT |- *; try discriminate; auto.
Qed.
Lemma twins_call_unit o1 o2 m m' st1 st2 : twins st1 st2 -> op_turned eps m m' -> same_call (r_world st1) s1 o1 m -> same_call (r_world st2) s2 o2 m' ->
  two (fun v t1 v' t2 => True /\ twins t1 t2) (call eps o1 st1) (call eps o2 st2).
Proof. intros HT OT C1 C2. eapply two_mono; [exact (twins_call _ _ _ _ _ _ HT OT C1 C2)|]. cbn. tauto. Qed.

Lemma append_alike (first_end : bool) : forall ls1 ls2 first st1 st2, twins st1 st2 -> all_gates (r_world st1) (r_world st2) ls1 ls2 ->
  two (fun a t1 b t2 => a = b /\ twins t1 t2)
    (append_all eps (if first_end then AppendFirst s1 else AppendLast s1) ls1 first st1)
    (append_all eps (if first_end then AppendFirst s2 else AppendLast s2) ls2 first st2).
Proof.
  induction ls1 as [|l1 ls1 IH]; intros ls2 first st1 st2 HT (gs & hs & F1 & F2 & F3).
  - inversion F1; subst. inversion F3; subst. inversion F2; subst. cbn. auto.
  - inversion F1 as [|? gt ? gs' H1 F1']; subst. inversion F3 as [|? ht ? hs' H3 F3']; subst.
    inversion F2 as [|l2 ? ls2' ? H2 F2']; subst. cbn [append_all].
    eapply two_bind.
    + apply (twins_call _ _ (if first_end then RFirst gt first else RLast gt first) (if first_end then RFirst ht first else RLast ht first) st1 st2 HT);
        destruct first_end; try (now apply has_gate_call); try (now apply has_gate_call_last); cbn; auto.
    + intros v t1 v' t2 (_ & HT' & X1 & X2). apply IH; [exact HT'|]. exists gs', hs'.
      split; [|split]; auto; eapply has_gates_ext; eauto.
Qed.
Lemma remove_alike (first_end : bool) k : forall first,
  alike eq (remove_all eps (if first_end then RemoveFirst s1 else RemoveLast s1) k first)
    (remove_all eps (if first_end then RemoveFirst s2 else RemoveLast s2) k first).
Proof.
  induction k as [|k IH]; intros first st1 st2 HT; cbn [remove_all].
  - cbn. auto.
  - eapply two_bind.
    + apply (twins_call _ _ (if first_end then RPopFirst first else RPopLast first) (if first_end then RPopFirst first else RPopLast first) st1 st2 HT);
        destruct first_end; try constructor; reflexivity.
    + intros v t1 v' t2 (_ & HT' & _). now apply IH.
Qed.

(** ** Methods of the compiler *)
Notation tcomp := (turned_compiler eps).
Definition both {A} (c d : compiler) (m1 m2 : CM A) : Prop := forall st1 st2, twins st1 st2 ->
  two (fun a t1 b t2 => a = b /\ twins (fst t1) (fst t2) /\ snd t1 = c /\ snd t2 = d) (m1 (st1, c)) (m2 (st2, d)).

Lemma run_two2 {A B} (Q : A -> rstate -> B -> rstate -> Prop) (m1 : RM A) (m2 : RM B) c d st1 st2 : two Q (m1 st1) (m2 st2) ->
  two (fun a t1 b t2 => Q a (fst t1) b (fst t2) /\ snd t1 = c /\ snd t2 = d) (c_run m1 (st1, c)) (c_run m2 (st2, d)).
Proof.
  unfold two, c_run. cbn [fst snd]. destruct (m1 st1) as [t1 [a|e]], (m2 st2) as [t2 [b|f]]; cbn [fst snd]; auto.
Qed.

Lemma tied_twins {A} (m1 m2 : RM A) : tied m1 m2 -> alike eq m1 m2.
Proof.
  intros H st1 st2 HT. eapply two_mono; [exact (H st1 st2 (proj1 HT))|]. cbn. intros a t1 b t2 (-> & E1 & E2 & HA).
  split; [reflexivity|]. destruct HT as (_ & X). unfold twins. now rewrite E1, E2.
Qed.

Lemma tc_append c d : tcomp c d -> c_append d = c_append c. Proof. intros [_ ->]. reflexivity. Qed.
Lemma tc_dim c d : tcomp c d -> c_dim d = c_dim c. Proof. intros [_ ->]. reflexivity. Qed.
Lemma tc_probs c d : tcomp c d -> c_probs d = c_probs c. Proof. intros [_ ->]. reflexivity. Qed.
Lemma tc_beta c d : tcomp c d -> c_beta d = c_beta c. Proof. intros [_ ->]. reflexivity. Qed.
Lemma tc_rate c d : tcomp c d -> c_rate d = c_rate c. Proof. intros [_ ->]. reflexivity. Qed.
Lemma tc_max c d : tcomp c d -> c_max_beta d = c_max_beta c. Proof. intros [_ ->]. reflexivity. Qed.
Lemma tc_set c d b : tcomp c d -> tcomp (set_beta c b) (set_beta d b).
Proof. intros [H E]. split; [exact H|]. rewrite E. reflexivity. Qed.

Lemma change_both c d : tcomp c d -> both c d (make_random_change g1 eps s1) (make_random_change g2 eps s2).
Proof.
  intros TC st1 st2 HT. unfold make_random_change. apply two_selves.
  rewrite (tc_append c d TC), (tc_dim c d TC), (tc_probs c d TC).
  eapply two_bind; [apply run_two2, (tied_twins _ _ (tied_action g1 g2 d1 d2 SA (c_append c)) st1 st2 HT)|].
  intros a [t1 c1] b [t2 c2] ((<- & HT') & E1 & E2). cbn [fst snd] in *. subst c1 c2. clear HT st1 st2.
  assert (AP : forall fe : bool, two (fun a t1 b t2 => a = b /\ twins (fst t1) (fst t2) /\ snd t1 = c /\ snd t2 = d)
    ((l <-- c_run (create_random_sequence_entry g1 eps (c_dim c) (c_prims c) (c_probs c)) ;;
      c_run (call eps ((if fe then AppendFirst s1 else AppendLast s1) l true)) ;;; se_ret tt) (t1, c))
    ((l <-- c_run (create_random_sequence_entry g2 eps (c_dim c) (c_prims d) (c_probs c)) ;;
      c_run (call eps ((if fe then AppendFirst s2 else AppendLast s2) l true)) ;;; se_ret tt) (t2, d))).
  { intros fe. destruct HT' as (HA & HW1 & HW2 & V). assert (HT := conj HA (conj HW1 (conj HW2 V))). clear V.
    eapply two_bind; [apply run_two2, (born_create _ _ _ _ (proj1 TC) t1 t2 HA HW1 HW2)|].
    intros l1 [r1 c1] l2 [r2 c2] (((gt & ht & H1 & H2 & GH) & G1 & G2 & Y1 & Y2 & HA') & E1 & E2). cbn [fst snd] in *. subst c1 c2.
    assert (HT2 := twins_grow t1 t2 r1 r2 HT G1 G2 Y1 Y2 HA').
    eapply two_bind.
    - apply run_two2, (twins_call_unit _ _ (if fe then RFirst gt true else RLast gt true) (if fe then RFirst ht true else RLast ht true) r1 r2 HT2);
        destruct fe; try (now apply has_gate_call); try (now apply has_gate_call_last); cbn; auto.
    - intros v [u1 c1] v' [u2 c2] ((_ & HT3) & E1 & E2). cbn in *. auto. }
  assert (RM : forall fe : bool, two (fun a t1 b t2 => a = b /\ twins (fst t1) (fst t2) /\ snd t1 = c /\ snd t2 = d)
    ((c_run (call eps ((if fe then RemoveFirst s1 else RemoveLast s1) true)) ;;; se_ret tt) (t1, c))
    ((c_run (call eps ((if fe then RemoveFirst s2 else RemoveLast s2) true)) ;;; se_ret tt) (t2, d))).
  { intros fe. eapply two_bind.
    - apply run_two2, (twins_call_unit _ _ (if fe then RPopFirst true else RPopLast true) (if fe then RPopFirst true else RPopLast true) t1 t2 HT');
        destruct fe; try constructor; reflexivity.
    - intros v [u1 c1] v' [u2 c2] ((_ & HT3) & E1 & E2). cbn in *. auto. }
  destruct a; [exact (AP true)|exact (AP false)|exact (RM true)|exact (RM false)].
Qed.

Lemma length_turned x y : tcounts x y -> ModelCompiler.layer_length y = ModelCompiler.layer_length x.
Proof. intros H. induction H as [|p q x y [_ E] _ IH]; cbn [ModelCompiler.layer_length fold_right]; [reflexivity|]. unfold ModelCompiler.layer_length in IH. now rewrite E, IH. Qed.

Lemma change_layered_both x y c d : tcounts x y -> tcomp c d ->
  both c d (make_random_change_layered g1 eps x s1) (make_random_change_layered g2 eps y s2).
Proof.
  intros TX TC st1 st2 HT. unfold make_random_change_layered. apply two_selves.
  rewrite (tc_append c d TC), (tc_dim c d TC), (length_turned x y TX).
  eapply two_bind; [apply run_two2, (tied_twins _ _ (tied_action g1 g2 d1 d2 SA (c_append c)) st1 st2 HT)|].
  intros a [t1 c1] b [t2 c2] ((<- & HT') & E1 & E2). cbn [fst snd] in *. subst c1 c2. clear HT st1 st2.
  assert (AP : forall fe : bool, two (fun a t1 b t2 => a = b /\ twins (fst t1) (fst t2) /\ snd t1 = c /\ snd t2 = d)
    ((ls <-- c_run (create_random_layer g1 eps (c_dim c) x) ;;
      c_run (append_all eps (if fe then AppendFirst s1 else AppendLast s1) ls true)) (t1, c))
    ((ls <-- c_run (create_random_layer g2 eps (c_dim c) y) ;;
      c_run (append_all eps (if fe then AppendFirst s2 else AppendLast s2) ls true)) (t2, d))).
  { intros fe. destruct HT' as (HA & HW1 & HW2 & V). assert (HT := conj HA (conj HW1 (conj HW2 V))). clear V.
    eapply two_bind; [apply run_two2, (born_layer _ _ _ TX t1 t2 HA HW1 HW2)|].
    intros l1 [r1 c1] l2 [r2 c2] ((HG & G1 & G2 & Y1 & Y2 & HA') & E1 & E2). cbn [fst snd] in *. subst c1 c2.
    assert (HT2 := twins_grow t1 t2 r1 r2 HT G1 G2 Y1 Y2 HA').
    eapply two_mono; [apply run_two2, (append_alike fe l1 l2 true r1 r2 HT2 HG)|]. cbn. tauto. }
  assert (RM : forall fe : bool, two (fun a t1 b t2 => a = b /\ twins (fst t1) (fst t2) /\ snd t1 = c /\ snd t2 = d)
    (c_run (remove_all eps (if fe then RemoveFirst s1 else RemoveLast s1) (Z.to_nat (ModelCompiler.layer_length x)) true) (t1, c))
    (c_run (remove_all eps (if fe then RemoveFirst s2 else RemoveLast s2) (Z.to_nat (ModelCompiler.layer_length x)) true) (t2, d))).
  { intros fe. eapply two_mono; [apply run_two2, (remove_alike fe _ true t1 t2 HT')|]. cbn. tauto. }
  destruct a; [exact (AP true)|exact (AP false)|exact (RM true)|exact (RM false)].
Qed.

Lemma step_both target target2 (ch1 ch2 : nat -> CM unit) : no_difference eps target target2 ->
  (forall c d, tcomp c d -> both c d (ch1 s1) (ch2 s2)) -> forall st1 st2 c d, twins st1 st2 -> tcomp c d ->
  two (fun a t1 b t2 => a = b /\ twins (fst t1) (fst t2) /\ tcomp (snd t1) (snd t2))
    (compile_step g1 eps ch1 s1 target (st1, c)) (compile_step g2 eps ch2 s2 target2 (st2, d)).
Proof.
  intros [TD _] HC st1 st2 c d HT TC. unfold compile_step. set (c' := set_beta c (Rmin (c_beta c + c_rate c) (c_max_beta c))).
  set (d' := set_beta d (Rmin (c_beta c + c_rate c) (c_max_beta c))). assert (TC' : tcomp c' d') by now apply tc_set.
  eapply two_bind with (Q := fun _ t1 _ t2 => t1 = (st1, c') /\ t2 = (st2, d')).
  { cbn. unfold d'. rewrite (tc_beta c d TC), (tc_rate c d TC), (tc_max c d TC). auto. }
  intros _ ? _ ? [-> ->].
  eapply two_bind; [apply run_two2, (alike_product st1 st2 HT)|].
  intros pb [t1 k1] pb' [t2 k2] ((PB & HT1) & E1 & E2). cbn [fst snd] in *. subst k1 k2.
  eapply two_bind; [apply (HC c' d' TC' t1 t2 HT1)|].
  intros x [r1 k1] x' [r2 k2] (_ & HT2 & E1 & E2). cbn [fst snd] in *. subst k1 k2. clear x x'.
  eapply two_bind with (Q := fun a t1 b t2 => a = b /\ t1 = (r1, c') /\ t2 = (r2, d')).
  { unfold two, se_lift. cbn [fst snd]. rewrite (distance_turned eps target pb pb' PB), TD. destruct (u_distance_from eps target2 pb'); auto. }
  intros cur ? cur' ? (<- & -> & ->).
  eapply two_bind; [apply run_two2, (alike_product r1 r2 HT2)|].
  intros pp [u1 k1] pp' [u2 k2] ((PP & HT3) & E1 & E2). cbn [fst snd] in *. subst k1 k2.
  eapply two_bind with (Q := fun a t1 b t2 => a = b /\ t1 = (u1, c') /\ t2 = (u2, d')).
  { unfold two, se_lift. cbn [fst snd]. rewrite (distance_turned eps target pp pp' PP), TD. destruct (u_distance_from eps target2 pp'); auto. }
  intros prop ? prop' ? (<- & -> & ->).
  eapply two_bind with (Q := fun a t1 b t2 => a = b /\ twins (fst t1) (fst t2) /\ snd t1 = c' /\ snd t2 = d').
  { unfold accept_proposed_change. apply two_selves. rewrite (tc_beta c' d' TC').
    eapply two_bind; [apply run_two2, (tied_twins _ _ (tied_unif g1 g2 d1 d2 SA) u1 u2 HT3)|].
    intros x [v1 k1] x' [v2 k2] ((<- & HT4) & E1 & E2). cbn [fst snd] in *. subst k1 k2. cbn. auto. }
  intros acc [v1 k1] acc' [v2 k2] (<- & HT4 & E1 & E2). cbn [fst snd] in *. subst k1 k2. destruct acc.
  - cbn. auto.
  - eapply two_bind; [apply run_two2, (twins_call_unit _ _ RUndo RUndo v1 v2 HT4 I (same_undo _ _) (same_undo _ _))|].
    intros v [w1 k1] v' [w2 k2] ((_ & HT5) & E1 & E2). cbn [fst snd] in *. subst. cbn. auto.
Qed.

Lemma loop_both target target2 thr K (ch1 ch2 : nat -> CM unit) : no_difference eps target target2 -> (forall c d, tcomp c d -> both c d (ch1 s1) (ch2 s2)) ->
  forall fuel costs st1 st2 c d, twins st1 st2 -> tcomp c d ->
  two (fun a t1 b t2 => a = b /\ twins (fst t1) (fst t2) /\ tcomp (snd t1) (snd t2))
    (compile_loop g1 eps ch1 s1 target thr K costs fuel (st1, c)) (compile_loop g2 eps ch2 s2 target2 thr K costs fuel (st2, d)).
Proof.
  intros TG HC. induction fuel as [|fuel IH]; intros costs st1 st2 c d HT TC; cbn [compile_loop]; [reflexivity|].
  eapply two_bind; [apply run_two2, (alike_product st1 st2 HT)|].
  intros p [t1 k1] p' [t2 k2] ((PP & HT1) & E1 & E2). cbn [fst snd] in *. subst k1 k2.
  eapply two_bind with (Q := fun a r1 b r2 => a = b /\ r1 = (t1, c) /\ r2 = (t2, d)).
  { unfold two, se_lift. cbn [fst snd]. rewrite (close_turned eps p p' target thr PP), (proj2 TG). destruct (u_close_to eps p' target2 thr); auto. }
  intros cl ? cl' ? (<- & -> & ->). destruct cl; [cbn; auto|].
  destruct (Z.ltb _ _); [|cbn; auto].
  eapply two_bind; [apply (step_both target target2 ch1 ch2 TG HC t1 t2 c d HT1 TC)|].
  intros x [r1 k1] x' [r2 k2] (<- & HT2 & E). cbn [fst snd] in *. now apply IH.
Qed.
End Two.

Lemma with_both g1 g2 d1 d2 eps n target target2 thr K (ch1 ch2 : nat -> CM unit) st1 st2 c d : no_difference eps target target2 -> rng_ok g1 -> same_answers g1 d1 g2 d2 ->
  (forall s1 s2 c d, turned_compiler eps c d -> both d1 d2 eps n s1 s2 c d (ch1 s1) (ch2 s2)) ->
  (exists k, r_draws st1 = (d1 + k)%nat /\ r_draws st2 = (d2 + k)%nat) -> WG eps anyg (r_world st1) -> WG eps anyg (r_world st2) ->
  turned_compiler eps c d -> c_dim c = (2 ^ n)%nat ->
  turned_compilation eps d1 d2 (compile_with g1 eps ch1 target thr K (st1, c)) (compile_with g2 eps ch2 target2 thr K (st2, d)).
Proof.
  intros TG RG SA HC HA W1 W2 TC HD.
  assert (KK : two (fun a t1 b t2 => snd a = snd b /\ twins d1 d2 eps n (fst a) (fst b) (fst t1) (fst t2) /\ turned_compiler eps (snd t1) (snd t2))
    (compile_with g1 eps ch1 target thr K (st1, c)) (compile_with g2 eps ch2 target2 thr K (st2, d))).
  { set (q0 := {| s_dim := c_dim c; s_array := false; s_entries := []; s_product := None; s_prev_entries := None; s_prev_product := None |}).
    assert (NS : forall st : rstate, step eps (NewSequence (c_dim c) false []) (r_world st) =
      ({| w_heap := w_heap (r_world st); w_seqs := w_seqs (r_world st) ++ [q0] |}, Ok (VSequence (List.length (w_seqs (r_world st)))))) by reflexivity.
    assert (VW : forall st : rstate, plain_view {| w_heap := w_heap (r_world st); w_seqs := w_seqs (r_world st) ++ [q0] |} (List.length (w_seqs (r_world st))) = Some (r_empty (c_dim c))).
    { intros st. unfold plain_view. cbn [w_seqs w_heap]. rewrite nth_error_app2, Nat.sub_diag by lia. reflexivity. }
    unfold compile_with. apply two_selves. rewrite (tc_dim eps c d TC).
    eapply two_bind with (Q := fun a t1 b t2 => twins d1 d2 eps n a b (fst t1) (fst t2) /\ snd t1 = c /\ snd t2 = d).
    - refine (run_two2 (fun a t1 b t2 => twins d1 d2 eps n a b t1 t2) _ _ c d st1 st2 _).
      unfold call_sequence, call, two, se_bind. rewrite !NS. cbn [fst snd se_ret].
      split; [exact HA|]. cbn [r_world].
      assert (Y1 := W_step eps (NewSequence (c_dim c) false []) _ W1). assert (Y2 := W_step eps (NewSequence (c_dim c) false []) _ W2).
      rewrite NS in Y1, Y2. split; [exact Y1|]. split; [exact Y2|]. exists (r_empty (c_dim c)), (r_empty (c_dim c)).
      split; [apply VW|]. split; [apply VW|]. unfold seq_turned. cbn. rewrite HD. repeat split; constructor.
    - intros a [t1 k1] b [t2 k2] (HT & E1 & E2). cbn [fst snd] in *. subst k1 k2.
      eapply two_bind; [apply (loop_both g1 g2 d1 d2 eps SA n a b target target2 thr K ch1 ch2 TG (HC a b) _ _ t1 t2 c d HT TC)|].
      intros costs [u1 k1] costs' [u2 k2] (<- & HT2 & E). cbn [fst snd] in *. cbn. auto. }
  unfold two, turned_compilation in *.
  destruct (compile_with g1 eps ch1 target thr K (st1, c)) as [[t1 k1] [[a ca]|e]],
    (compile_with g2 eps ch2 target2 thr K (st2, d)) as [[t2 k2] [[b cb]|f]]; cbn [fst snd] in *; auto.
  destruct KK as (-> & (HA' & _ & _ & q & r & V1 & V2 & T) & TC'). split; [reflexivity|]. split; [symmetry; now apply (tc_beta eps)|].
  split; [exact HA'|]. rewrite (view_contents _ _ _ V1), (view_contents _ _ _ V2). apply T.
Qed.

Lemma compile_turned2 : forall g1 g2 eps n target target2 thr K c d st1 st2, no_difference eps target target2 ->
  rng_ok g1 -> same_answers g1 (r_draws st1) g2 (r_draws st2) -> reachable eps (r_world st1) -> reachable eps (r_world st2) ->
  turned_compiler eps c d -> c_dim c = (2 ^ n)%nat ->
  turned_compilation eps (r_draws st1) (r_draws st2) (compile g1 eps target thr K (st1, c)) (compile g2 eps target2 thr K (st2, d)).
Proof.
  intros g1 g2 eps n target target2 thr K c d st1 st2 TG RG SA [os1 R1] [os2 R2] TC HD.
  assert (AP : assert_primitives d = assert_primitives c).
  { unfold assert_primitives. rewrite <- (F2_length _ _ _ (proj1 TC)). destruct TC as [_ ->]. reflexivity. }
  assert (WB := with_both g1 g2 (r_draws st1) (r_draws st2) eps n target target2 thr K (make_random_change g1 eps) (make_random_change g2 eps)
    st1 st2 c d TG RG SA).
  unfold compile, c_self, se_bind, se_lift. cbn [fst snd]. rewrite AP. destruct (assert_primitives c) as [u|e]; [|exact eq_refl].
  apply WB; auto; [intros s1 s2 c0 d0 T0; now apply change_both|exists 0%nat; lia|rewrite R1; apply W_exec|rewrite R2; apply W_exec].
Qed.
Lemma layered_turned2 : forall g1 g2 eps n target target2 x y thr K c d st1 st2, no_difference eps target target2 ->
  rng_ok g1 -> same_answers g1 (r_draws st1) g2 (r_draws st2) -> reachable eps (r_world st1) -> reachable eps (r_world st2) ->
  turned_compiler eps c d -> c_dim c = (2 ^ n)%nat -> turned_table eps x y ->
  turned_compilation eps (r_draws st1) (r_draws st2) (compile_layered g1 eps target x thr K (st1, c)) (compile_layered g2 eps target2 y thr K (st2, d)).
Proof.
  intros g1 g2 eps n target target2 x y thr K c d st1 st2 TG RG SA [os1 R1] [os2 R2] TC HD TX. unfold compile_layered.
  apply (with_both g1 g2 (r_draws st1) (r_draws st2) eps n); auto;
    [intros s1 s2 c0 d0 T0; now apply change_layered_both|exists 0%nat; lia|rewrite R1; apply W_exec|rewrite R2; apply W_exec].
Qed.

Theorem compile_turned : forall g1 g2 eps n target thr K c d st1 st2,
  rng_ok g1 -> same_answers g1 (r_draws st1) g2 (r_draws st2) -> reachable eps (r_world st1) -> reachable eps (r_world st2) ->
  turned_compiler eps c d -> c_dim c = (2 ^ n)%nat ->
  turned_compilation eps (r_draws st1) (r_draws st2) (compile g1 eps target thr K (st1, c)) (compile g2 eps target thr K (st2, d)).
Proof. intros. eapply compile_turned2; eauto. apply no_difference_refl. Qed.
Theorem layered_turned : forall g1 g2 eps n target x y thr K c d st1 st2,
  rng_ok g1 -> same_answers g1 (r_draws st1) g2 (r_draws st2) -> reachable eps (r_world st1) -> reachable eps (r_world st2) ->
  turned_compiler eps c d -> c_dim c = (2 ^ n)%nat -> turned_table eps x y ->
  turned_compilation eps (r_draws st1) (r_draws st2) (compile_layered g1 eps target x thr K (st1, c)) (compile_layered g2 eps target y thr K (st2, d)).
Proof. intros. eapply layered_turned2; eauto. apply no_difference_refl. Qed.
Theorem all_turned : forall g1 g2 eps n t1 t2 thr K c d st1 st2, phase_twins eps t1 t2 ->
  rng_ok g1 -> same_answers g1 (r_draws st1) g2 (r_draws st2) -> reachable eps (r_world st1) -> reachable eps (r_world st2) ->
  turned_compiler eps c d -> c_dim c = (2 ^ n)%nat ->
  turned_compilation eps (r_draws st1) (r_draws st2) (compile g1 eps t1 thr K (st1, c)) (compile g2 eps t2 thr K (st2, d)).
Proof. intros. eapply compile_turned2; eauto. now apply twins_alike. Qed.

(** ** Where such gates come from *)
Theorem gates_turned : forall eps u v, constructed eps u -> constructed eps v -> u_dim u = 2%nat \/ u_dim u = 4%nat ->
  u_dim v = u_dim u -> phase_eq (u_dim u) (u_mat v) (u_mat u) -> turned eps u v.
Proof.
  intros eps u v K1 K2 Q D (c & Hc & E). split; [exact D|]. exists c. split; [|exact E]. left.
  assert (X := constructed_det _ _ K2). rewrite D, (@det_ext _ _ _ E), det_mscale, (constructed_det _ _ K1), Cmult_1_r in X.
  apply quarter_root. destruct Q as [Q|Q]; rewrite Q in X; auto.
Qed.
Theorem arrays_turned : forall eps n M c nm ps iv ap nm' ps' iv' ap', plain_phase eps c ->
  same_res (turned eps) (mk_unitary eps (2 ^ n) (Some (square (2 ^ n) M)) nm ps iv ap)
    (mk_unitary eps (2 ^ n) (Some (square (2 ^ n) (mscale c M))) nm' ps' iv' ap').
Proof.
  intros eps n M c nm ps iv ap nm' ps' iv' ap' Hc. eapply same_mono.
  - apply (mk_turned_ok eps n M (mscale c M)). exists c. split; [exact Hc|reflexivity].
  - intros u v [T _]. exact T.
Qed.
