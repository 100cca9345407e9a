(** Two runs with the same answers of the generator, in any two worlds: C108. *)
From Coq Require Import Reals List Arith Lia Lra Bool String ZArith Permutation.
From Coquelicot Require Import Complex.
From Verif Require Import Base CMat CMatFacts Det CRoot ModelUnitary ModelEntry ModelPrimitive ModelSequence ModelCompiler
  ModelRound ModelRoundComp Spec SpecModel SpecCompiler SpecAgree SpecRepro PUnitary PEntry PSeqHeap PSeqMeth PSeqWorld
  PSeqUndo PCompView PCompRun PCompEntry PCompLoop PAgree PAgree2 PAgreeEx.
Import ListNotations.
Open Scope R_scope.
Open Scope list_scope.
Open Scope se_scope.
Set Bullet Behavior "Strict Subproofs".

(** ** Pairs of computations *)
Definition two {S1 S2 A B} (Q : A -> S1 -> B -> S2 -> Prop) (x : S1 * res A) (y : S2 * res B) : Prop :=
  match snd x, snd y with Ok a, Ok b => Q a (fst x) b (fst y) | Raise e, Raise f => e = f | _, _ => False end.

Lemma two_bind {S1 S2 A B A' B'} (Q : A -> S1 -> B -> S2 -> Prop) (Q' : A' -> S1 -> B' -> S2 -> Prop)
    (m1 : SE S1 A) (m2 : SE S2 B) f1 f2 st1 st2 :
  two Q (m1 st1) (m2 st2) -> (forall a s1 b s2, Q a s1 b s2 -> two Q' (f1 a s1) (f2 b s2)) ->
  two Q' (se_bind m1 f1 st1) (se_bind m2 f2 st2).
Proof.
  intros H K. unfold se_bind. unfold two in H. destruct (m1 st1) as [s1 [a|e]], (m2 st2) as [s2 [b|f]]; cbn [fst snd] in H;
    try contradiction; [exact (K _ _ _ _ H)|exact H].
Qed.
Lemma two_mono {S1 S2 A B} (Q Q' : A -> S1 -> B -> S2 -> Prop) x y :
  two Q x y -> (forall a s1 b s2, Q a s1 b s2 -> Q' a s1 b s2) -> two Q' x y.
Proof. unfold two. destruct (snd x), (snd y); auto. Qed.

Lemma two_self {T1 T2 A B} (Q : A -> T1 * compiler -> B -> T2 * compiler -> Prop) (f1 : compiler -> SE (T1 * compiler) A)
    (f2 : compiler -> SE (T2 * compiler) B) (st1 : T1) (st2 : T2) c :
  two Q (f1 c (st1, c)) (f2 c (st2, c)) ->
  two Q (se_bind (fun s => (s, Ok (snd s))) f1 (st1, c)) (se_bind (fun s => (s, Ok (snd s))) f2 (st2, c)).
Proof. intros H. exact H. Qed.

Section Two.
Variables g1 g2 : rng.
Variables d1 d2 : nat.
Variable eps : R.
Hypothesis RG1 : rng_ok g1.
Hypothesis SA : same_answers g1 d1 g2 d2.
Notation W := (WG eps anyg).
Notation gatety := (unitary * list nat)%type.

Definition ask (st1 st2 : rstate) : Prop := exists k, r_draws st1 = (d1 + k)%nat /\ r_draws st2 = (d2 + k)%nat.

(** ** Random numbers only *)
Definition tied {A} (m1 m2 : RM A) : Prop := forall st1 st2, ask st1 st2 ->
  two (fun a s1 b s2 => a = b /\ r_world s1 = r_world st1 /\ r_world s2 = r_world st2 /\ ask s1 s2) (m1 st1) (m2 st2).

Lemma tied_ret {A} (a : A) : tied (se_ret a) (se_ret a).
Proof. intros st1 st2 H. cbn. auto. Qed.
Lemma tied_raise {A} e : tied (A := A) (se_raise e) (se_raise e).
Proof. intros st1 st2 H. reflexivity. Qed.
Lemma tied_lift {A} (r : res A) : tied (se_lift r) (se_lift r).
Proof. intros st1 st2 H. unfold two, se_lift. cbn [fst snd]. destruct r; auto. Qed.
Lemma tied_bind {A B} (m1 m2 : RM A) (f1 f2 : A -> RM B) : tied m1 m2 -> (forall a, tied (f1 a) (f2 a)) ->
  tied (se_bind m1 f1) (se_bind m2 f2).
Proof.
  intros H K st1 st2 HA. eapply two_bind; [exact (H st1 st2 HA)|].
  intros a s1 b s2 (<- & E1 & E2 & HA'). eapply two_mono; [exact (K a s1 s2 HA')|].
  cbn. intros c t1 d t2 (-> & F1 & F2 & HA2). rewrite F1, F2, E1, E2. auto.
Qed.
Lemma ask_next st1 st2 : ask st1 st2 ->
  ask {| r_world := r_world st1; r_draws := S (r_draws st1) |} {| r_world := r_world st2; r_draws := S (r_draws st2) |}.
Proof. intros (k & H1 & H2). exists (S k). cbn. lia. Qed.

Lemma tied_unif : tied (draw_unif g1) (draw_unif g2).
Proof.
  intros st1 st2 H. unfold two, draw_unif. cbn [fst snd r_world]. assert (X := ask_next _ _ H).
  destruct H as (k & E1 & E2). rewrite E1, E2 in *. destruct (SA k) as (-> & _). auto.
Qed.
Lemma tied_choice_unif n : tied (choice_unif g1 n) (choice_unif g2 n).
Proof.
  unfold choice_unif. destruct (Nat.eqb n 0); [apply tied_raise|].
  intros st1 st2 H. unfold two. cbn [fst snd r_world]. assert (X := ask_next _ _ H).
  destruct H as (k & E1 & E2). rewrite E1, E2 in *. destruct (SA k) as (_ & -> & _). auto.
Qed.
Lemma tied_choice_p n p : tied (choice_p g1 n p) (choice_p g2 n p).
Proof.
  unfold choice_p. destruct (Nat.eqb n 0); [apply tied_raise|]. destruct (negb _); [apply tied_raise|].
  destruct (existsb _ p); [apply tied_raise|]. destruct (Rltb _ _); [apply tied_raise|].
  apply tied_bind; [apply tied_unif|]. intros x. apply tied_ret.
Qed.
Lemma tied_distinct n k : tied (choice_distinct g1 n k) (choice_distinct g2 n k).
Proof.
  unfold choice_distinct. destruct (Nat.ltb n k); [apply tied_raise|].
  intros st1 st2 H. unfold two. cbn [fst snd r_world]. assert (X := ask_next _ _ H).
  destruct H as (j & E1 & E2). rewrite E1, E2 in *. destruct (SA j) as (_ & _ & ->). auto.
Qed.
Lemma tied_values ps : tied (random_values g1 ps) (random_values g2 ps).
Proof.
  induction ps as [|p t IH]; cbn [random_values]; [apply tied_ret|].
  apply tied_bind; [apply tied_unif|]. intros x. apply tied_bind; [exact IH|]. intros vs. apply tied_ret.
Qed.
Lemma tied_action ap : tied (choose_action g1 ap) (choose_action g2 ap).
Proof. unfold choose_action. apply tied_bind; [apply tied_choice_p|]. intros i. apply tied_ret. Qed.

(** ** New entries *)
Definition born {A} (Rel : world -> world -> A -> A -> Prop) (m1 m2 : RM A) : Prop := forall st1 st2,
  ask st1 st2 -> W (r_world st1) -> W (r_world st2) ->
  two (fun a s1 b s2 => Rel (r_world s1) (r_world s2) a b /\ grows (r_world st1) (r_world s1) /\ grows (r_world st2) (r_world s2) /\
    W (r_world s1) /\ W (r_world s2) /\ ask s1 s2) (m1 st1) (m2 st2).
Definition one_gate (w1 w2 : world) (l1 l2 : nat) : Prop := exists gt, has_gate w1 l1 gt /\ has_gate w2 l2 gt.
Definition all_gates (w1 w2 : world) (ls1 ls2 : list nat) : Prop :=
  exists gs, Forall2 (has_gate w1) ls1 gs /\ Forall2 (has_gate w2) ls2 gs.

Lemma born_after {A B} (Rel : world -> world -> B -> B -> Prop) (m1 m2 : RM A) f1 f2 : tied m1 m2 -> (forall a, born Rel (f1 a) (f2 a)) ->
  born Rel (se_bind m1 f1) (se_bind m2 f2).
Proof.
  intros H K st1 st2 HA HW1 HW2. eapply two_bind; [exact (H st1 st2 HA)|].
  intros a s1 b s2 (<- & E1 & E2 & HA'). rewrite <- E1 in HW1. rewrite <- E2 in HW2.
  eapply two_mono; [exact (K a s1 s2 HA' HW1 HW2)|]. cbn. now rewrite E1, E2.
Qed.
Lemma born_entry u qs : born one_gate (call_entry eps (NewEntry u qs)) (call_entry eps (NewEntry u qs)).
Proof.
  intros st1 st2 HA HW1 HW2. unfold call_entry, call.
  assert (Y1 := W_step eps (NewEntry u qs) _ HW1). assert (Y2 := W_step eps (NewEntry u qs) _ HW2).
  unfold two, se_bind. cbn [step] in *. destruct (mk_entry u qs) as [e|x]; cbn [fst snd se_ret se_raise] in *; [|reflexivity].
  split; [|split; [|split; [|split; [|split]]]].
  - exists (e_unitary e, e_apply e).
    split; (split; [cbn; rewrite app_length; cbn; lia|]); unfold obj; cbn; rewrite nth_middle; reflexivity.
  - split; [reflexivity|apply heap_ext_app].
  - split; [reflexivity|apply heap_ext_app].
  - exact Y1.
  - exact Y2.
  - exact HA.
Qed.

Lemma born_create d ps probs : born one_gate (create_random_sequence_entry g1 eps d ps probs) (create_random_sequence_entry g2 eps d ps probs).
Proof.
  unfold create_random_sequence_entry. apply born_after.
  { destruct probs; [apply tied_choice_p|apply tied_choice_unif]. }
  intros i. destruct (nth_error (filter usable ps) i) as [pr|]; [|intros st1 st2 _ _ _; reflexivity].
  apply born_after.
  { destruct (p_source pr) as [u|pu]; [apply tied_ret|]. apply tied_bind; [apply tied_values|]. intros vs. apply tied_lift. }
  intros u. apply born_after.
  { destruct (p_allowed pr) as [al|]; [|apply tied_distinct]. apply tied_bind; [apply tied_choice_unif|]. intros k. apply tied_ret. }
  intros qs. apply born_entry.
Qed.

Lemma one_gate_grows w1 w2 w1' w2' l1 l2 : grows w1 w1' -> grows w2 w2' -> one_gate w1 w2 l1 l2 -> one_gate w1' w2' l1 l2.
Proof.
  intros [_ X1] [_ X2] (gt & H1 & H2). exists gt.
  assert (F1 := has_gates_ext w1 w1' [l1] [gt] X1 ltac:(repeat constructor; apply H1)).
  assert (F2 := has_gates_ext w2 w2' [l2] [gt] X2 ltac:(repeat constructor; apply H2)).
  inversion F1; inversion F2; subst. now split.
Qed.
Lemma all_gates_grows w1 w2 w1' w2' l1 l2 : grows w1 w1' -> grows w2 w2' -> all_gates w1 w2 l1 l2 -> all_gates w1' w2' l1 l2.
Proof.
  intros [_ X1] [_ X2] (gs & H1 & H2). exists gs. split; eapply has_gates_ext; eauto.
Qed.

Lemma born_ret_nil : born all_gates (se_ret []) (se_ret []).
Proof.
  intros st1 st2 HA HW1 HW2. cbn. split; [exists []; split; constructor|]. split; [apply grows_refl|]. split; [apply grows_refl|]. auto.
Qed.

Lemma born_entries d p k : born all_gates (create_entries g1 eps d p k) (create_entries g2 eps d p k).
Proof.
  induction k as [|k IH]; cbn [create_entries]; [apply born_ret_nil|].
  intros st1 st2 HA HW1 HW2. eapply two_bind; [exact (born_create d [p] None st1 st2 HA HW1 HW2)|].
  intros l1 s1 l2 s2 (HR & G1 & G2 & W1 & W2 & HA1). eapply two_bind; [exact (IH s1 s2 HA1 W1 W2)|].
  intros ls1 t1 ls2 t2 (HR' & G3 & G4 & W3 & W4 & HA2). cbn.
  split; [|split; [eapply grows_trans; eauto|split; [eapply grows_trans; eauto|auto]]].
  apply (one_gate_grows _ _ _ _ _ _ G3 G4) in HR. destruct HR as (gt & X1 & X2), HR' as (gs & Y1 & Y2).
  exists (gt :: gs). split; constructor; auto.
Qed.
Lemma born_loop d counts : born all_gates (create_layer_loop g1 eps d counts) (create_layer_loop g2 eps d counts).
Proof.
  induction counts as [|[p c] t IH]; cbn [create_layer_loop]; [apply born_ret_nil|].
  intros st1 st2 HA HW1 HW2. eapply two_bind; [exact (born_entries d p (Z.to_nat c) st1 st2 HA HW1 HW2)|].
  intros l1 s1 l2 s2 (HR & G1 & G2 & W1 & W2 & HA1). eapply two_bind; [exact (IH s1 s2 HA1 W1 W2)|].
  intros ls1 t1 ls2 t2 (HR' & G3 & G4 & W3 & W4 & HA2). cbn.
  split; [|split; [eapply grows_trans; eauto|split; [eapply grows_trans; eauto|auto]]].
  apply (all_gates_grows _ _ _ _ _ _ G3 G4) in HR. destruct HR as (gt & X1 & X2), HR' as (gs & Y1 & Y2).
  exists (gt ++ gs). split; apply Forall2_app; auto.
Qed.

Lemma picked {A} (P : nat -> A -> Prop) (dA : A) ls gs : Forall2 P ls gs -> forall perm, (forall i, In i perm -> (i < List.length ls)%nat) ->
  Forall2 P (map (fun i => nth i ls 0%nat) perm) (map (fun i => nth i gs dA) perm).
Proof.
  intros F. induction perm as [|i t IH]; intros H; cbn [map]; constructor; [|apply IH; intros; apply H; now right].
  specialize (H i (or_introl eq_refl)). clear IH. revert i H. induction F as [|x y ls gs H1 F IHF]; intros i H; [cbn in H; lia|].
  destruct i as [|i]; cbn [nth]; [exact H1|]. apply IHF. cbn in H. lia.
Qed.
Lemma born_layer d counts : born all_gates (create_random_layer g1 eps d counts) (create_random_layer g2 eps d counts).
Proof.
  intros st1 st2 HA HW1 HW2. unfold create_random_layer. eapply two_bind; [exact (born_loop d counts st1 st2 HA HW1 HW2)|].
  intros l1 s1 l2 s2 ((gs & F1 & F2) & G1 & G2 & W1 & W2 & HA1). unfold two, shuffle. cbn [fst snd r_world].
  assert (X := ask_next _ _ HA1). destruct HA1 as (k & E1 & E2). rewrite E1, E2 in *. destruct (SA k) as (_ & _ & EP).
  assert (L1 := F2_length _ _ _ F1). assert (L2 := F2_length _ _ _ F2).
  assert (IN : forall i, In i (g_perm g1 (d1 + k) (List.length l1)) -> (i < List.length l1)%nat).
  { intros i Hi. apply (Permutation_in i (proj2 (proj2 RG1) _ _)) in Hi. apply in_seq in Hi. lia. }
  split; [|auto 6].
  destruct gs as [|g0 gs].
  - destruct l1; [|discriminate]. destruct l2; [|discriminate]. cbn [List.length] in *. rewrite <- EP.
    destruct (g_perm g1 (d1 + k) 0) as [|i t]; [exists []; split; constructor|]. specialize (IN i (or_introl eq_refl)). lia.
  - exists (map (fun i => nth i (g0 :: gs) g0) (g_perm g1 (d1 + k) (List.length l1))). split; [now apply picked|].
    rewrite <- EP. replace (List.length l2) with (List.length l1) by lia. apply picked; [exact F2|]. intros i Hi. apply IN in Hi. lia.
Qed.

(** ** Calls on the sequences *)
(** No sequence is in two pairs. *)
Definition apart (L : list (nat * nat)) : Prop := forall p p', In p L -> In p' L -> (fst p = fst p' <-> snd p = snd p').
(** The listed pairs of sequences are in the same state. *)
Definition kin (L : list (nat * nat)) (st1 st2 : rstate) : Prop := ask st1 st2 /\ W (r_world st1) /\ W (r_world st2) /\ apart L /\
  forall p, In p L -> exists q, plain_view (r_world st1) (fst p) = Some q /\ plain_view (r_world st2) (snd p) = Some q.

Lemma kin_grow L st1 st2 t1 t2 : kin L st1 st2 -> grows (r_world st1) (r_world t1) -> grows (r_world st2) (r_world t2) ->
  W (r_world t1) -> W (r_world t2) -> ask t1 t2 -> kin L t1 t2.
Proof.
  intros (_ & HW1 & HW2 & AP & V) G1 G2 HW1' HW2' HA. split; [exact HA|]. split; [exact HW1'|]. split; [exact HW2'|]. split; [exact AP|].
  intros p Hp. destruct (V p Hp) as (q & V1 & V2).
  exists q. split; [exact (grows_view eps _ _ _ _ HW1 G1 V1)|exact (grows_view eps _ _ _ _ HW2 G2 V2)].
Qed.

Lemma on_seq_other {A} s (m : meth A) w t : t <> s -> nth_error (w_seqs (fst (on_seq s m w))) t = nth_error (w_seqs w) t.
Proof.
  intros N. unfold on_seq. destruct (nth_error (w_seqs w) s) as [q|] eqn:E; [|reflexivity].
  destruct (m (w_heap w, q)) as [[h' q'] r]. cbn [fst w_seqs]. rewrite (nth_error_list_set _ _ _ _ _ E).
  destruct (Nat.eqb_spec s t); [congruence|reflexivity].
Qed.
Lemma call_other o m w s t : t <> s -> same_call w s o m -> nth_error (w_seqs (fst (step eps o w))) t = nth_error (w_seqs w) t.
Proof.
  intros N C.
  assert (K : forall (A : Type) (me : meth A) (f : A -> value),
    nth_error (w_seqs (fst ((x <-- on_seq s me ;; se_ret (f x)) w))) t = nth_error (w_seqs w) t).
  { intros A me f. unfold se_bind. rewrite <- (on_seq_other s me w t N). destruct (on_seq s me w) as [w' [x|e]]; reflexivity. }
  destruct C as [l sv L|l sv L|sv|sv| |]; cbn [step].
  - unfold se_get at 1. unfold se_bind at 1. destruct (Nat.ltb l _); [apply (K unit _ (fun _ => VNone))|reflexivity].
  - unfold se_get at 1. unfold se_bind at 1. destruct (Nat.ltb l _); [apply (K unit _ (fun _ => VNone))|reflexivity].
  - apply (K unit _ (fun _ => VNone)).
  - apply (K unit _ (fun _ => VNone)).
  - apply (K unit _ (fun _ => VNone)).
  - apply (K unitary _ VUnitary).
Qed.
Lemma call_frame o m w s t q : W w -> same_call w s o m -> t <> s -> plain_view w t = Some q ->
  plain_view (fst (step eps o w)) t = Some q.
Proof.
  intros HW C N V. apply plain_view_iff in V. destruct V as (sq & E & B & ->). apply plain_view_iff.
  exists sq. rewrite (call_other o m w s t N C). split; [exact E|]. split; [exact B|]. symmetry.
  apply rview_ext; [now apply step_ext|]. destruct HW as [_ R]. now apply (R t).
Qed.

Variables s1 s2 : nat.
Variable others : list (nat * nat).
Hypothesis OTH : forall p, In p others -> fst p <> s1 /\ snd p <> s2.
Definition twins (st1 st2 : rstate) : Prop := kin ((s1, s2) :: others) st1 st2.

Lemma twins_call o1 o2 m st1 st2 : twins st1 st2 -> same_call (r_world st1) s1 o1 m -> same_call (r_world st2) s2 o2 m ->
  two (fun v t1 v' t2 => v = v' /\ twins t1 t2 /\ heap_ext (w_heap (r_world st1)) (w_heap (r_world t1)) /\
    heap_ext (w_heap (r_world st2)) (w_heap (r_world t2))) (call eps o1 st1) (call eps o2 st2).
Proof.
  intros (HA & HW1 & HW2 & HP & HV) C1 C2. destruct (HV (s1, s2) (or_introl eq_refl)) as (q & V1 & V2). cbn [fst snd] in V1, V2.
  assert (F1 := fun t p => call_frame o1 m (r_world st1) s1 t p HW1 C1). assert (F2 := fun t p => call_frame o2 m (r_world st2) s2 t p HW2 C2).
  assert (A1 := step_agree eps _ _ _ _ _ HW1 V1 C1). assert (A2 := step_agree eps _ _ _ _ _ HW2 V2 C2).
  assert (Y1 := W_step eps o1 _ HW1). assert (Y2 := W_step eps o2 _ HW2).
  assert (X1 := step_ext eps o1 _ HW1). assert (X2 := step_ext eps o2 _ HW2).
  unfold two, call. destruct (r_step exact_arith eps q m) as [q'|x].
  - destruct A1 as (w1 & E1 & P1), A2 as (w2 & E2 & P2). rewrite E1 in *. rewrite E2 in *. cbn [fst snd r_world] in *.
    set (rv := match m with RProduct => _ | _ => _ end) in *. destruct rv as [v|x]; [|reflexivity].
    split; [reflexivity|]. split; [|auto]. split; [exact HA|]. split; [exact Y1|]. split; [exact Y2|]. split; [exact HP|].
    intros p [<-|Hp]; [now exists q'|]. destruct (OTH p Hp) as [N1 N2]. destruct (HV p (or_intror Hp)) as (q0 & U1 & U2).
    exists q0. split; [exact (F1 _ _ N1 U1)|exact (F2 _ _ N2 U2)].
  - destruct A1 as (w1 & E1), A2 as (w2 & E2). rewrite E1, E2. reflexivity.
Qed.

Definition alike {A B} (R : A -> B -> Prop) (m1 : RM A) (m2 : RM B) : Prop := forall st1 st2, twins st1 st2 ->
  two (fun a t1 b t2 => R a b /\ twins t1 t2) (m1 st1) (m2 st2).

Lemma alike_product : alike eq (call_unitary eps (Product s1)) (call_unitary eps (Product s2)).
Proof.
  intros st1 st2 HT. unfold call_unitary. eapply two_bind; [exact (twins_call _ _ RProduct st1 st2 HT (same_product _ _) (same_product _ _))|].
  intros v t1 v' t2 (<- & HT' & _). destruct v; cbn; auto.
Qed.
Lemma twins_call_unit o1 o2 m st1 st2 : twins st1 st2 -> same_call (r_world st1) s1 o1 m -> same_call (r_world st2) s2 o2 m ->
  two (fun v t1 v' t2 => v = v' /\ twins t1 t2) (call eps o1 st1) (call eps o2 st2).
Proof. intros HT C1 C2. eapply two_mono; [exact (twins_call _ _ _ _ _ HT C1 C2)|]. cbn. tauto. Qed.

Lemma append_alike (first_end : bool) : forall ls1 ls2 first st1 st2, twins st1 st2 -> all_gates (r_world st1) (r_world st2) ls1 ls2 ->
  two (fun a t1 b t2 => a = b /\ twins t1 t2)
    (append_all eps (if first_end then AppendFirst s1 else AppendLast s1) ls1 first st1)
    (append_all eps (if first_end then AppendFirst s2 else AppendLast s2) ls2 first st2).
Proof.
  induction ls1 as [|l1 ls1 IH]; intros ls2 first st1 st2 HT (gs & F1 & F2).
  - inversion F1; subst. inversion F2; subst. cbn. auto.
  - inversion F1 as [|? gt ? gs' H1 F1']; subst. inversion F2 as [|l2 ? ls2' ? H2 F2']; subst. cbn [append_all].
    eapply two_bind.
    + apply (twins_call _ _ (if first_end then RFirst gt first else RLast gt first) st1 st2 HT);
        destruct first_end; try (now apply has_gate_call); now apply has_gate_call_last.
    + intros v t1 v' t2 (_ & HT' & X1 & X2). apply IH; [exact HT'|]. exists gs'.
      split; eapply has_gates_ext; eauto.
Qed.
Lemma remove_alike (first_end : bool) k : forall first,
  alike eq (remove_all eps (if first_end then RemoveFirst s1 else RemoveLast s1) k first)
    (remove_all eps (if first_end then RemoveFirst s2 else RemoveLast s2) k first).
Proof.
  induction k as [|k IH]; intros first st1 st2 HT; cbn [remove_all].
  - cbn. auto.
  - eapply two_bind.
    + apply (twins_call _ _ (if first_end then RPopFirst first else RPopLast first) st1 st2 HT); destruct first_end; constructor.
    + intros v t1 v' t2 (_ & HT' & _). now apply IH.
Qed.

(** ** Methods of the compiler *)
Definition both {A} (c : compiler) (m1 m2 : CM A) : Prop := forall st1 st2, twins st1 st2 ->
  two (fun a t1 b t2 => a = b /\ twins (fst t1) (fst t2) /\ snd t1 = c /\ snd t2 = c) (m1 (st1, c)) (m2 (st2, c)).

Lemma run_two {A B} (Q : A -> rstate -> B -> rstate -> Prop) (m1 : RM A) (m2 : RM B) c st1 st2 : two Q (m1 st1) (m2 st2) ->
  two (fun a t1 b t2 => Q a (fst t1) b (fst t2) /\ snd t1 = c /\ snd t2 = c) (c_run m1 (st1, c)) (c_run m2 (st2, c)).
Proof.
  unfold two, c_run. cbn [fst snd]. destruct (m1 st1) as [t1 [a|e]], (m2 st2) as [t2 [b|f]]; cbn [fst snd]; auto.
Qed.

Lemma tied_twins {A} (m1 m2 : RM A) : tied m1 m2 -> alike eq m1 m2.
Proof.
  intros H st1 st2 HT. eapply two_mono; [exact (H st1 st2 (proj1 HT))|]. cbn. intros a t1 b t2 (-> & E1 & E2 & HA).
  split; [reflexivity|]. destruct HT as (_ & X). unfold twins, kin. now rewrite E1, E2.
Qed.

Lemma change_both c : both c (make_random_change g1 eps s1) (make_random_change g2 eps s2).
Proof.
  intros st1 st2 HT. unfold make_random_change. apply two_self.
  eapply two_bind; [apply run_two, (tied_twins _ _ (tied_action (c_append c)) st1 st2 HT)|].
  intros a [t1 c1] b [t2 c2] ((<- & HT') & E1 & E2). cbn [fst snd] in *. subst c1 c2. clear HT st1 st2.
  assert (AP : forall fe : bool, two (fun a t1 b t2 => a = b /\ twins (fst t1) (fst t2) /\ snd t1 = c /\ snd t2 = c)
    ((l <-- c_run (create_random_sequence_entry g1 eps (c_dim c) (c_prims c) (c_probs c)) ;;
      c_run (call eps ((if fe then AppendFirst s1 else AppendLast s1) l true)) ;;; se_ret tt) (t1, c))
    ((l <-- c_run (create_random_sequence_entry g2 eps (c_dim c) (c_prims c) (c_probs c)) ;;
      c_run (call eps ((if fe then AppendFirst s2 else AppendLast s2) l true)) ;;; se_ret tt) (t2, c))).
  { intros fe. destruct HT' as (HA & HW1 & HW2 & V). assert (HT := conj HA (conj HW1 (conj HW2 V))). clear V.
    eapply two_bind; [apply run_two, (born_create _ _ _ t1 t2 HA HW1 HW2)|].
    intros l1 [r1 c1] l2 [r2 c2] (((gt & H1 & H2) & G1 & G2 & Y1 & Y2 & HA') & E1 & E2). cbn [fst snd] in *. subst c1 c2.
    assert (HT2 := kin_grow _ t1 t2 r1 r2 HT G1 G2 Y1 Y2 HA').
    eapply two_bind.
    - apply run_two, (twins_call_unit _ _ (if fe then RFirst gt true else RLast gt true) r1 r2 HT2);
        destruct fe; try (now apply has_gate_call); now apply has_gate_call_last.
    - intros v [u1 c1] v' [u2 c2] ((_ & HT3) & E1 & E2). cbn in *. auto. }
  assert (RM : forall fe : bool, two (fun a t1 b t2 => a = b /\ twins (fst t1) (fst t2) /\ snd t1 = c /\ snd t2 = c)
    ((c_run (call eps ((if fe then RemoveFirst s1 else RemoveLast s1) true)) ;;; se_ret tt) (t1, c))
    ((c_run (call eps ((if fe then RemoveFirst s2 else RemoveLast s2) true)) ;;; se_ret tt) (t2, c))).
  { intros fe. eapply two_bind.
    - apply run_two, (twins_call_unit _ _ (if fe then RPopFirst true else RPopLast true) t1 t2 HT'); destruct fe; constructor.
    - intros v [u1 c1] v' [u2 c2] ((_ & HT3) & E1 & E2). cbn in *. auto. }
  destruct a; [exact (AP true)|exact (AP false)|exact (RM true)|exact (RM false)].
Qed.

Lemma change_layered_both counts c : both c (make_random_change_layered g1 eps counts s1) (make_random_change_layered g2 eps counts s2).
Proof.
  intros st1 st2 HT. unfold make_random_change_layered. apply two_self.
  eapply two_bind; [apply run_two, (tied_twins _ _ (tied_action (c_append c)) st1 st2 HT)|].
  intros a [t1 c1] b [t2 c2] ((<- & HT') & E1 & E2). cbn [fst snd] in *. subst c1 c2. clear HT st1 st2.
  assert (AP : forall fe : bool, two (fun a t1 b t2 => a = b /\ twins (fst t1) (fst t2) /\ snd t1 = c /\ snd t2 = c)
    ((ls <-- c_run (create_random_layer g1 eps (c_dim c) counts) ;;
      c_run (append_all eps (if fe then AppendFirst s1 else AppendLast s1) ls true)) (t1, c))
    ((ls <-- c_run (create_random_layer g2 eps (c_dim c) counts) ;;
      c_run (append_all eps (if fe then AppendFirst s2 else AppendLast s2) ls true)) (t2, c))).
  { intros fe. destruct HT' as (HA & HW1 & HW2 & V). assert (HT := conj HA (conj HW1 (conj HW2 V))). clear V.
    eapply two_bind; [apply run_two, (born_layer _ _ t1 t2 HA HW1 HW2)|].
    intros l1 [r1 c1] l2 [r2 c2] ((HG & G1 & G2 & Y1 & Y2 & HA') & E1 & E2). cbn [fst snd] in *. subst c1 c2.
    assert (HT2 := kin_grow _ t1 t2 r1 r2 HT G1 G2 Y1 Y2 HA').
    eapply two_mono; [apply run_two, (append_alike fe l1 l2 true r1 r2 HT2 HG)|]. cbn. tauto. }
  assert (RM : forall fe : bool, two (fun a t1 b t2 => a = b /\ twins (fst t1) (fst t2) /\ snd t1 = c /\ snd t2 = c)
    (c_run (remove_all eps (if fe then RemoveFirst s1 else RemoveLast s1) (Z.to_nat (ModelCompiler.layer_length counts)) true) (t1, c))
    (c_run (remove_all eps (if fe then RemoveFirst s2 else RemoveLast s2) (Z.to_nat (ModelCompiler.layer_length counts)) true) (t2, c))).
  { intros fe. eapply two_mono; [apply run_two, (remove_alike fe _ true t1 t2 HT')|]. cbn. tauto. }
  destruct a; [exact (AP true)|exact (AP false)|exact (RM true)|exact (RM false)].
Qed.

(** The compiler cannot tell the two targets apart. *)
Definition no_difference (t1 t2 : unitary) : Prop :=
  (forall p, u_distance_from eps t1 p = u_distance_from eps t2 p) /\
  (forall p thr, u_close_to eps p t1 thr = u_close_to eps p t2 thr).

Lemma step_both target1 target2 (ch1 ch2 : nat -> CM unit) : no_difference target1 target2 ->
  (forall c, both c (ch1 s1) (ch2 s2)) -> forall st1 st2 c, twins st1 st2 ->
  two (fun a t1 b t2 => a = b /\ twins (fst t1) (fst t2) /\ snd t1 = snd t2)
    (compile_step g1 eps ch1 s1 target1 (st1, c)) (compile_step g2 eps ch2 s2 target2 (st2, c)).
Proof.
  intros [TD TC] HC st1 st2 c HT. unfold compile_step. set (c' := set_beta c (Rmin (c_beta c + c_rate c) (c_max_beta c))).
  eapply two_bind with (Q := fun _ t1 _ t2 => t1 = (st1, c') /\ t2 = (st2, c')); [cbn; auto|].
  intros _ ? _ ? [-> ->].
  eapply two_bind; [apply run_two, (alike_product st1 st2 HT)|].
  intros pb [t1 k1] pb' [t2 k2] ((<- & HT1) & E1 & E2). cbn [fst snd] in *. subst k1 k2.
  eapply two_bind; [apply (HC c' t1 t2 HT1)|].
  intros x [r1 k1] x' [r2 k2] (_ & HT2 & E1 & E2). cbn [fst snd] in *. subst k1 k2. clear x x'.
  eapply two_bind with (Q := fun a t1 b t2 => a = b /\ t1 = (r1, c') /\ t2 = (r2, c')).
  { unfold two, se_lift. cbn [fst snd]. rewrite TD. destruct (u_distance_from eps target2 pb); auto. }
  intros cur ? cur' ? (<- & -> & ->).
  eapply two_bind; [apply run_two, (alike_product r1 r2 HT2)|].
  intros pp [u1 k1] pp' [u2 k2] ((<- & HT3) & E1 & E2). cbn [fst snd] in *. subst k1 k2.
  eapply two_bind with (Q := fun a t1 b t2 => a = b /\ t1 = (u1, c') /\ t2 = (u2, c')).
  { unfold two, se_lift. cbn [fst snd]. rewrite TD. destruct (u_distance_from eps target2 pp); auto. }
  intros prop ? prop' ? (<- & -> & ->).
  eapply two_bind with (Q := fun a t1 b t2 => a = b /\ twins (fst t1) (fst t2) /\ snd t1 = c' /\ snd t2 = c').
  { unfold accept_proposed_change. apply two_self.
    eapply two_bind; [apply run_two, (tied_twins _ _ tied_unif u1 u2 HT3)|].
    intros x [v1 k1] x' [v2 k2] ((<- & HT4) & E1 & E2). cbn [fst snd] in *. subst k1 k2. cbn. auto. }
  intros acc [v1 k1] acc' [v2 k2] (<- & HT4 & E1 & E2). cbn [fst snd] in *. subst k1 k2. destruct acc.
  - cbn. auto.
  - eapply two_bind; [apply run_two, (twins_call_unit _ _ RUndo v1 v2 HT4 (same_undo _ _) (same_undo _ _))|].
    intros v [w1 k1] v' [w2 k2] ((_ & HT5) & E1 & E2). cbn [fst snd] in *. subst. cbn. auto.
Qed.

Lemma loop_both target1 target2 thr K (ch1 ch2 : nat -> CM unit) : no_difference target1 target2 -> (forall c, both c (ch1 s1) (ch2 s2)) -> forall fuel costs st1 st2 c, twins st1 st2 ->
  two (fun a t1 b t2 => a = b /\ twins (fst t1) (fst t2) /\ snd t1 = snd t2)
    (compile_loop g1 eps ch1 s1 target1 thr K costs fuel (st1, c)) (compile_loop g2 eps ch2 s2 target2 thr K costs fuel (st2, c)).
Proof.
  intros TG HC. induction fuel as [|fuel IH]; intros costs st1 st2 c HT; cbn [compile_loop]; [reflexivity|].
  eapply two_bind; [apply run_two, (alike_product st1 st2 HT)|].
  intros p [t1 k1] p' [t2 k2] ((<- & HT1) & E1 & E2). cbn [fst snd] in *. subst k1 k2.
  eapply two_bind with (Q := fun a r1 b r2 => a = b /\ r1 = (t1, c) /\ r2 = (t2, c)).
  { unfold two, se_lift. cbn [fst snd]. rewrite (proj2 TG). destruct (u_close_to eps p target2 thr); auto. }
  intros cl ? cl' ? (<- & -> & ->). destruct cl; [cbn; auto|].
  destruct (Z.ltb _ _); [|cbn; auto].
  eapply two_bind; [apply (step_both target1 target2 ch1 ch2 TG HC t1 t2 c HT1)|].
  intros x [r1 k1] x' [r2 k2] (<- & HT2 & E). cbn [fst snd] in *. subst k2. now apply IH.
Qed.
End Two.

Lemma view_lt w s q : plain_view w s = Some q -> (s < List.length (w_seqs w))%nat.
Proof.
  intros V. apply plain_view_iff in V. destruct V as (sq & E & _). apply nth_error_Some. congruence.
Qed.
Lemma kin_fresh d1 d2 eps L st1 st2 : kin d1 d2 eps L st1 st2 -> forall p, In p L ->
  fst p <> List.length (w_seqs (r_world st1)) /\ snd p <> List.length (w_seqs (r_world st2)).
Proof.
  intros (_ & _ & _ & _ & V) p Hp. destruct (V p Hp) as (q & V1 & V2). apply view_lt in V1. apply view_lt in V2. lia.
Qed.

Lemma apart_cons L a b : apart L -> (forall p, In p L -> fst p <> a /\ snd p <> b) -> apart ((a, b) :: L).
Proof.
  intros H F p p' [<-|Hp] [<-|Hp']; cbn [fst snd].
  - tauto.
  - destruct (F p' Hp'). split; intros E; symmetry in E; contradiction.
  - destruct (F p Hp). tauto.
  - now apply H.
Qed.

(** A run of the compiler: a new pair, and the others as before. *)
Definition runs_alike (d1 d2 : nat) (eps : R) (m1 m2 : CM (nat * list R)) : Prop := forall others st1 st2 c,
  kin d1 d2 eps others st1 st2 ->
  two (fun a t1 b t2 => snd a = snd b /\ kin d1 d2 eps ((fst a, fst b) :: others) (fst t1) (fst t2) /\ snd t1 = snd t2)
    (m1 (st1, c)) (m2 (st2, c)).

Lemma no_difference_refl eps t : no_difference eps t t.
Proof. split; reflexivity. Qed.

Lemma with_both g1 g2 d1 d2 eps target1 target2 thr K (ch1 ch2 : nat -> CM unit) : no_difference eps target1 target2 ->
  (forall s1 s2 others c, (forall p, In p others -> fst p <> s1 /\ snd p <> s2) ->
     both d1 d2 eps s1 s2 others c (ch1 s1) (ch2 s2)) -> same_answers g1 d1 g2 d2 ->
  runs_alike d1 d2 eps (compile_with g1 eps ch1 target1 thr K) (compile_with g2 eps ch2 target2 thr K).
Proof.
  intros TG HC SA others st1 st2 c HK.
  assert (FR := kin_fresh _ _ _ _ _ _ HK). destruct HK as (HA & W1 & W2 & HP & HV).
  set (q0 := {| s_dim := c_dim c; s_array := false; s_entries := []; s_product := None; s_prev_entries := None; s_prev_product := None |}).
  assert (NS : forall st : rstate, step eps (NewSequence (c_dim c) false []) (r_world st) =
    ({| w_heap := w_heap (r_world st); w_seqs := w_seqs (r_world st) ++ [q0] |}, Ok (VSequence (List.length (w_seqs (r_world st)))))) by reflexivity.
  assert (VW : forall st : rstate, plain_view {| w_heap := w_heap (r_world st); w_seqs := w_seqs (r_world st) ++ [q0] |} (List.length (w_seqs (r_world st))) = Some (r_empty (c_dim c))).
  { intros st. unfold plain_view. cbn [w_seqs w_heap]. rewrite nth_error_app2, Nat.sub_diag by lia. reflexivity. }
  assert (VO : forall (st : rstate) t q, plain_view (r_world st) t = Some q ->
    plain_view {| w_heap := w_heap (r_world st); w_seqs := w_seqs (r_world st) ++ [q0] |} t = Some q).
  { intros st t q V. assert (L := view_lt _ _ _ V). unfold plain_view in *. cbn [w_seqs w_heap]. now rewrite nth_error_app1 by exact L. }
  unfold compile_with. apply two_self.
  eapply two_bind with (Q := fun a t1 b t2 => (kin d1 d2 eps ((a, b) :: others) (fst t1) (fst t2) /\
    (forall p, In p others -> fst p <> a /\ snd p <> b)) /\ snd t1 = c /\ snd t2 = c).
  - refine (run_two (fun a t1 b t2 => kin d1 d2 eps ((a, b) :: others) t1 t2 /\ (forall p, In p others -> fst p <> a /\ snd p <> b)) _ _ c st1 st2 _).
    unfold call_sequence, call, two, se_bind. rewrite !NS. cbn [fst snd se_ret]. split; [|exact FR].
    split; [exact HA|]. cbn [r_world].
    assert (Y1 := W_step eps (NewSequence (c_dim c) false []) _ W1). assert (Y2 := W_step eps (NewSequence (c_dim c) false []) _ W2).
    rewrite NS in Y1, Y2. split; [exact Y1|]. split; [exact Y2|]. split; [now apply apart_cons|]. intros p [<-|Hp].
    + exists (r_empty (c_dim c)). split; apply VW.
    + destruct (HV p Hp) as (q & V1 & V2). exists q. split; now apply VO.
  - intros a [t1 k1] b [t2 k2] ((HT & NE) & E1 & E2). cbn [fst snd] in *. subst k1 k2.
    eapply two_bind; [apply (loop_both g1 g2 d1 d2 eps SA a b others NE target1 target2 thr K ch1 ch2 TG (fun c0 => HC a b others c0 NE) _ _ t1 t2 c HT)|].
    intros costs [u1 k1] costs' [u2 k2] (<- & HT2 & E). cbn [fst snd] in *. subst k2. cbn. auto.
Qed.

Lemma compile_alike2 g1 g2 d1 d2 eps target1 target2 thr K : no_difference eps target1 target2 ->
  rng_ok g1 -> same_answers g1 d1 g2 d2 -> runs_alike d1 d2 eps (compile g1 eps target1 thr K) (compile g2 eps target2 thr K).
Proof.
  intros TG RG SA others st1 st2 c HK. unfold compile. apply two_self.
  eapply two_bind with (Q := fun _ t1 _ t2 => t1 = (st1, c) /\ t2 = (st2, c)).
  { unfold two, se_lift. cbn [fst snd]. destruct (assert_primitives c); auto. }
  intros _ ? _ ? [-> ->]. apply with_both; auto. intros s1 s2 ot c0 NE. now apply change_both.
Qed.
Lemma layered_alike2 g1 g2 d1 d2 eps target1 target2 counts thr K : no_difference eps target1 target2 ->
  rng_ok g1 -> same_answers g1 d1 g2 d2 ->
  runs_alike d1 d2 eps (compile_layered g1 eps target1 counts thr K) (compile_layered g2 eps target2 counts thr K).
Proof.
  intros TG RG SA others st1 st2 c HK. unfold compile_layered. apply with_both; auto.
  intros s1 s2 ot c0 NE. now apply change_layered_both.
Qed.
Lemma compile_alike g1 g2 d1 d2 eps target thr K : rng_ok g1 -> same_answers g1 d1 g2 d2 ->
  runs_alike d1 d2 eps (compile g1 eps target thr K) (compile g2 eps target thr K).
Proof. apply compile_alike2, no_difference_refl. Qed.
Lemma layered_alike g1 g2 d1 d2 eps target counts thr K : rng_ok g1 -> same_answers g1 d1 g2 d2 ->
  runs_alike d1 d2 eps (compile_layered g1 eps target counts thr K) (compile_layered g2 eps target counts thr K).
Proof. apply layered_alike2, no_difference_refl. Qed.

Lemma kin_pair d1 d2 eps L s1 s2 st1 st2 : kin d1 d2 eps ((s1, s2) :: L) st1 st2 ->
  (exists k, r_draws st1 = (d1 + k)%nat /\ r_draws st2 = (d2 + k)%nat) /\ same_sequence (r_world st1) s1 (r_world st2) s2.
Proof.
  intros (HA & _ & _ & _ & V). destruct (V (s1, s2) (or_introl eq_refl)) as (q & V1 & V2). cbn [fst snd] in *.
  split; [exact HA|]. split; [|now exists q]. rewrite (view_contents _ _ _ V1), (view_contents _ _ _ V2). reflexivity.
Qed.
Lemma kin_start eps st1 st2 : reachable eps (r_world st1) -> reachable eps (r_world st2) ->
  kin (r_draws st1) (r_draws st2) eps [] st1 st2.
Proof.
  intros [os1 E1] [os2 E2]. split; [exists 0%nat; lia|]. rewrite E1, E2. split; [apply W_exec|]. split; [apply W_exec|]. split; [intros p p' []|intros p []].
Qed.
Lemma alike_same d1 d2 eps m1 m2 st1 st2 c : runs_alike d1 d2 eps m1 m2 -> kin d1 d2 eps [] st1 st2 ->
  same_compilation d1 d2 (m1 (st1, c)) (m2 (st2, c)).
Proof.
  intros H HK. specialize (H [] st1 st2 c HK). unfold same_compilation, two in *.
  destruct (m1 (st1, c)) as [[t1 k1] [[a ca]|e]], (m2 (st2, c)) as [[t2 k2] [[b cb]|f]]; cbn [fst snd] in *; auto.
  destruct H as (-> & HK' & ->). split; [reflexivity|]. split; [reflexivity|]. exact (kin_pair _ _ _ _ _ _ _ _ HK').
Qed.

Theorem compile_repro : forall g1 g2 eps target thr K c st1 st2,
  rng_ok g1 -> same_answers g1 (r_draws st1) g2 (r_draws st2) ->
  reachable eps (r_world st1) -> reachable eps (r_world st2) ->
  same_compilation (r_draws st1) (r_draws st2) (compile g1 eps target thr K (st1, c)) (compile g2 eps target thr K (st2, c)).
Proof. intros. eapply alike_same; [now apply compile_alike|now apply kin_start]. Qed.
Theorem layered_repro : forall g1 g2 eps target counts thr K c st1 st2,
  rng_ok g1 -> same_answers g1 (r_draws st1) g2 (r_draws st2) ->
  reachable eps (r_world st1) -> reachable eps (r_world st2) ->
  same_compilation (r_draws st1) (r_draws st2) (compile_layered g1 eps target counts thr K (st1, c)) (compile_layered g2 eps target counts thr K (st2, c)).
Proof. intros. eapply alike_same; [now apply layered_alike|now apply kin_start]. Qed.
