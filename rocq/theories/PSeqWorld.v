(** Programs over many sequences: what every call leaves alone, for every
    clean-up threshold. *)
From Coq Require Import Reals List Arith Lia Lra Bool String ZArith.
From Coquelicot Require Import Complex.
From Verif Require Import Base CMat CMatFacts Det DetFacts ModelUnitary ModelEntry ModelSequence
  Spec SpecModel PUnitary PEntry PSeqHeap PSeqMeth.
Import ListNotations.
Open Scope R_scope.
Open Scope C_scope.
Open Scope se_scope.

Section World.
Variable eps : R.
Variable Pg : unitary * list nat -> Prop.

(** Nothing observable changed between [(h, q)] and [(h', q')]. *)
Definition same (h : heap) (q : sequence) (h' : heap) (q' : sequence) : Prop :=
  s_dim q' = s_dim q /\ s_array q' = s_array q /\ s_entries q' = s_entries q /\
  s_prev_entries q' = s_prev_entries q /\ s_prev_product q' = s_prev_product q /\
  reported eps h' q' = reported eps h q /\
  (s_product q' = None -> s_product q = None).

Lemma same_refl h q : same h q h q.
Proof. repeat split; auto. Qed.
Lemma same_trans h1 q1 h2 q2 h3 q3 : same h1 q1 h2 q2 -> same h2 q2 h3 q3 -> same h1 q1 h3 q3.
Proof. unfold same. intuition congruence. Qed.

Lemma same_ext h h' q : heap_ext h h' -> seq_rng h q -> same h q h' q.
Proof.
  intros X [R _]. repeat (split; [reflexivity|]). split; [|auto]. unfold reported.
  destruct (s_product q); auto. now rewrite (gates_ext h h') by auto.
Qed.

Definition WG (w : world) : Prop :=
  heap_ok eps Pg (w_heap w) /\
  forall t q, nth_error (w_seqs w) t = Some q -> seq_rng (w_heap w) q.

Definition wrel (w w' : world) : Prop :=
  heap_ext (w_heap w) (w_heap w') /\
  (List.length (w_seqs w) <= List.length (w_seqs w'))%nat /\
  forall t q, nth_error (w_seqs w) t = Some q ->
    exists q', nth_error (w_seqs w') t = Some q' /\ same (w_heap w) q (w_heap w') q'.

Lemma wrel_refl w : wrel w w.
Proof. split; [apply heap_ext_refl|]. split; auto. intros t q H. exists q. auto using same_refl. Qed.
Lemma wrel_trans w1 w2 w3 : wrel w1 w2 -> wrel w2 w3 -> wrel w1 w3.
Proof.
  intros (X1 & L1 & S1) (X2 & L2 & S2). split; [eapply heap_ext_trans; eauto|]. split; [lia|].
  intros t q H. destruct (S1 t q H) as (q1 & H1 & E1). destruct (S2 t q1 H1) as (q2 & H2 & E2).
  exists q2. split; auto. eapply same_trans; eauto.
Qed.

(** A computation that leaves every sequence as it is. *)
Definition calm {A} (P : world -> Prop) (m : SE world A) (Q : A -> world -> Prop) : Prop :=
  forall w, WG w -> P w ->
    WG (fst (m w)) /\ wrel w (fst (m w)) /\
    forall a, snd (m w) = Ok a -> Q a (fst (m w)).

Lemma calm_bind {A B} P (m : SE world A) Q (f : A -> SE world B) R :
  calm P m Q -> (forall a, calm (Q a) (f a) R) -> calm P (se_bind m f) R.
Proof.
  intros Hm Hf w HW HP. destruct (Hm w HW HP) as (W1 & R1 & Q1). unfold se_bind.
  destruct (m w) as [w1 [a|x]]; simpl in *.
  - destruct (Hf a w1 W1 (Q1 a eq_refl)) as (W2 & R2 & Q2). split; auto.
    split; auto. eapply wrel_trans; eauto.
  - split; auto. split; auto. discriminate.
Qed.

Lemma calm_ret {A} (P : world -> Prop) (a : A) : calm P (se_ret a) (fun b w => b = a /\ P w).
Proof. intros w HW HP. simpl. split; auto. split; [apply wrel_refl|]. intros b [= <-]. auto. Qed.
Lemma calm_lift {A} (P : world -> Prop) (r : res A) : calm P (se_lift r) (fun b w => r = Ok b /\ P w).
Proof. intros w HW HP. simpl. split; auto. split; [apply wrel_refl|]. auto. Qed.
Lemma calm_raise {A} (P : world -> Prop) x (Q : A -> world -> Prop) : calm P (se_raise x) Q.
Proof. intros w HW HP. simpl. split; auto. split; [apply wrel_refl|]. discriminate. Qed.
Lemma calm_get P : calm P se_get (fun w0 w => w0 = w /\ P w).
Proof. intros w HW HP. simpl. split; auto. split; [apply wrel_refl|]. intros a [= <-]. auto. Qed.
Lemma calm_weaken {A} (P P' : world -> Prop) (m : SE world A) (Q Q' : A -> world -> Prop) :
  calm P m Q -> (forall w, P' w -> P w) -> (forall a w, Q a w -> Q' a w) -> calm P' m Q'.
Proof.
  intros H HP HQ w HW Hw. destruct (H w HW (HP w Hw)) as (A1 & A2 & A3). auto.
Qed.

Lemma calm_keep {A} (P F : world -> Prop) (m : SE world A) (Q : A -> world -> Prop) :
  calm P m Q -> (forall w w', wrel w w' -> F w -> F w') ->
  calm (fun w => P w /\ F w) m (fun a w => Q a w /\ F w).
Proof.
  intros H HF w HW [HP Hf]. destruct (H w HW HP) as (A1 & A2 & A3).
  split; auto. split; auto. intros a Ha. split; auto. eapply HF; eauto.
Qed.

(** A step on the store alone. *)
Lemma calm_heap {A} (P : world -> Prop) (m : SE heap A) (Q : A -> world -> Prop) :
  (forall w, WG w -> P w -> exists h' r, m (w_heap w) = (h', r) /\ heap_ext (w_heap w) h' /\
     heap_ok eps Pg h' /\ (forall a, r = Ok a -> Q a {| w_heap := h'; w_seqs := w_seqs w |})) ->
  calm P (on_heap m) Q.
Proof.
  intros H w HW HP. destruct (H w HW HP) as (h' & r & E & X & K & HQ).
  unfold on_heap. rewrite E. simpl. destruct HW as [W1 W2]. split; [|split]; auto.
  - split; auto. simpl. intros t q Ht. eapply seq_rng_ext; eauto.
  - split; auto. split; auto. simpl. intros t q Ht. exists q. split; auto.
    apply same_ext; eauto.
Qed.

Lemma nth_error_list_set {A} (l : list A) i x j y :
  nth_error l i = Some y ->
  nth_error (list_set l i x) j = if Nat.eqb i j then Some x else nth_error l j.
Proof.
  revert i j; induction l as [|z l IH]; intros [|i] [|j] H; simpl in *; auto; try discriminate.
Qed.

(** A method that leaves the object it is called on as it is. *)
Lemma calm_on_seq {A} (P : world -> Prop) s (m : meth A) (Q : A -> world -> Prop) :
  (forall w q, WG w -> P w -> nth_error (w_seqs w) s = Some q ->
     exists h' q' r, m (w_heap w, q) = ((h', q'), r) /\ heap_ext (w_heap w) h' /\
       heap_ok eps Pg h' /\ seq_rng h' q' /\ same (w_heap w) q h' q' /\
       (forall a, r = Ok a -> Q a {| w_heap := h'; w_seqs := list_set (w_seqs w) s q' |})) ->
  calm P (on_seq s m) Q.
Proof.
  intros H w HW HP. unfold on_seq. destruct (nth_error (w_seqs w) s) as [q|] eqn:Es.
  2:{ simpl. split; auto. split; [apply wrel_refl|]. discriminate. }
  destruct (H w q HW HP Es) as (h' & q' & r & E & X & K & R & S & HQ). rewrite E. simpl.
  destruct HW as [W1 W2]. split; [|split]; auto.
  - split; auto. simpl. intros t p Ht. rewrite (nth_error_list_set _ _ _ _ _ Es) in Ht.
    destruct (Nat.eqb s t).
    + injection Ht as <-. auto.
    + eapply seq_rng_ext; eauto.
  - split; auto. simpl. split; [rewrite list_set_length; auto|].
    intros t p Ht. rewrite (nth_error_list_set _ _ _ _ _ Es).
    destruct (Nat.eqb_spec s t) as [<-|].
    + exists q'. rewrite Es in Ht. injection Ht as <-. auto.
    + exists p. split; auto. apply same_ext; eauto.
Qed.

Lemma seq_rng_set_product h s p : seq_rng h s -> seq_rng h (set_product s p).
Proof. intros H. exact H. Qed.

Lemma product_same h s :
  G eps Pg h s ->
  exists h' s' r, product eps (h, s) = ((h', s'), r) /\ heap_ext h h' /\ heap_ok eps Pg h' /\
    seq_rng h' s' /\ same h s h' s' /\ r = reported eps h s.
Proof.
  intros HG. destruct (product_spec eps Pg h s HG) as (h' & E & X & K & _).
  eexists _, _, _. split; [exact E|]. split; auto. split; auto. split; [|split; auto].
  - destruct (reported eps h s); (eapply seq_rng_ext; [exact X|]); apply HG.
  - destruct (reported eps h s) as [p|x] eqn:Er.
    + repeat (split; [reflexivity|]). rewrite Er. split; [reflexivity|discriminate].
    + apply same_ext; auto. apply HG.
Qed.

Lemma WG_G w s q : WG w -> nth_error (w_seqs w) s = Some q -> G eps Pg (w_heap w) q.
Proof. intros [W1 W2] H. split; eauto. Qed.

Lemma calm_product P s : calm P (on_seq s (product eps)) (fun _ _ => True).
Proof.
  apply calm_on_seq. intros w q HW _ Hq.
  destruct (product_same _ _ (WG_G _ _ _ HW Hq)) as (h' & s' & r & E & X & K & R & S & _).
  exists h', s', r. auto 10.
Qed.

Lemma calm_entries P s :
  calm P (on_seq s (q <-- m_self ;; m_heap (h_deepcopy (s_entries q))))
    (fun ls w => in_heap (w_heap w) ls).
Proof.
  apply calm_on_seq. intros w q HW _ Hq. assert (HG := WG_G _ _ _ HW Hq).
  destruct (deepcopy (w_heap w) (s_entries q)) as [h' ls] eqn:E.
  destruct (deepcopy_frame eps Pg _ _ h' ls (proj1 (proj2 HG)) E) as (E1 & E2 & E3 & E4 & _).
  exists h', q, (Ok ls). split.
  - unfold se_bind, m_self, m_heap, h_deepcopy. cbn [fst snd]. now rewrite E.
  - split; auto. split; [apply E2, HG|]. split; [exact (seq_rng_ext _ _ _ E1 (proj2 HG))|].
    split; [apply same_ext; [auto|apply HG]|]. intros a [= <-]. auto.
Qed.

(** [Pg] survives what [inverse()] does to the objects it copied. *)
Definition Pinv : Prop := forall u v qs, Pg (u, qs) -> u_inverse eps u = Ok v -> Pg (v, qs).

Lemma inverse_frame h s : Pinv ->
  G eps Pg h s ->
  exists h' s' r, inverse eps (h, s) = ((h', s'), r) /\ heap_ext h h' /\ heap_ok eps Pg h' /\
    seq_rng h' s' /\ same h s h' s' /\
    (forall i, r = Ok i -> seq_rng h' i /\ s_dim i = s_dim s /\ s_array s = false).
Proof.
  intros HI HG. unfold inverse. unfold se_bind at 1. cbn [m_self snd].
  unfold se_bind at 1. unfold m_heap, h_deepcopy. cbn [fst snd].
  destruct (deepcopy h (s_entries s)) as [h1 ls] eqn:E1.
  destruct (deepcopy_frame eps Pg _ _ h1 ls (proj1 (proj2 HG)) E1) as (X1 & K1 & R1 & _ & F1 & _).
  specialize (K1 (proj1 HG)). assert (HR1 := seq_rng_ext _ _ _ X1 (proj2 HG)).
  unfold se_bind at 1. cbn [fst snd].
  destruct (new_sequence_spec eps Pg (s_dim s) (s_array s) ls h1 K1 R1)
    as (h2 & r2 & E2 & X2 & K2 & [(V & ls' & -> & R2 & _ & F2 & _)|(V & -> & ->)]); rewrite E2.
  2:{ eexists _, _, _. split; [reflexivity|]. split; auto. split; auto. split; auto.
      split; [apply same_ext; [auto|apply HG]|]. discriminate. }
  assert (X02 : heap_ext h h2) by (eapply heap_ext_trans; eauto).
  cbn [s_array]. destruct (s_array s) eqn:Ar.
  { eexists _, _, _. split; [reflexivity|]. split; auto. split; auto.
    split; [exact (seq_rng_ext _ _ _ X02 (proj2 HG))|].
    split; [apply same_ext; [auto|apply HG]|]. discriminate. }
  cbn [s_entries set_entries]. unfold se_bind at 1. cbn [fst snd].
  destruct (invert_loop_frame eps Pg (rev ls') h2 (List.length h1)) as (h3 & r3 & E3 & K3 & N3 & F3); auto.
  { intros l Hl. apply in_rev in Hl. split; [now apply F2|now apply R2]. }
  rewrite E3.
  assert (X03 : heap_ext h h3).
  { split; [destruct X02; lia|]. intros l Hl. rewrite F3.
    - now apply X02.
    - intros Hin. apply in_rev in Hin. apply F2 in Hin. destruct X1; lia. }
  assert (HR3 := seq_rng_ext _ _ _ X03 (proj2 HG)).
  assert (HS3 : same h s h3 s) by (apply same_ext; [auto|apply HG]).
  destruct r3 as [[]|x].
  2:{ eexists _, _, _. split; [reflexivity|]. split; auto. split; auto. split; auto.
      split; auto. discriminate. }
  unfold se_bind at 1.
  destruct (product_same h3 s (conj K3 HR3)) as (h4 & s4 & r4 & E4 & X4 & K4 & R4 & S4 & _).
  rewrite E4. assert (X04 : heap_ext h h4) by (eapply heap_ext_trans; eauto).
  assert (HS4 : same h s h4 s4) by (eapply same_trans; eauto).
  destruct r4 as [p|x].
  2:{ eexists _, _, _. split; [reflexivity|]. split; auto. split; auto. split; auto.
      split; auto. discriminate. }
  unfold se_bind, se_lift. destruct (u_inverse eps p) as [pi|x].
  2:{ eexists _, _, _. split; [reflexivity|]. split; auto. split; auto. split; auto.
      split; auto. discriminate. }
  eexists _, _, _. split; [reflexivity|]. split; auto. split; auto. split; auto.
  split; auto. intros i [= <-]. split; [|auto]. split; cbn [s_entries set_product set_entries s_prev_entries].
  - intros l Hl. apply in_rev in Hl. apply R2 in Hl. destruct X4. lia.
  - discriminate.
Qed.

Lemma calm_inverse P s : Pinv ->
  calm P (on_seq s (inverse eps)) (fun i w => seq_rng (w_heap w) i).
Proof.
  intros HI. apply calm_on_seq. intros w q HW _ Hq.
  destruct (inverse_frame _ _ HI (WG_G _ _ _ HW Hq)) as (h' & s' & r & E & X & K & R & S & F).
  exists h', s', r. split; auto. split; auto. split; auto. split; auto. split; auto.
  intros i Hi. now apply F.
Qed.

Lemma calm_add q : calm (fun w => seq_rng (w_heap w) q) (add_seq q) (fun _ _ => True).
Proof.
  intros w HW HP. unfold add_seq. simpl. split; [|split; auto].
  - destruct HW as [W1 W2]. split; auto. simpl. intros t p Ht.
    destruct (Nat.lt_ge_cases t (List.length (w_seqs w))) as [L|L].
    + rewrite nth_error_app1 in Ht by auto. eauto.
    + rewrite nth_error_app2 in Ht by auto.
      destruct (t - List.length (w_seqs w))%nat as [|k]; simpl in Ht.
      * injection Ht as <-. auto.
      * destruct k; discriminate.
  - split; [apply heap_ext_refl|]. simpl. split; [rewrite app_length; lia|].
    intros t p Ht. exists p. split; [|apply same_refl].
    rewrite nth_error_app1; auto. apply nth_error_Some. congruence.
Qed.

Lemma calm_new d ia ls :
  calm (fun w => in_heap (w_heap w) ls) (on_heap (new_sequence d ia ls))
       (fun q w => seq_rng (w_heap w) q).
Proof.
  apply calm_heap. intros w [HW _] HP.
  destruct (new_sequence_spec eps Pg d ia ls (w_heap w) HW HP)
    as (h' & r & E & X & K & [(V & ls' & -> & R & _)|(V & -> & ->)]); eexists _, _.
  - split; [exact E|]. split; auto. split; auto. intros a [= <-]. split; auto. discriminate.
  - split; [exact E|]. split; auto. split; auto. discriminate.
Qed.

Lemma calm_combine_loop ss : forall ls p,
  calm (fun w => True /\ in_heap (w_heap w) ls) (combine_loop eps ss ls p)
       (fun r w => in_heap (w_heap w) (fst r)).
Proof.
  induction ss as [|s ss IH]; intros ls p.
  - eapply calm_weaken; [apply calm_ret with (P := fun w => in_heap (w_heap w) ls)| |].
    + intros w [_ H]. exact H.
    + intros a w [-> H]. exact H.
  - cbn [combine_loop].
    assert (St : forall k w w', wrel w w' -> in_heap (w_heap w) k -> in_heap (w_heap w') k).
    { intros k w w' [X _] H. eapply in_heap_ext; eauto. }
    eapply calm_bind.
    { apply (calm_keep (fun _ => True) (fun w => in_heap (w_heap w) ls)); [|apply St].
      apply calm_entries. }
    intros ls'. cbn beta. eapply calm_bind.
    { eapply calm_weaken with (P := fun w => True /\ in_heap (w_heap w) (ls ++ ls')).
      - apply (calm_keep (fun _ => True) (fun w => in_heap (w_heap w) (ls ++ ls'))); [|apply St].
        apply calm_product.
      - intros w [H1 H2]. split; auto. apply in_heap_app. auto.
      - intros a w H. exact H. }
    intros ps. eapply calm_bind; [apply calm_lift|]. intros p'.
    eapply calm_weaken; [apply IH| |auto]. intros w (_ & _ & H). auto.
Qed.

Lemma calm_combine P ss : calm P (combine eps ss) (fun q w => seq_rng (w_heap w) q).
Proof.
  unfold combine. eapply calm_bind; [apply calm_get|]. intros w0.
  destruct ss as [|s0 ss]; [apply calm_raise|].
  destruct (nth_error (w_seqs w0) s0) as [q0|]; [|apply calm_raise].
  eapply calm_bind; [apply calm_lift|]. intros tt0.
  eapply calm_bind; [apply calm_lift|]. intros p0.
  eapply calm_bind.
  { eapply calm_weaken; [apply (calm_combine_loop (s0 :: ss) [] p0)| |intros a w H; exact H].
    intros w _. split; auto. apply in_heap_nil. }
  intros r. eapply calm_bind; [apply calm_new|]. intros q.
  eapply calm_weaken; [apply calm_ret with (P := fun w => seq_rng (w_heap w) q)| |]; auto.
  intros a w [-> H]. exact H.
Qed.

Definition mutator (o : op) : bool :=
  match o with
  | AppendFirst _ _ _ | AppendLast _ _ _ | RemoveFirst _ _ | RemoveLast _ _ | Undo _ => true
  | _ => false
  end.

Lemma mk_entry_cache u qs e : mk_entry u qs = Ok e -> cache_ok eps e.
Proof.
  intros H. apply mk_entry_fields in H. destruct H as (_ & _ & H). intros d v. rewrite H. discriminate.
Qed.

(** Calls that keep [Pg]. *)
Definition allowed (o : op) : Prop :=
  match o with
  | NewEntry u qs => forall e, mk_entry u qs = Ok e -> Pg (gate e)
  | Inverse _ => Pinv
  | _ => True
  end.

Lemma step_calm o : allowed o -> mutator o = false -> calm (fun _ => True) (step eps o) (fun _ _ => True).
Proof.
  destruct o; intros HA Hm; try discriminate Hm; cbn [step].
  - intros w HW _. destruct (mk_entry u apply_to) as [e|x] eqn:E; simpl.
    + destruct HW as [W1 W2].
      assert (X := heap_ext_app (w_heap w) [e]).
      split; [|split; auto].
      * split; simpl.
        -- intros l Hl. rewrite app_length in Hl. simpl in Hl.
           destruct (Nat.eq_dec l (List.length (w_heap w))) as [->|].
           ++ rewrite obj_app_r. split; [eapply mk_entry_cache; eauto|now apply HA].
           ++ rewrite obj_app_l by lia. apply W1. lia.
        -- intros t q Ht. eapply seq_rng_ext; eauto.
      * split; auto. split; auto. simpl. intros t q Ht. exists q. split; auto.
        apply same_ext; eauto.
    + split; auto. split; [apply wrel_refl|auto].
  - eapply calm_bind; [apply calm_get|]. intros w0.
    destruct (Nat.ltb_spec l (List.length (w_heap w0))) as [L|L]; [|apply calm_raise].
    eapply calm_bind with (Q := fun _ _ => True).
    + apply calm_heap. intros w [HW _] [-> _].
      destruct (h_full_spec eps Pg l d (w_heap w) HW L) as (h' & E & X & K & _).
      eexists _, _. split; [exact E|]. auto.
    + intros u. eapply calm_weaken; [apply (calm_ret (fun _ => True))| |]; intros; exact I.
  - eapply calm_bind; [apply calm_get|]. intros w0.
    destruct (forallb (fun l => Nat.ltb l (List.length (w_heap w0))) ls) eqn:L; [|apply calm_raise].
    eapply calm_bind; [|intros q; apply calm_add].
    eapply calm_weaken; [apply calm_new| |intros a w H; exact H].
    intros w [-> _] l Hl. rewrite forallb_forall in L. apply L in Hl. now apply Nat.ltb_lt.
  - eapply calm_bind; [apply calm_product|]. intros u.
    eapply calm_weaken; [apply (calm_ret (fun _ => True))| |]; intros; exact I.
  - eapply calm_bind; [apply calm_inverse; exact HA|]. intros q. apply calm_add.
  - eapply calm_bind; [apply calm_combine|]. intros q. apply calm_add.
  - eapply calm_bind; [apply calm_entries|]. intros u.
    eapply calm_weaken; [apply (calm_ret (fun _ => True))| |]; intros; exact I.
Qed.

(** A method that changes the object it is called on. *)
Lemma on_seq_frame {A} s (m : meth A) w q :
  WG w -> nth_error (w_seqs w) s = Some q ->
  (exists h' q' r, m (w_heap w, q) = ((h', q'), r) /\ heap_ext (w_heap w) h' /\ G eps Pg h' q') ->
  WG (fst (on_seq s m w)) /\ heap_ext (w_heap w) (w_heap (fst (on_seq s m w))) /\
  List.length (w_seqs (fst (on_seq s m w))) = List.length (w_seqs w) /\
  (forall t p, s <> t -> nth_error (w_seqs w) t = Some p ->
     nth_error (w_seqs (fst (on_seq s m w))) t = Some p /\
     same (w_heap w) p (w_heap (fst (on_seq s m w))) p).
Proof.
  intros [W1 W2] Es (h' & q' & r & E & X & GG). unfold on_seq. rewrite Es, E. simpl.
  split; [|split; [|split]]; auto.
  - split; [apply GG|]. simpl. intros t p Ht. rewrite (nth_error_list_set _ _ _ _ _ Es) in Ht.
    destruct (Nat.eqb s t).
    + injection Ht as <-. apply GG.
    + eapply seq_rng_ext; eauto.
  - apply list_set_length.
  - intros t p Hne Ht. rewrite (nth_error_list_set _ _ _ _ _ Es).
    apply Nat.eqb_neq in Hne. rewrite Hne. split; auto. apply same_ext; eauto.
Qed.

Lemma se_bind_ret {S A B} (m : SE S A) (b : B) s :
  fst (se_bind m (fun _ => se_ret b) s) = fst (m s) /\
  snd (se_bind m (fun _ => se_ret b) s) =
    match snd (m s) with Ok _ => Ok b | Raise x => Raise x end.
Proof. unfold se_bind. destruct (m s) as [s' [a|x]]; auto. Qed.

Lemma undo_frame h s : G eps Pg h s ->
  exists h' q' r, undo (h, s) = ((h', q'), r) /\ heap_ext h h' /\ G eps Pg h' q' /\
    s_dim q' = s_dim s /\ s_array q' = s_array s.
Proof.
  intros [K [R1 R2]]. unfold undo, se_bind, m_self, se_raise, m_upd. cbn [snd fst].
  destruct (s_prev_entries s) as [ls|] eqn:E.
  - eexists _, _, _. split; [reflexivity|]. split; [apply heap_ext_refl|]. split; [|auto]. split; [exact K|].
    split; [apply R2; reflexivity|discriminate].
  - eexists _, _, _. split; [reflexivity|]. split; [apply heap_ext_refl|]. split; [|auto].
    split; [exact K|]. split; auto. rewrite E. exact R2.
Qed.

Lemma in_tl {A} (l : list A) x : In x (tl l) -> In x l.
Proof. destruct l; simpl; auto. Qed.
Lemma in_removelast {A} (l : list A) x : In x (removelast l) -> In x l.
Proof.
  induction l as [|y l IH]; simpl; auto. destruct l as [|z l]; [intros []|].
  intros [->|H]; auto.
Qed.

Definition target_meth (o : op) : option (nat * meth unit) :=
  match o with
  | AppendFirst s l sv => Some (s, append_first eps l sv)
  | AppendLast s l sv => Some (s, append_last eps l sv)
  | RemoveFirst s sv => Some (s, remove_first eps sv)
  | RemoveLast s sv => Some (s, remove_last eps sv)
  | Undo s => Some (s, undo)
  | _ => None
  end.

Lemma mutator_frame o s m h q :
  target_meth o = Some (s, m) -> G eps Pg h q ->
  (match o with AppendFirst _ l _ | AppendLast _ l _ => (l < List.length h)%nat | _ => True end) ->
  exists h' q' r, m (h, q) = ((h', q'), r) /\ heap_ext h h' /\ G eps Pg h' q' /\
    s_dim q' = s_dim q /\ s_array q' = s_array q.
Proof.
  destruct o; cbn [target_meth]; intros [= <- <-] HG HL.
  - rewrite append_first_eq. destruct (entry_valid _ _).
    + destruct (mutate_frame eps Pg l save_undo (fun ls => l :: ls) (upd_first eps) h q HG HL)
        as (h' & s' & r & E & X & GG & D1 & A1 & _).
      { intros ls x [->|H]; auto. }
      eauto 12.
    + eexists _, _, _. split; [reflexivity|]. auto using heap_ext_refl.
  - rewrite append_last_eq. destruct (entry_valid _ _).
    + destruct (mutate_frame eps Pg l save_undo (fun ls => ls ++ [l]) (upd_last eps) h q HG HL)
        as (h' & s' & r & E & X & GG & D1 & A1 & _).
      { intros ls x H. apply in_app_or in H. destruct H as [H|[->|[]]]; auto. }
      eauto 12.
    + eexists _, _, _. split; [reflexivity|]. auto using heap_ext_refl.
  - rewrite remove_first_eq. destruct (s_entries q) as [|l t] eqn:El.
    + eexists _, _, _. split; [reflexivity|]. auto using heap_ext_refl.
    + destruct (mutate_frame eps Pg l save_undo (@tl nat) (upd_unfirst eps) h q HG)
        as (h' & s' & r & E & X & GG & D1 & A1 & _).
      { apply (proj1 (proj2 HG)). rewrite El. simpl; auto. }
      { intros ls x H. right. now apply in_tl. }
      eauto 12.
  - rewrite remove_last_eq. destruct (rev (s_entries q)) as [|l t] eqn:El.
    + eexists _, _, _. split; [reflexivity|]. auto using heap_ext_refl.
    + destruct (mutate_frame eps Pg l save_undo (@removelast nat) (upd_unlast eps) h q HG)
        as (h' & s' & r & E & X & GG & D1 & A1 & _).
      { apply (proj1 (proj2 HG)). apply in_rev. rewrite El. simpl; auto. }
      { intros ls x H. right. now apply in_removelast. }
      eauto 12.
  - now apply undo_frame.
Qed.

Lemma step_append_first s l sv w :
  step eps (AppendFirst s l sv) w =
  if Nat.ltb l (List.length (w_heap w))
  then se_bind (on_seq s (append_first eps l sv)) (fun _ => se_ret VNone) w
  else (w, Raise IndexError).
Proof.
  cbn [step]. unfold se_bind at 1. unfold se_get. now destruct (Nat.ltb l _).
Qed.
Lemma step_append_last s l sv w :
  step eps (AppendLast s l sv) w =
  if Nat.ltb l (List.length (w_heap w))
  then se_bind (on_seq s (append_last eps l sv)) (fun _ => se_ret VNone) w
  else (w, Raise IndexError).
Proof.
  cbn [step]. unfold se_bind at 1. unfold se_get. now destruct (Nat.ltb l _).
Qed.

(** Any call: the invariant, and what happens to the sequences it does not
    change. *)
Lemma step_frame o w :
  allowed o -> WG w ->
  WG (fst (step eps o w)) /\ heap_ext (w_heap w) (w_heap (fst (step eps o w))) /\
  (List.length (w_seqs w) <= List.length (w_seqs (fst (step eps o w))))%nat /\
  (forall t p, mutates o t = false -> nth_error (w_seqs w) t = Some p ->
     exists p', nth_error (w_seqs (fst (step eps o w))) t = Some p' /\
       same (w_heap w) p (w_heap (fst (step eps o w))) p').
Proof.
  intros HA HW. destruct (mutator o) eqn:Hm.
  2:{ destruct (step_calm o HA Hm w HW I) as (W1 & (X & L & S) & _). auto. }
  assert (Hnull : WG w /\ heap_ext (w_heap w) (w_heap w) /\
    (List.length (w_seqs w) <= List.length (w_seqs w))%nat /\
    (forall t p, mutates o t = false -> nth_error (w_seqs w) t = Some p ->
       exists p', nth_error (w_seqs w) t = Some p' /\ same (w_heap w) p (w_heap w) p')).
  { split; auto. split; [apply heap_ext_refl|]. split; auto. intros t p _ Ht.
    exists p. auto using same_refl. }
  assert (Hgen : forall s m, target_meth o = Some (s, m) -> mutates o = Nat.eqb s ->
     (match o with AppendFirst _ l _ | AppendLast _ l _ => (l < List.length (w_heap w))%nat | _ => True end) ->
     WG (fst (on_seq s m w)) /\ heap_ext (w_heap w) (w_heap (fst (on_seq s m w))) /\
     (List.length (w_seqs w) <= List.length (w_seqs (fst (on_seq s m w))))%nat /\
     (forall t p, mutates o t = false -> nth_error (w_seqs w) t = Some p ->
       exists p', nth_error (w_seqs (fst (on_seq s m w))) t = Some p' /\
         same (w_heap w) p (w_heap (fst (on_seq s m w))) p')).
  { intros s m Ht Hmu HL. destruct (nth_error (w_seqs w) s) as [q|] eqn:Es.
    - destruct (on_seq_frame s m w q HW Es) as (A1 & A2 & A3 & A4).
      { destruct (mutator_frame o s m (w_heap w) q Ht (WG_G w s q HW Es) HL) as (h' & q' & r & E & X & GG & _).
        exists h', q', r. auto. }
      split; auto. split; auto. split; [lia|]. intros t p Hne Ht'. rewrite Hmu in Hne.
      apply Nat.eqb_neq in Hne. exists p. now apply A4.
    - unfold on_seq. rewrite Es. exact Hnull. }
  destruct o; try discriminate Hm.
  - rewrite step_append_first.
    destruct (Nat.ltb_spec l (List.length (w_heap w))); [|exact Hnull].
    rewrite (proj1 (se_bind_ret _ _ _)). apply Hgen; auto.
  - rewrite step_append_last.
    destruct (Nat.ltb_spec l (List.length (w_heap w))); [|exact Hnull].
    rewrite (proj1 (se_bind_ret _ _ _)). apply Hgen; auto.
  - cbn [step]. rewrite (proj1 (se_bind_ret _ _ _)). apply Hgen; auto.
  - cbn [step]. rewrite (proj1 (se_bind_ret _ _ _)). apply Hgen; auto.
  - cbn [step]. rewrite (proj1 (se_bind_ret _ _ _)). apply Hgen; auto.
Qed.

Lemma WG_empty : WG w_empty.
Proof.
  split.
  - intros l Hl. simpl in Hl. lia.
  - intros [|t] q H; discriminate.
Qed.

Lemma exec_frame os : (forall o, In o os -> allowed o) -> forall w, WG w ->
  WG (exec eps os w) /\ heap_ext (w_heap w) (w_heap (exec eps os w)) /\
  (List.length (w_seqs w) <= List.length (w_seqs (exec eps os w)))%nat /\
  (forall t p, (forall o, In o os -> mutates o t = false) -> nth_error (w_seqs w) t = Some p ->
     exists p', nth_error (w_seqs (exec eps os w)) t = Some p' /\
       same (w_heap w) p (w_heap (exec eps os w)) p').
Proof.
  induction os as [|o os IH]; intros HA w HW; simpl.
  - split; auto. split; [apply heap_ext_refl|]. split; auto. intros t p _ H. exists p.
    auto using same_refl.
  - destruct (step_frame o w (HA o (or_introl eq_refl)) HW) as (W1 & X1 & L1 & S1).
    destruct (IH (fun o' H' => HA o' (or_intror H')) _ W1) as (W2 & X2 & L2 & S2). split; auto.
    split; [eapply heap_ext_trans; eauto|]. split; [lia|]. intros t p Hm Ht.
    destruct (S1 t p) as (p1 & H1 & E1); auto.
    destruct (S2 t p1) as (p2 & H2 & E2); auto.
    exists p2. split; auto. eapply same_trans; eauto.
Qed.

Lemma WG_exec os : (forall o, In o os -> allowed o) -> WG (exec eps os w_empty).
Proof. intros HA. apply exec_frame; auto using WG_empty. Qed.

(** What [product()] answers, on a reachable sequence. *)
Lemma step_product w t q :
  WG w -> nth_error (w_seqs w) t = Some q ->
  snd (step eps (Product t) w) =
    match reported eps (w_heap w) q with Ok p => Ok (VUnitary p) | Raise x => Raise x end.
Proof.
  intros HW Ht. cbn [step]. unfold se_bind, on_seq. rewrite Ht.
  destruct (product_same _ _ (WG_G _ _ _ HW Ht)) as (h' & s' & r & E & _ & _ & _ & _ & ->).
  rewrite E. destruct (reported eps (w_heap w) q); reflexivity.
Qed.
End World.
