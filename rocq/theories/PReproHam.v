(** Two runs with the same answers of the generator: the Hamiltonian and verification sequences, C109. *)
From Coq Require Import Reals List Arith Lia Lra Bool String ZArith Permutation.
From Coquelicot Require Import Complex.
From Verif Require Import Base CMat CMatFacts Det CRoot ModelUnitary ModelEntry ModelPrimitive ModelSequence ModelCompiler
  ModelVerification ModelHamiltonian
  ModelRound ModelRoundComp Spec SpecModel SpecCompiler SpecAgree SpecRepro PUnitary PEntry PSeqHeap PSeqMeth PSeqWorld
  PSeqUndo PCompView PCompRun PCompEntry PCompLoop PAgree PAgree2 PAgreeEx PRepro.
Import ListNotations.
Open Scope R_scope.
Open Scope list_scope.
Open Scope se_scope.
Set Bullet Behavior "Strict Subproofs".

Section Made.
Variables g1 g2 : rng.
Variables d1 d2 : nat.
Variable eps : R.
Hypothesis RG1 : rng_ok g1.
Hypothesis SA : same_answers g1 d1 g2 d2.
Notation W := (WG eps anyg).
Notation kin := (kin d1 d2 eps).
Notation gatety := (unitary * list nat)%type.

(** ** New sequences *)
Definition gate_valid (d : nat) (gt : gatety) : bool :=
  Nat.leb (u_dim (fst gt)) d && Nat.leb (2 ^ (list_maxn (snd gt) + 1)) d.
Lemma valid_gates d h ls : forallb (fun l => entry_valid d (obj h l)) ls = forallb (gate_valid d) (gates h ls).
Proof. induction ls as [|l t IH]; [reflexivity|]. cbn [forallb gates map]. now rewrite IH. Qed.
Lemma has_gates_gates w ls gs : Forall2 (has_gate w) ls gs -> in_heap (w_heap w) ls /\ gates (w_heap w) ls = gs.
Proof.
  induction 1 as [|l gt ls gs [H1 H2] _ [IH1 IH2]]; [split; [intros l []|reflexivity]|].
  split; [intros x [<-|Hx]; auto|]. cbn [gates map]. rewrite H2. f_equal. exact IH2.
Qed.
Lemma gates_has_gates w ls : in_heap (w_heap w) ls -> Forall2 (has_gate w) ls (gates (w_heap w) ls).
Proof.
  induction ls as [|l t IH]; intros H; constructor; [split; [apply H; now left|reflexivity]|].
  apply IH. intros x Hx. apply H. now right.
Qed.

(** A sequence put behind the others. *)
Lemma added_view (w w' : world) q : W w -> heap_ext (w_heap w) (w_heap w') -> w_seqs w' = w_seqs w ++ [q] ->
  forall t v, plain_view w t = Some v -> plain_view w' t = Some v.
Proof.
  intros HW X E t v V. assert (L := view_lt _ _ _ V). apply plain_view_iff in V. destruct V as (sq & E1 & B & ->). apply plain_view_iff.
  exists sq. rewrite E, nth_error_app1 by exact L. split; [exact E1|]. split; [exact B|]. symmetry.
  apply rview_ext; [exact X|]. destruct HW as [_ R]. now apply (R t).
Qed.
Lemma added_new (w' : world) l q : w_seqs w' = l ++ [q] -> s_array q = false ->
  plain_view w' (List.length l) = Some (rview (w_heap w') q).
Proof.
  intros E A. apply plain_view_iff. exists q. rewrite E, nth_error_app2, Nat.sub_diag by lia. auto.
Qed.

Lemma new_kin L d ls1 ls2 st1 st2 : kin L st1 st2 -> all_gates (r_world st1) (r_world st2) ls1 ls2 ->
  two (fun a t1 b t2 => kin ((a, b) :: L) t1 t2)
    (call_sequence eps (NewSequence d false ls1) st1) (call_sequence eps (NewSequence d false ls2) st2).
Proof.
  intros HK (gs & F1 & F2). assert (FR := kin_fresh _ _ _ _ _ _ HK). destruct HK as (HA & W1 & W2 & HP & HV).
  destruct (has_gates_gates _ _ _ F1) as [I1 E1]. destruct (has_gates_gates _ _ _ F2) as [I2 E2].
  assert (Y1 := W_step eps (NewSequence d false ls1) _ W1). assert (Y2 := W_step eps (NewSequence d false ls2) _ W2).
  assert (B : forall w ls, in_heap (w_heap w) ls -> forallb (fun l => Nat.ltb l (List.length (w_heap w))) ls = true).
  { intros w ls H. apply forallb_forall. intros x Hx. apply Nat.ltb_lt. auto. }
  destruct (new_sequence_spec eps anyg d false ls1 (w_heap (r_world st1)) (proj1 W1) I1) as (h1 & r1 & N1 & X1 & _ & C1).
  destruct (new_sequence_spec eps anyg d false ls2 (w_heap (r_world st2)) (proj1 W2) I2) as (h2 & r2 & N2 & X2 & _ & C2).
  rewrite valid_gates in C1, C2. rewrite E1 in C1. rewrite E2 in C2.
  unfold two, call_sequence, call, se_bind.
  cbn [step] in *. unfold se_bind, se_get in *. cbn [fst snd] in *. rewrite (B _ _ I1), (B _ _ I2) in *. unfold on_heap in *. rewrite N1, N2 in *.
  destruct C1 as [(V1 & m1 & -> & _ & G1 & _)|(V1 & -> & ->)], C2 as [(V2 & m2 & -> & _ & G2 & _)|(V2 & -> & ->)];
    try congruence; try reflexivity.
  unfold add_seq in *. cbn [fst snd w_seqs w_heap se_ret] in *.
  split; [exact HA|]. cbn [r_world]. split; [exact Y1|]. split; [exact Y2|]. split; [now apply apart_cons|].
  intros p [<-|Hp]; cbn [fst snd].
  - eexists. split; [apply added_new; reflexivity|]. etransitivity; [apply added_new; reflexivity|].
    unfold rview. cbn [w_heap s_dim s_entries s_product s_prev_entries s_prev_product option_map]. now rewrite G1, G2.
  - destruct (HV p Hp) as (v & V1' & V2'). exists v.
    split; [eapply added_view; [exact W1|exact X1|reflexivity|exact V1']|eapply added_view; [exact W2|exact X2|reflexivity|exact V2']].
Qed.

(** ** Computations that make entries, beside the kin *)
Lemma born_kin {A} (Rel : world -> world -> A -> A -> Prop) (m1 m2 : RM A) L st1 st2 : born d1 d2 eps Rel m1 m2 -> kin L st1 st2 ->
  two (fun a t1 b t2 => Rel (r_world t1) (r_world t2) a b /\ kin L t1 t2) (m1 st1) (m2 st2).
Proof.
  intros H HK. eapply two_mono; [exact (H st1 st2 (proj1 HK) (proj1 (proj2 HK)) (proj1 (proj2 (proj2 HK))))|].
  cbn. intros a t1 b t2 (HR & G1 & G2 & W1 & W2 & HA). split; [exact HR|]. eapply kin_grow; eauto.
Qed.
Lemma born_new (m1 m2 : RM (list nat)) d L st1 st2 : born d1 d2 eps all_gates m1 m2 -> kin L st1 st2 ->
  two (fun a t1 b t2 => kin ((a, b) :: L) t1 t2)
    ((ls <-- m1 ;; call_sequence eps (NewSequence d false ls)) st1) ((ls <-- m2 ;; call_sequence eps (NewSequence d false ls)) st2).
Proof.
  intros H HK. eapply two_bind; [exact (born_kin _ _ _ L st1 st2 H HK)|]. intros ls1 t1 ls2 t2 [HG HK']. now apply new_kin.
Qed.
Lemma born_raise {A} (Rel : world -> world -> A -> A -> Prop) e : born d1 d2 eps Rel (se_raise e) (se_raise e).
Proof. intros st1 st2 _ _ _. reflexivity. Qed.
Lemma born_cons (m1 m2 : RM nat) (k1 k2 : RM (list nat)) : born d1 d2 eps one_gate m1 m2 -> born d1 d2 eps all_gates k1 k2 ->
  born d1 d2 eps all_gates (l <-- m1 ;; ls <-- k1 ;; se_ret (l :: ls)) (l <-- m2 ;; ls <-- k2 ;; se_ret (l :: ls)).
Proof.
  intros H K st1 st2 HA HW1 HW2. eapply two_bind; [exact (H st1 st2 HA HW1 HW2)|].
  intros l1 s1 l2 s2 (HR & G1 & G2 & W1 & W2 & HA1). eapply two_bind; [exact (K s1 s2 HA1 W1 W2)|].
  intros ls1 t1 ls2 t2 (HR' & G3 & G4 & W3 & W4 & HA2). cbn.
  split; [|split; [eapply grows_trans; eauto|split; [eapply grows_trans; eauto|auto]]].
  apply (one_gate_grows _ _ _ _ _ _ G3 G4) in HR. destruct HR as (gt & X1 & X2), HR' as (gs & Y1 & Y2).
  exists (gt :: gs). split; constructor; auto.
Qed.
Lemma born_app (m1 m2 k1 k2 : RM (list nat)) : born d1 d2 eps all_gates m1 m2 -> born d1 d2 eps all_gates k1 k2 ->
  born d1 d2 eps all_gates (l <-- m1 ;; ls <-- k1 ;; se_ret (l ++ ls)) (l <-- m2 ;; ls <-- k2 ;; se_ret (l ++ ls)).
Proof.
  intros H K st1 st2 HA HW1 HW2. eapply two_bind; [exact (H st1 st2 HA HW1 HW2)|].
  intros l1 s1 l2 s2 (HR & G1 & G2 & W1 & W2 & HA1). eapply two_bind; [exact (K s1 s2 HA1 W1 W2)|].
  intros ls1 t1 ls2 t2 (HR' & G3 & G4 & W3 & W4 & HA2). cbn.
  split; [|split; [eapply grows_trans; eauto|split; [eapply grows_trans; eauto|auto]]].
  apply (all_gates_grows _ _ _ _ _ _ G3 G4) in HR. destruct HR as (gt & X1 & X2), HR' as (gs & Y1 & Y2).
  exists (gt ++ gs). split; apply Forall2_app; auto.
Qed.
Lemma tied_shuffle {A} (x : A) l : tied d1 d2 (shuffle g1 x l) (shuffle g2 x l).
Proof.
  intros st1 st2 H. unfold two, shuffle. cbn [fst snd r_world]. assert (X := ask_next _ _ _ _ H).
  destruct H as (k & E1 & E2). rewrite E1, E2 in *. destruct (SA k) as (_ & _ & ->). auto.
Qed.
Lemma tied_per_step time n : tied d1 d2 (per_step time n) (per_step time n).
Proof. unfold per_step. destruct (Z.eqb n 0); [apply tied_raise|apply tied_ret]. Qed.
Lemma tied_kin {A} (m1 m2 : RM A) L st1 st2 : tied d1 d2 m1 m2 -> kin L st1 st2 ->
  two (fun a t1 b t2 => a = b /\ kin L t1 t2) (m1 st1) (m2 st2).
Proof.
  intros H HK. eapply two_mono; [exact (H st1 st2 (proj1 HK))|]. cbn. intros a t1 b t2 (-> & E1 & E2 & HA).
  split; [reflexivity|]. destruct HK as (_ & X). unfold PRepro.kin. now rewrite E1, E2.
Qed.

(** ** The sequences of a Hamiltonian *)
Definition makes (m1 m2 : RM nat) : Prop := forall L st1 st2, kin L st1 st2 ->
  two (fun a t1 b t2 => kin ((a, b) :: L) t1 t2) (m1 st1) (m2 st2).
Definition makes_costs (m1 m2 : RM (nat * list R)) : Prop := forall L st1 st2, kin L st1 st2 ->
  two (fun a t1 b t2 => snd a = snd b /\ kin ((fst a, fst b) :: L) t1 t2) (m1 st1) (m2 st2).
Lemma makes_after {A} (m1 m2 : RM A) f1 f2 : tied d1 d2 m1 m2 -> (forall a, makes (f1 a) (f2 a)) -> makes (se_bind m1 f1) (se_bind m2 f2).
Proof.
  intros H K L st1 st2 HK. eapply two_bind; [exact (tied_kin _ _ L st1 st2 H HK)|]. intros a t1 b t2 [<- HK']. now apply K.
Qed.
Lemma makes_costs_after {A} (m1 m2 : RM A) f1 f2 : tied d1 d2 m1 m2 -> (forall a, makes_costs (f1 a) (f2 a)) ->
  makes_costs (se_bind m1 f1) (se_bind m2 f2).
Proof.
  intros H K L st1 st2 HK. eapply two_bind; [exact (tied_kin _ _ L st1 st2 H HK)|]. intros a t1 b t2 [<- HK']. now apply K.
Qed.

Lemma born_ideal u qs n : born d1 d2 eps all_gates (ideal_entries eps u qs n) (ideal_entries eps u qs n).
Proof. induction n as [|n IH]; cbn [ideal_entries]; [apply born_ret_nil|]. apply born_cons; [apply born_entry|exact IH]. Qed.
Lemma ideal_makes h time n : makes (ideal_sequence eps h time n) (ideal_sequence eps h time n).
Proof.
  unfold ideal_sequence. apply makes_after; [apply tied_per_step|]. intros dt. apply makes_after; [apply tied_lift|]. intros u.
  intros L st1 st2 HK. apply born_new; [apply born_ideal|exact HK].
Qed.

Lemma born_terms h dt is : born d1 d2 eps all_gates (term_entries eps h dt is) (term_entries eps h dt is).
Proof.
  induction is as [|i t IH]; cbn [term_entries]; [apply born_ret_nil|].
  destruct (nth_error (h_terms h) i) as [x|]; [|apply born_raise].
  apply born_after; [apply tied_lift|]. intros u. apply born_cons; [apply born_entry|exact IH].
Qed.
Lemma born_trotter h dt rnd n : forall is, born d1 d2 eps all_gates (trotter_entries eps g1 h dt rnd is n) (trotter_entries eps g2 h dt rnd is n).
Proof.
  induction n as [|n IH]; intros is; cbn [trotter_entries]; [apply born_ret_nil|].
  apply born_after; [destruct rnd; [apply tied_shuffle|apply tied_ret]|]. intros is'. apply born_app; [apply born_terms|apply IH].
Qed.
Lemma trotter_makes h time n rnd : makes (trotter_sequence eps g1 h time n rnd) (trotter_sequence eps g2 h time n rnd).
Proof.
  unfold trotter_sequence. apply makes_after; [apply tied_per_step|]. intros dt L st1 st2 HK. apply born_new; [apply born_trotter|exact HK].
Qed.

Lemma born_qdrift h p dt n : born d1 d2 eps all_gates (qdrift_entries eps g1 h p dt n) (qdrift_entries eps g2 h p dt n).
Proof.
  induction n as [|n IH]; cbn [qdrift_entries]; [apply born_ret_nil|].
  apply born_after; [now apply tied_choice_p|]. intros i.
  destruct (nth_error (h_terms h) i) as [x|]; [|apply born_raise].
  apply born_after; [apply tied_lift|]. intros u. apply born_cons; [apply born_entry|exact IH].
Qed.
Lemma qdrift_makes h time n : makes (qdrift_sequence eps g1 h time n) (qdrift_sequence eps g2 h time n).
Proof. unfold qdrift_sequence. intros L st1 st2 HK. apply born_new; [apply born_qdrift|exact HK]. Qed.

(** ** Compilations with a compiler of their own *)
Lemma with_compiler_makes rc (m1 m2 : CM (nat * list R)) : runs_alike d1 d2 eps m1 m2 ->
  makes_costs (with_compiler rc m1) (with_compiler rc m2).
Proof.
  intros H. unfold with_compiler. apply makes_costs_after; [apply tied_lift|]. intros c L st1 st2 HK.
  specialize (H L st1 st2 c HK). unfold two in *.
  destruct (m1 (st1, c)) as [[t1 k1] [a|e]], (m2 (st2, c)) as [[t2 k2] [b|f]]; cbn [fst snd] in *; tauto.
Qed.
Lemma stoq_for_makes h target mt thr sim : makes_costs (compile_stoq_for eps g1 h target mt thr sim) (compile_stoq_for eps g2 h target mt thr sim).
Proof.
  unfold compile_stoq_for. apply makes_costs_after; [apply tied_lift|]. intros ps. apply with_compiler_makes. now apply compile_alike.
Qed.
Lemma stoq_makes h time mt thr sim : makes_costs (compile_stoq_sequence eps g1 h time mt thr sim) (compile_stoq_sequence eps g2 h time mt thr sim).
Proof. unfold compile_stoq_sequence. apply makes_costs_after; [apply tied_lift|]. intros u. apply stoq_for_makes. Qed.

(** ** combine *)
Definition on_world {A} (m : SE world A) : RM A :=
  fun st => let '(w', r) := m (r_world st) in ({| r_world := w'; r_draws := r_draws st |}, r).
Lemma on_world_bind {A B} (m : SE world A) (f : A -> SE world B) st :
  on_world (se_bind m f) st = se_bind (on_world m) (fun a => on_world (f a)) st.
Proof. unfold on_world, se_bind. destruct (m (r_world st)) as [w [a|e]]; cbn [r_world r_draws]; [|reflexivity]. destruct (f a w); reflexivity. Qed.

(** A pair of the list, and the rest. *)
Definition rest (s : nat) (L : list (nat * nat)) : list (nat * nat) := filter (fun p => negb (Nat.eqb (fst p) s)) L.
Lemma kin_set L L' st1 st2 : (forall p, In p L' -> In p L) -> kin L st1 st2 -> kin L' st1 st2.
Proof.
  intros H (HA & W1 & W2 & HP & HV). split; [exact HA|]. split; [exact W1|]. split; [exact W2|].
  split; [intros p p' Hp Hp'; apply HP; auto|intros p Hp; apply HV; auto].
Qed.
Lemma call_kin L s1 s2 o1 o2 m st1 st2 : In (s1, s2) L -> kin L st1 st2 ->
  same_call (r_world st1) s1 o1 m -> same_call (r_world st2) s2 o2 m ->
  two (fun v t1 v' t2 => v = v' /\ kin L t1 t2 /\ heap_ext (w_heap (r_world st1)) (w_heap (r_world t1)) /\
    heap_ext (w_heap (r_world st2)) (w_heap (r_world t2))) (call eps o1 st1) (call eps o2 st2).
Proof.
  intros IN HK C1 C2.
  assert (OTH : forall p, In p (rest s1 L) -> fst p <> s1 /\ snd p <> s2).
  { intros p Hp. apply filter_In in Hp. destruct Hp as [Hp N]. destruct (Nat.eqb_spec (fst p) s1) as [|N1]; [discriminate|].
    split; [exact N1|]. intros E. apply N1. destruct HK as (_ & _ & _ & HP & _). now apply (HP p (s1, s2) Hp IN). }
  assert (S1 : forall p, In p ((s1, s2) :: rest s1 L) -> In p L).
  { intros p [<-|Hp]; [exact IN|]. apply filter_In in Hp. tauto. }
  assert (S2 : forall p, In p L -> In p ((s1, s2) :: rest s1 L)).
  { intros p Hp. destruct (Nat.eq_dec (fst p) s1) as [E|N].
    - left. destruct HK as (_ & _ & _ & HP & _). assert (X := proj1 (HP p (s1, s2) Hp IN) E). destruct p. cbn in *. congruence.
    - right. apply filter_In. split; [exact Hp|]. destruct (Nat.eqb_spec (fst p) s1); [contradiction|reflexivity]. }
  eapply two_mono; [exact (twins_call d1 d2 eps s1 s2 (rest s1 L) OTH o1 o2 m st1 st2 (kin_set _ _ _ _ S1 HK) C1 C2)|].
  cbn. intros v t1 v' t2 (E & HT & X). split; [exact E|]. split; [exact (kin_set _ _ _ _ S2 HT)|exact X].
Qed.

Lemma product_kin L s1 s2 st1 st2 : In (s1, s2) L -> kin L st1 st2 ->
  two (fun v t1 v' t2 => v = v' /\ kin L t1 t2 /\ heap_ext (w_heap (r_world st1)) (w_heap (r_world t1)) /\
    heap_ext (w_heap (r_world st2)) (w_heap (r_world t2))) (on_world (on_seq s1 (product eps)) st1) (on_world (on_seq s2 (product eps)) st2).
Proof.
  intros IN HK. assert (X := call_kin L s1 s2 _ _ RProduct st1 st2 IN HK (same_product _ _) (same_product _ _)).
  unfold two, call, on_world in *. cbn [step] in X. unfold se_bind in X.
  destruct (on_seq s1 (product eps) (r_world st1)) as [w1 [p1|e1]], (on_seq s2 (product eps) (r_world st2)) as [w2 [p2|e2]];
    cbn [fst snd se_ret] in *; auto. destruct X as (E & X). injection E as ->. auto.
Qed.

Lemma copy_world s w q : W w -> plain_view w s = Some q ->
  exists w' ls, on_seq s (q <-- m_self ;; m_heap (h_deepcopy (s_entries q))) w = (w', Ok ls) /\ W w' /\
    heap_ext (w_heap w) (w_heap w') /\ (forall t, nth_error (w_seqs w') t = nth_error (w_seqs w) t) /\
    Forall2 (has_gate w') ls (rs_entries q).
Proof.
  intros HW V. apply plain_view_iff in V. destruct V as (sq & E & A & ->).
  assert (Y := W_step eps (GetEntries s) _ HW). cbn [step] in Y. unfold se_bind at 1 in Y.
  destruct (deepcopy (w_heap w) (s_entries sq)) as [h' ls] eqn:D.
  destruct (deepcopy_frame eps anyg _ _ h' ls (proj1 (proj2 HW s sq E)) D) as (E1 & _ & E3 & E4 & _).
  assert (R : on_seq s (q <-- m_self ;; m_heap (h_deepcopy (s_entries q))) w =
    ({| w_heap := h'; w_seqs := list_set (w_seqs w) s sq |}, Ok ls)).
  { unfold on_seq. rewrite E. unfold se_bind, m_self, m_heap, h_deepcopy. cbn [fst snd]. now rewrite D. }
  rewrite R in Y. cbn [fst se_ret] in Y. eexists _, ls. split; [exact R|]. split; [exact Y|]. split; [exact E1|]. split.
  - intros t. cbn [w_seqs]. rewrite (nth_error_list_set _ _ _ _ _ E). destruct (Nat.eqb_spec s t); [congruence|reflexivity].
  - cbn [rview rs_entries]. rewrite <- E4. now apply (gates_has_gates {| w_heap := h'; w_seqs := list_set (w_seqs w) s sq |}).
Qed.
Lemma same_seqs_view w w' t q : W w -> heap_ext (w_heap w) (w_heap w') -> (forall t, nth_error (w_seqs w') t = nth_error (w_seqs w) t) ->
  plain_view w t = Some q -> plain_view w' t = Some q.
Proof.
  intros HW X S V. apply plain_view_iff in V. destruct V as (sq & E & B & ->). apply plain_view_iff.
  exists sq. rewrite S. split; [exact E|]. split; [exact B|]. symmetry. apply rview_ext; [exact X|]. destruct HW as [_ R]. now apply (R t).
Qed.

Lemma loop_kin L : forall P ls1 ls2 p st1 st2, (forall x, In x P -> In x L) -> kin L st1 st2 ->
  all_gates (r_world st1) (r_world st2) ls1 ls2 ->
  two (fun a t1 b t2 => snd a = snd b /\ all_gates (r_world t1) (r_world t2) (fst a) (fst b) /\ kin L t1 t2)
    (on_world (combine_loop eps (map fst P) ls1 p) st1) (on_world (combine_loop eps (map snd P) ls2 p) st2).
Proof.
  induction P as [|[s1 s2] P IH]; intros ls1 ls2 p st1 st2 HP HK (gs & F1 & F2); cbn [map combine_loop fst snd].
  - unfold two, on_world. cbn. split; [reflexivity|]. split; [now exists gs|exact HK].
  - rewrite !on_world_bind.
    eapply two_bind with (Q := fun a t1 b t2 => kin L t1 t2 /\ all_gates (r_world t1) (r_world t2) (ls1 ++ a) (ls2 ++ b)).
    { destruct HK as (HA & W1 & W2 & AP & HV). destruct (HV (s1, s2) (HP _ (or_introl eq_refl))) as (q & V1 & V2). cbn [fst snd] in V1, V2.
      destruct (copy_world s1 _ q W1 V1) as (w1 & m1 & E1 & Y1 & X1 & S1 & G1).
      destruct (copy_world s2 _ q W2 V2) as (w2 & m2 & E2 & Y2 & X2 & S2 & G2).
      unfold two, on_world. rewrite E1, E2. cbn [fst snd r_world]. split.
      - split; [exact HA|]. cbn [r_world]. split; [exact Y1|]. split; [exact Y2|]. split; [exact AP|].
        intros x Hx. destruct (HV x Hx) as (v & U1 & U2). exists v.
        split; [exact (same_seqs_view _ _ _ _ W1 X1 S1 U1)|exact (same_seqs_view _ _ _ _ W2 X2 S2 U2)].
      - exists (gs ++ rs_entries q). split; apply Forall2_app; auto; eapply has_gates_ext; eauto. }
    intros a t1 b t2 [HK1 HG1]. rewrite !on_world_bind.
    eapply two_bind; [exact (product_kin L s1 s2 t1 t2 (HP _ (or_introl eq_refl)) HK1)|].
    intros v u1 v' u2 (<- & HK2 & X1 & X2). rewrite !on_world_bind.
    eapply two_bind with (Q := fun a r1 b r2 => a = b /\ r1 = u1 /\ r2 = u2).
    { unfold two, on_world, se_lift. destruct u1 as [uw1 ud1], u2 as [uw2 ud2]. cbn [fst snd r_world r_draws]. destruct (u_left_multiply eps p v); auto. }
    intros p' ? p'' ? (<- & -> & ->). apply IH; [intros x Hx; apply HP; now right|exact HK2|].
    destruct HG1 as (gs' & H1 & H2). exists gs'. split; eapply has_gates_ext; eauto.
Qed.

Lemma new_world d ls1 ls2 L st1 st2 : kin L st1 st2 -> all_gates (r_world st1) (r_world st2) ls1 ls2 ->
  two (fun q1 t1 q2 t2 => kin L t1 t2 /\ seq_rng (w_heap (r_world t1)) q1 /\ seq_rng (w_heap (r_world t2)) q2 /\
     s_array q1 = false /\ s_array q2 = false /\
     rview (w_heap (r_world t1)) q1 = rview (w_heap (r_world t2)) q2)
    (on_world (on_heap (new_sequence d false ls1)) st1) (on_world (on_heap (new_sequence d false ls2)) st2).
Proof.
  intros HK (gs & F1 & F2). destruct (has_gates_gates _ _ _ F1) as [I1 E1]. destruct (has_gates_gates _ _ _ F2) as [I2 E2].
  assert (HK' := HK). destruct HK as (HA & W1 & W2 & HP & HV).
  destruct (new_sequence_spec eps anyg d false ls1 (w_heap (r_world st1)) (proj1 W1) I1) as (h1 & r1 & N1 & X1 & O1 & C1).
  destruct (new_sequence_spec eps anyg d false ls2 (w_heap (r_world st2)) (proj1 W2) I2) as (h2 & r2 & N2 & X2 & O2 & C2).
  rewrite valid_gates in C1, C2. rewrite E1 in C1. rewrite E2 in C2.
  unfold two, on_world, on_heap. rewrite N1, N2. cbn [fst snd].
  destruct C1 as [(V1 & m1 & -> & R1 & G1 & _)|(V1 & -> & ->)], C2 as [(V2 & m2 & -> & R2 & G2 & _)|(V2 & -> & ->)];
    try congruence; try reflexivity.
  cbn [r_world w_heap s_array]. split.
  - apply (kin_grow d1 d2 eps L st1 st2); auto; cbn [r_world]; try (split; [reflexivity|assumption]).
    + split; [exact O1|]. cbn. intros t q E. apply (seq_rng_ext _ _ _ X1). now apply (proj2 W1 t).
    + split; [exact O2|]. cbn. intros t q E. apply (seq_rng_ext _ _ _ X2). now apply (proj2 W2 t).
  - split; [split; [exact R1|discriminate]|]. split; [split; [exact R2|discriminate]|]. split; [reflexivity|]. split; [reflexivity|].
    unfold rview. cbn [w_heap s_dim s_entries s_product s_prev_entries s_prev_product option_map]. now rewrite G1, G2.
Qed.

Lemma combine_kin L P st1 st2 : (forall x, In x P -> In x L) -> kin L st1 st2 ->
  two (fun a t1 b t2 => kin ((a, b) :: L) t1 t2)
    (call_sequence eps (Combine (map fst P)) st1) (call_sequence eps (Combine (map snd P)) st2).
Proof.
  intros HP HK.
  assert (X : two (fun q1 t1 q2 t2 => kin L t1 t2 /\ seq_rng (w_heap (r_world t1)) q1 /\ seq_rng (w_heap (r_world t2)) q2 /\
       s_array q1 = false /\ s_array q2 = false /\
       rview (w_heap (r_world t1)) q1 = rview (w_heap (r_world t2)) q2)
    (on_world (combine eps (map fst P)) st1) (on_world (combine eps (map snd P)) st2)).
  { destruct P as [|[s1 s2] P]; [reflexivity|].
    assert (HK' := HK). destruct HK' as (HA & W1 & W2 & AP & HV).
    assert (DIM : forall p, In p L -> exists q1 q2, nth_error (w_seqs (r_world st1)) (fst p) = Some q1 /\
      nth_error (w_seqs (r_world st2)) (snd p) = Some q2 /\ s_dim q1 = s_dim q2).
    { intros p Hp. destruct (HV p Hp) as (q & V1 & V2). apply plain_view_iff in V1, V2.
      destruct V1 as (q1 & E1 & _ & ->), V2 as (q2 & E2 & _ & E). exists q1, q2. split; [exact E1|]. split; [exact E2|].
      injection E as E _. exact E. }
    destruct (DIM _ (HP _ (or_introl eq_refl))) as (q1 & q2 & E1 & E2 & ED). cbn [fst snd] in E1, E2.
    assert (FB : forallb (fun s => match nth_error (w_seqs (r_world st1)) s with Some q => Nat.eqb (s_dim q) (s_dim q1) | None => false end) (map fst ((s1, s2) :: P)) =
      forallb (fun s => match nth_error (w_seqs (r_world st2)) s with Some q => Nat.eqb (s_dim q) (s_dim q2) | None => false end) (map snd ((s1, s2) :: P))).
    { revert HP. generalize ((s1, s2) :: P) as Q. induction Q as [|x Q IH]; intros HQ; [reflexivity|]. cbn [map forallb].
      rewrite (IH (fun y Hy => HQ y (or_intror Hy))). f_equal.
      destruct (DIM _ (HQ _ (or_introl eq_refl))) as (x1 & x2 & F1 & F2 & FD). now rewrite F1, F2, FD, ED. }
    unfold combine.
    rewrite !on_world_bind. eapply two_bind with (Q := fun a t1 b t2 => a = r_world st1 /\ b = r_world st2 /\ t1 = st1 /\ t2 = st2).
    { unfold two, on_world, se_get. destruct st1 as [sw1 sd1], st2 as [sw2 sd2]. cbn. auto. }
    intros ? ? ? ? (-> & -> & -> & ->). cbn [map fst snd]. rewrite E1, E2. cbn [map fst snd] in FB. rewrite !on_world_bind.
    eapply two_bind with (Q := fun (_ : unit) t1 (_ : unit) t2 => t1 = st1 /\ t2 = st2).
    { rewrite FB. unfold two, on_world, se_assert, se_lift. destruct st1 as [sw1 sd1], st2 as [sw2 sd2]. cbn [fst snd r_world r_draws].
      match goal with |- context [assert ?b] => destruct b end; cbn; auto. }
    intros _ ? _ ? (-> & ->). rewrite !on_world_bind.
    eapply two_bind with (Q := fun a t1 b t2 => a = b /\ t1 = st1 /\ t2 = st2).
    { rewrite ED. unfold two, on_world, se_lift. destruct st1 as [sw1 sd1], st2 as [sw2 sd2]. cbn [fst snd r_world r_draws]. destruct (u_identity eps (s_dim q2)); auto. }
    intros p0 ? ? ? (<- & -> & ->). rewrite !on_world_bind.
    eapply two_bind.
    { apply (loop_kin L ((s1, s2) :: P) [] [] p0 st1 st2 HP HK). exists []. split; constructor. }
    intros [a pa] t1 [b pb] t2 (Epp & HG & HK1). cbn [fst snd] in *. subst pb. rewrite !on_world_bind. rewrite ED.
    eapply two_bind; [exact (new_world (s_dim q2) a b L t1 t2 HK1 HG)|].
    intros c1 u1 c2 u2 (HK2 & R1 & R2 & A1 & A2 & ER). unfold two, on_world, se_ret. cbn [fst snd r_world].
    destruct u1 as [uw1 ud1], u2 as [uw2 ud2]. cbn [r_world r_draws] in *.
    split; [exact HK2|]. split; [exact R1|]. split; [exact R2|]. split; [exact A1|]. split; [exact A2|].
    unfold rview, set_product in *. cbn [s_dim s_entries s_product s_prev_entries s_prev_product] in *.
    injection ER as -> -> _ -> ->. reflexivity. }
  unfold call_sequence. eapply two_bind with (Q := fun v t1 v' t2 => exists a b, v = VSequence a /\ v' = VSequence b /\ kin ((a, b) :: L) t1 t2).
  2:{ intros v t1 v' t2 (a & b & -> & -> & H). exact H. }
  change (call eps (Combine (map fst P)) st1) with (on_world (q <-- combine eps (map fst P) ;; add_seq q) st1).
  change (call eps (Combine (map snd P)) st2) with (on_world (q <-- combine eps (map snd P) ;; add_seq q) st2).
  rewrite !on_world_bind. eapply two_bind; [exact X|]. clear X HK.
  intros q1 t1 q2 t2 (HK & R1 & R2 & A1 & A2 & ER). assert (FR := kin_fresh _ _ _ _ _ _ HK). destruct HK as (HA & W1 & W2 & AP & HV).
  unfold two, on_world, add_seq. cbn [fst snd]. eexists _, _. split; [reflexivity|]. split; [reflexivity|].
  assert (WA : forall w q, W w -> seq_rng (w_heap w) q -> W {| w_heap := w_heap w; w_seqs := w_seqs w ++ [q] |}).
  { intros w q [H1 H2] HR. split; [exact H1|]. cbn. intros t x E. destruct (Nat.lt_ge_cases t (List.length (w_seqs w))) as [Lt|Ge].
    - rewrite nth_error_app1 in E by exact Lt. now apply (H2 t).
    - rewrite nth_error_app2 in E by exact Ge. destruct (t - List.length (w_seqs w))%nat as [|k]; cbn in E; [now injection E as <-|].
      destruct k; discriminate. }
  split; [exact HA|]. cbn [r_world]. split; [now apply WA|]. split; [now apply WA|]. split; [now apply apart_cons|].
  intros p [<-|Hp]; cbn [fst snd].
  - eexists. split; [apply added_new; [reflexivity|exact A1]|]. etransitivity; [apply added_new; [reflexivity|exact A2]|]. cbn [w_heap]. now rewrite ER.
  - destruct (HV p Hp) as (v & V1 & V2). exists v.
    split; [eapply added_view; [exact W1|apply heap_ext_refl|reflexivity|exact V1]|eapply added_view; [exact W2|apply heap_ext_refl|reflexivity|exact V2]].
Qed.

(** ** The inversion step and the random sequences *)
Lemma inverse_kin L s1 s2 run1 run2 st1 st2 : In (s1, s2) L -> (forall u, makes_costs (run1 u) (run2 u)) -> kin L st1 st2 ->
  two (fun a t1 b t2 => snd a = snd b /\ kin [(fst a, fst b)] t1 t2)
    (compile_inverse eps s1 run1 st1) (compile_inverse eps s2 run2 st2).
Proof.
  intros IN HR HK. unfold compile_inverse.
  eapply two_bind with (Q := fun a t1 b t2 => a = b /\ kin L t1 t2).
  { unfold call_unitary. eapply two_bind; [exact (call_kin L s1 s2 _ _ RProduct st1 st2 IN HK (same_product _ _) (same_product _ _))|].
    intros v t1 v' t2 (<- & HT & _). destruct v; cbn; auto. }
  intros p t1 ? t2 (<- & HK1). eapply two_bind; [exact (tied_kin _ _ L t1 t2 (tied_lift d1 d2 (u_inverse eps p)) HK1)|].
  intros u u1 ? u2 (<- & HK2). eapply two_bind; [exact (HR u L u1 u2 HK2)|].
  intros [a ca] v1 [b cb] v2 (Ec & HK3). cbn [fst snd] in *. subst cb.
  eapply two_bind; [apply (combine_kin ((a, b) :: L) [(s1, s2); (a, b)] v1 v2)|].
  - intros x [<-|[<-|[]]]; [right; exact IN|left; reflexivity].
  - exact HK3.
  - intros t w1 t' w2 HK4. cbn. split; [reflexivity|]. eapply kin_set; [|exact HK4]. intros x [<-|[]]. now left.
Qed.

Lemma empty_makes d : makes (call_sequence eps (NewSequence d false [])) (call_sequence eps (NewSequence d false [])).
Proof. intros L st1 st2 HK. apply new_kin; [exact HK|]. exists []. split; constructor. Qed.

Lemma random_kin d ps probs n : forall L s1 s2 st1 st2, In (s1, s2) L -> kin L st1 st2 ->
  two (fun a t1 b t2 => a = b /\ kin L t1 t2) (append_random g1 eps d ps probs s1 n st1) (append_random g2 eps d ps probs s2 n st2).
Proof.
  induction n as [|n IH]; intros L s1 s2 st1 st2 IN HK; cbn [append_random]; [cbn; auto|].
  eapply two_bind; [exact (born_kin _ _ _ L st1 st2 (born_create g1 g2 d1 d2 eps SA d ps probs) HK)|].
  intros l1 t1 l2 t2 ((gt & H1 & H2) & HK1).
  eapply two_bind; [exact (call_kin L s1 s2 _ _ (RLast gt true) t1 t2 IN HK1 (has_gate_call_last _ _ _ _ _ H1) (has_gate_call_last _ _ _ _ _ H2))|].
  intros v u1 v' u2 (_ & HK2 & _). now apply IH.
Qed.
Lemma entries_kin : forall ls1 ls2 L s1 s2 st1 st2, In (s1, s2) L -> kin L st1 st2 -> all_gates (r_world st1) (r_world st2) ls1 ls2 ->
  two (fun a t1 b t2 => a = b /\ kin L t1 t2) (append_entries eps s1 ls1 st1) (append_entries eps s2 ls2 st2).
Proof.
  induction ls1 as [|l1 ls1 IH]; intros ls2 L s1 s2 st1 st2 IN HK (gs & F1 & F2).
  - inversion F1; subst. inversion F2; subst. cbn. auto.
  - inversion F1 as [|? gt ? gs' H1 F1']; subst. inversion F2 as [|l2 ? ls2' ? H2 F2']; subst. cbn [append_entries].
    eapply two_bind; [exact (call_kin L s1 s2 _ _ (RLast gt true) st1 st2 IN HK (has_gate_call_last _ _ _ _ _ H1) (has_gate_call_last _ _ _ _ _ H2))|].
    intros v u1 v' u2 (_ & HK2 & X1 & X2). apply IH; auto. exists gs'. split; eapply has_gates_ext; eauto.
Qed.
Lemma layers_kin d counts n : forall L s1 s2 st1 st2, In (s1, s2) L -> kin L st1 st2 ->
  two (fun a t1 b t2 => a = b /\ kin L t1 t2) (append_random_layers g1 eps d counts s1 n st1) (append_random_layers g2 eps d counts s2 n st2).
Proof.
  induction n as [|n IH]; intros L s1 s2 st1 st2 IN HK; cbn [append_random_layers]; [cbn; auto|].
  eapply two_bind; [exact (born_kin _ _ _ L st1 st2 (born_layer g1 g2 d1 d2 eps RG1 SA d counts) HK)|].
  intros l1 t1 l2 t2 (HG & HK1). eapply two_bind; [exact (entries_kin l1 l2 L s1 s2 t1 t2 IN HK1 HG)|].
  intros v u1 v' u2 (_ & HK2). now apply IH.
Qed.
Lemma rav_loop_kin fuel ps qs mt time : forall L s1 s2 tt0 st1 st2, In (s1, s2) L -> kin L st1 st2 ->
  two (fun a t1 b t2 => a = b /\ kin L t1 t2) (rav_loop eps g1 fuel ps qs mt time s1 tt0 st1) (rav_loop eps g2 fuel ps qs mt time s2 tt0 st2).
Proof.
  induction fuel as [|fuel IH]; intros L s1 s2 tt0 st1 st2 IN HK; cbn [rav_loop]; (destruct (Rltb tt0 time); [|cbn; auto]); [reflexivity|].
  eapply two_bind; [exact (tied_kin _ _ L st1 st2 (tied_unif g1 g2 d1 d2 SA) HK)|]. intros r1 t1 ? t2 (<- & HK1).
  eapply two_bind; [exact (tied_kin _ _ L t1 t2 (tied_unif g1 g2 d1 d2 SA) HK1)|]. intros r2 u1 ? u2 (<- & HK2). cbv zeta.
  eapply two_bind; [exact (tied_kin _ _ L u1 u2 (tied_choice_unif g1 g2 d1 d2 SA _) HK2)|]. intros i v1 ? v2 (<- & HK3).
  destruct (nth_error ps i) as [p|]; [|reflexivity].
  eapply two_bind; [exact (tied_kin _ _ L v1 v2 (tied_lift d1 d2 _) HK3)|]. intros u w1 ? w2 (<- & HK4).
  eapply two_bind; [exact (born_kin _ _ _ L w1 w2 (born_entry d1 d2 eps u qs) HK4)|].
  intros l1 x1 l2 x2 ((gt & H1 & H2) & HK5).
  eapply two_bind; [exact (call_kin L s1 s2 _ _ (RLast gt true) x1 x2 IN HK5 (has_gate_call_last _ _ _ _ _ H1) (has_gate_call_last _ _ _ _ _ H2))|].
  intros v y1 v' y2 (_ & HK6 & _). now apply IH.
Qed.

Definition ends (m1 m2 : RM (nat * list R)) : Prop := forall st1 st2, kin [] st1 st2 ->
  two (fun a t1 b t2 => snd a = snd b /\ kin [(fst a, fst b)] t1 t2) (m1 st1) (m2 st2).
Lemma ends_after {A} (m1 m2 : RM A) f1 f2 : tied d1 d2 m1 m2 -> (forall a, ends (f1 a) (f2 a)) -> ends (se_bind m1 f1) (se_bind m2 f2).
Proof.
  intros H K st1 st2 HK. eapply two_bind; [exact (tied_kin _ _ [] st1 st2 H HK)|]. intros a t1 b t2 [<- HK']. now apply K.
Qed.

Lemma rav_ends d ia ps len thr ap probs mx :
  ends (generate_rav_sequence g1 eps d ia ps len thr ap probs mx) (generate_rav_sequence g2 eps d ia ps len thr ap probs mx).
Proof.
  unfold generate_rav_sequence. do 3 (apply ends_after; [apply tied_lift|]; intros _).
  intros st1 st2 HK. eapply two_bind; [exact (empty_makes d [] st1 st2 HK)|]. intros a t1 b t2 HK1.
  eapply two_bind; [exact (random_kin d ps probs _ [(a, b)] a b t1 t2 (or_introl eq_refl) HK1)|]. intros x u1 x' u2 (_ & HK2).
  destruct (skip_inversion thr mx); [cbn; auto|].
  apply (inverse_kin [(a, b)]); [now left| |exact HK2]. intros u. apply with_compiler_makes. now apply compile_alike.
Qed.
Lemma layered_rav_ends d counts n thr ap mx :
  ends (generate_layered_rav_sequence g1 eps d counts n thr ap mx) (generate_layered_rav_sequence g2 eps d counts n thr ap mx).
Proof.
  unfold generate_layered_rav_sequence. do 3 (apply ends_after; [apply tied_lift|]; intros _).
  intros st1 st2 HK. eapply two_bind; [exact (empty_makes d [] st1 st2 HK)|]. intros a t1 b t2 HK1.
  eapply two_bind; [exact (layers_kin d counts _ [(a, b)] a b t1 t2 (or_introl eq_refl) HK1)|]. intros x u1 x' u2 (_ & HK2).
  destruct (skip_inversion thr mx); [cbn; auto|].
  apply (inverse_kin [(a, b)]); [now left| |exact HK2]. intros u. apply with_compiler_makes. now apply layered_alike.
Qed.
Lemma ham_rav_ends fuel h time mt thr sim :
  ends (compile_rav_sequence eps g1 fuel h time mt thr sim) (compile_rav_sequence eps g2 fuel h time mt thr sim).
Proof.
  unfold compile_rav_sequence. apply ends_after; [apply tied_lift|]. intros ps.
  intros st1 st2 HK. eapply two_bind; [exact (empty_makes (h_dim h) [] st1 st2 HK)|]. intros a t1 b t2 HK1.
  eapply two_bind; [exact (rav_loop_kin fuel ps _ mt time [(a, b)] a b 0 t1 t2 (or_introl eq_refl) HK1)|]. intros x u1 x' u2 (_ & HK2).
  apply (inverse_kin [(a, b)]); [now left| |exact HK2]. intros u. apply stoq_for_makes.
Qed.
End Made.

Lemma makes_same eps m1 m2 st1 st2 : makes (r_draws st1) (r_draws st2) eps m1 m2 ->
  reachable eps (r_world st1) -> reachable eps (r_world st2) ->
  same_made (r_draws st1) (r_draws st2) (m1 st1) (m2 st2).
Proof.
  intros H R1 R2. specialize (H [] st1 st2 (kin_start eps st1 st2 R1 R2)). unfold same_made, two in *.
  destruct (m1 st1) as [t1 [a|e]], (m2 st2) as [t2 [b|f]]; cbn [fst snd] in *; auto. exact (kin_pair _ _ _ _ _ _ _ _ H).
Qed.
Lemma ends_same eps m1 m2 st1 st2 : ends (r_draws st1) (r_draws st2) eps m1 m2 ->
  reachable eps (r_world st1) -> reachable eps (r_world st2) ->
  same_run (r_draws st1) (r_draws st2) (m1 st1) (m2 st2).
Proof.
  intros H R1 R2. specialize (H st1 st2 (kin_start eps st1 st2 R1 R2)). unfold same_run, two in *.
  destruct (m1 st1) as [t1 [[a ca]|e]], (m2 st2) as [t2 [[b cb]|f]]; cbn [fst snd] in *; auto. destruct H as [-> H].
  split; [reflexivity|]. exact (kin_pair _ _ _ _ _ _ _ _ H).
Qed.

Theorem ideal_repro : forall eps h time n st1 st2, reachable eps (r_world st1) -> reachable eps (r_world st2) ->
  same_made (r_draws st1) (r_draws st2) (ideal_sequence eps h time n st1) (ideal_sequence eps h time n st2).
Proof. intros. apply (makes_same eps); auto. apply ideal_makes. Qed.
Theorem trotter_repro : forall g1 g2 eps h time n randomize st1 st2,
  same_answers g1 (r_draws st1) g2 (r_draws st2) -> reachable eps (r_world st1) -> reachable eps (r_world st2) ->
  same_made (r_draws st1) (r_draws st2) (trotter_sequence eps g1 h time n randomize st1) (trotter_sequence eps g2 h time n randomize st2).
Proof. intros. apply (makes_same eps); auto. now apply trotter_makes. Qed.
Theorem qdrift_repro : forall g1 g2 eps h time n st1 st2,
  same_answers g1 (r_draws st1) g2 (r_draws st2) -> reachable eps (r_world st1) -> reachable eps (r_world st2) ->
  same_made (r_draws st1) (r_draws st2) (qdrift_sequence eps g1 h time n st1) (qdrift_sequence eps g2 h time n st2).
Proof. intros. apply (makes_same eps); auto. now apply qdrift_makes. Qed.
Theorem stoq_repro : forall g1 g2 eps h time max_t threshold simultaneous st1 st2,
  rng_ok g1 -> same_answers g1 (r_draws st1) g2 (r_draws st2) -> reachable eps (r_world st1) -> reachable eps (r_world st2) ->
  same_run (r_draws st1) (r_draws st2) (compile_stoq_sequence eps g1 h time max_t threshold simultaneous st1)
    (compile_stoq_sequence eps g2 h time max_t threshold simultaneous st2).
Proof. intros. apply (ends_same eps); auto. intros t1 t2 HK. now apply stoq_makes. Qed.
Theorem ham_rav_repro : forall g1 g2 eps fuel h time max_t threshold simultaneous st1 st2,
  rng_ok g1 -> same_answers g1 (r_draws st1) g2 (r_draws st2) -> reachable eps (r_world st1) -> reachable eps (r_world st2) ->
  same_run (r_draws st1) (r_draws st2) (compile_rav_sequence eps g1 fuel h time max_t threshold simultaneous st1)
    (compile_rav_sequence eps g2 fuel h time max_t threshold simultaneous st2).
Proof. intros. apply (ends_same eps); auto. now apply ham_rav_ends. Qed.
Theorem rav_repro : forall g1 g2 eps d is_array ps len threshold append probs max st1 st2,
  rng_ok g1 -> same_answers g1 (r_draws st1) g2 (r_draws st2) -> reachable eps (r_world st1) -> reachable eps (r_world st2) ->
  same_run (r_draws st1) (r_draws st2) (generate_rav_sequence g1 eps d is_array ps len threshold append probs max st1)
    (generate_rav_sequence g2 eps d is_array ps len threshold append probs max st2).
Proof. intros. apply (ends_same eps); auto. now apply rav_ends. Qed.
Theorem layered_rav_repro : forall g1 g2 eps d counts n threshold append max st1 st2,
  rng_ok g1 -> same_answers g1 (r_draws st1) g2 (r_draws st2) -> reachable eps (r_world st1) -> reachable eps (r_world st2) ->
  same_run (r_draws st1) (r_draws st2) (generate_layered_rav_sequence g1 eps d counts n threshold append max st1)
    (generate_layered_rav_sequence g2 eps d counts n threshold append max st2).
Proof. intros. apply (ends_same eps); auto. now apply layered_rav_ends. Qed.
Theorem xeb_repro : forall g1 g2 eps d counts n st1 st2,
  rng_ok g1 -> same_answers g1 (r_draws st1) g2 (r_draws st2) -> reachable eps (r_world st1) -> reachable eps (r_world st2) ->
  same_run (r_draws st1) (r_draws st2) (generate_xeb_sequence g1 eps d counts n st1) (generate_xeb_sequence g2 eps d counts n st2).
Proof. intros. now apply layered_rav_repro. Qed.
