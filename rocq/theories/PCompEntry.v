(** Random entries, layers and changes, seen from a sequence; for every clean-up
    threshold. *)
From Coq Require Import Reals List Arith Lia Lra Bool String ZArith Permutation.
From Coquelicot Require Import Rcomplements Complex.
From Verif Require Import Base CMat CMatFacts Det DetFacts ModelUnitary ModelEntry ModelPrimitive
  ModelSequence ModelCompiler Spec SpecModel SpecCompiler PUnitary PEntry PSeqHeap PSeqMeth PSeqWorld
  PSeqUndo PCompView PCompRun.
Import ListNotations.
Open Scope R_scope.
Open Scope C_scope.
Open Scope se_scope.

Section Entry.
Variable g : rng.
Variable eps : R.
Hypothesis G : rng_ok g.
Notation W := (WG eps anyg).
Notation sees := (sees eps).
Notation gatety := (unitary * list nat)%type.

(** From [w] to [w'] nothing happened to sequence [s], and objects kept what they
    say. *)
Definition spares (s : nat) (w w' : world) : Prop :=
  (W w -> W w') /\
  (forall d cs pv, sees w s d cs pv ->
     sees w' s d cs pv /\ forall p, answers eps w s p -> answers eps w' s p) /\
  (forall l gt, W w -> has_gate w l gt -> has_gate w' l gt).

Lemma spares_refl s w : spares s w w.
Proof. split; [auto|]. split; auto. Qed.

Lemma spares_trans s w1 w2 w3 : spares s w1 w2 -> spares s w2 w3 -> spares s w1 w3.
Proof.
  intros (A1 & A2 & A3) (B1 & B2 & B3). split; [auto|]. split.
  - intros d cs pv H. destruct (A2 d cs pv H) as [H1 H2]. destruct (B2 d cs pv H1) as [H3 H4]. auto.
  - intros l gt HW H. apply B3; auto.
Qed.

Lemma spares_step s w o : mutates o s = false -> spares s w (fst (step eps o w)).
Proof.
  intros M. split; [apply W_step|]. split.
  - intros d cs pv H. split; [now apply sees_other|]. intros p. eapply answers_other; eauto.
  - intros l gt. apply has_gate_step.
Qed.

Lemma spares_step_eq s w o w' r : mutates o s = false -> step eps o w = (w', r) -> spares s w w'.
Proof. intros M E. pose proof (spares_step s w o M) as H. now rewrite E in H. Qed.

(** What one of the primitives may produce. *)
Definition offered (ps : list primitive) (probs : option (list R)) (gt : gatety) : Prop :=
  exists p, weighted ps probs p /\ instance eps p (fst gt) /\
    (forall ls, p_allowed p = Some ls -> In (snd gt) ls) /\
    NoDup (snd gt) /\ snd gt <> [] /\ (2 ^ List.length (snd gt))%nat = u_dim (fst gt).

Lemma choice_unif_ok n st st' k : choice_unif g n st = (st', Ok k) -> (k < n)%nat /\ r_world st' = r_world st.
Proof.
  unfold choice_unif. destruct (Nat.eqb_spec n 0); [discriminate|]. intros H. injection H as <- <-.
  split; auto. apply G. lia.
Qed.

Lemma draws_world {A} (m : RM A) st st' r : draws_only m -> m st = (st', r) -> r_world st' = r_world st.
Proof. intros H E. specialize (H st). now rewrite E in H. Qed.

Lemma sumR_step q : forall i, (i < List.length q)%nat -> sumR (firstn (S i) q) = (sumR (firstn i q) + nth i q 0)%R.
Proof.
  induction q as [|x t IH]; intros [|i] H; simpl in H; try lia.
  - simpl. lra.
  - change (sumR (firstn (S (S i)) (x :: t))) with (x + sumR (firstn (S i) t))%R.
    change (sumR (firstn (S i) (x :: t))) with (x + sumR (firstn i t))%R. rewrite IH by lia. simpl. lra.
Qed.

(** An alternative with probability 0 is never chosen. *)
Lemma choice_p_weight n q st st' i : choice_p g n q st = (st', Ok i) -> List.length q = n /\ (0 < nth i q 0)%R.
Proof.
  intros H.
  assert (D : n <> 0%nat /\ good_probabilities n q).
  { destruct (Nat.eq_dec n 0) as [Hn|Hn]; [rewrite choice_p_bad in H by auto; discriminate|]. split; auto.
    destruct (Classical_Prop.classic (good_probabilities n q)) as [|X]; auto. rewrite choice_p_bad in H by auto. discriminate. }
  destruct D as [Hn D]. destruct (choice_p_good g n q st G Hn D) as (j & E & L & B1 & B2).
  rewrite E in H. injection H as _ <-. split; [apply D|].
  rewrite (sumR_step q j) in B2 by (rewrite (proj1 D); auto). lra.
Qed.

Lemma chosen_weighted ps probs st st' i pr :
  match probs with
  | Some q => choice_p g (List.length (filter usable ps)) q
  | None => choice_unif g (List.length (filter usable ps))
  end st = (st', Ok i) ->
  nth_error (filter usable ps) i = Some pr -> weighted ps probs pr.
Proof.
  intros H E. exists i. split; auto. intros q ->. apply choice_p_weight in H. apply H.
Qed.

Lemma weighted_in ps probs p : weighted ps probs p -> In p ps.
Proof. intros (i & H & _). apply nth_error_In in H. apply filter_In in H. apply H. Qed.

Lemma create_inv d ps probs st st' l :
  create_random_sequence_entry g eps d ps probs st = (st', Ok l) ->
  exists u qs pr, weighted ps probs pr /\ instance eps pr u /\ (forall ls, p_allowed pr = Some ls -> In qs ls) /\
    step eps (NewEntry u (map Z.of_nat qs)) (r_world st) = (r_world st', Ok (VEntry l)).
Proof.
  unfold create_random_sequence_entry. intros H. apply bind_ok in H. destruct H as (i & st1 & H1 & H2).
  assert (W1 : r_world st1 = r_world st).
  { destruct probs; eapply draws_world; try exact H1; [apply draws_choice_p|apply draws_choice_unif]. }
  destruct (nth_error (filter usable ps) i) as [pr|] eqn:E; [|discriminate].
  assert (Hin := chosen_weighted ps probs st st1 i pr H1 E). clear E.
  apply bind_ok in H2. destruct H2 as (u & st2 & H2 & H3).
  assert (W2 : r_world st2 = r_world st1 /\ instance eps pr u).
  { unfold instance. destruct (p_source pr) as [v|pu].
    - apply ret_ok in H2. destruct H2 as [-> ->]. auto.
    - apply bind_ok in H2. destruct H2 as (vs & st3 & H2 & H4). apply lift_ok in H4. destruct H4 as [-> H4].
      split; [eapply draws_world; [apply draws_random_values|exact H2]|].
      exists vs. split; auto. apply as_unitary_ok_inv in H4. apply H4. }
  destruct W2 as [W2 I].
  apply bind_ok in H3. destruct H3 as (qs & st3 & H3 & H4).
  assert (W3 : r_world st3 = r_world st2 /\ forall ls, p_allowed pr = Some ls -> In qs ls).
  { destruct (p_allowed pr) as [ls|].
    - apply bind_ok in H3. destruct H3 as (k & st4 & H3 & H5). apply choice_unif_ok in H3.
      apply ret_ok in H5. destruct H5 as [-> ->]. destruct H3 as [K ->]. split; auto.
      intros ls' [= <-]. now apply nth_In.
    - split; [eapply draws_world; [apply draws_choice_distinct|exact H3]|discriminate]. }
  destruct W3 as [W3 Hq].
  apply call_entry_ok in H4. destruct H4 as [H4 _]. rewrite W3, W2, W1 in H4.
  exists u, qs, pr. auto.
Qed.

Lemma create_ok d ps probs st st' l :
  create_random_sequence_entry g eps d ps probs st = (st', Ok l) ->
  exists gt, offered ps probs gt /\ has_gate (r_world st') l gt /\ forall s, spares s (r_world st) (r_world st').
Proof.
  intros H. apply create_inv in H. destruct H as (u & qs & pr & Hin & I & Hq & H4).
  destruct (new_entry_view eps _ _ _ _ _ H4) as (l' & E & HG & e & He). injection E as <-.
  rewrite to_of_nat in HG.
  exists (u, qs). split; [|split].
  - exists pr. split; auto. split; auto. split; auto.
    assert (X : exists e, mk_entry u (map Z.of_nat qs) = Ok e) by eauto. apply mk_entry_iff in X.
    destruct X as (X1 & X2 & X3 & X4). cbn [fst snd]. split; [|split].
    + eapply NoDup_map_inv. exact X2.
    + intros ->. now apply X1.
    + now rewrite map_length in X4.
  - exact HG.
  - intros s. eapply spares_step_eq; [|exact H4]. reflexivity.
Qed.

Lemma create_raise d ps probs st st' x :
  create_random_sequence_entry g eps d ps probs st = (st', Raise x) -> r_world st' = r_world st.
Proof.
  unfold create_random_sequence_entry. intros H. apply bind_raise in H.
  destruct H as [H1|(i & st1 & H1 & H2)].
  { destruct probs; eapply draws_world; try exact H1; [apply draws_choice_p|apply draws_choice_unif]. }
  assert (W1 : r_world st1 = r_world st).
  { destruct probs; eapply draws_world; try exact H1; [apply draws_choice_p|apply draws_choice_unif]. }
  rewrite <- W1. clear W1 H1. destruct (nth_error (filter usable ps) i) as [pr|]; [|now injection H2 as <- _].
  apply bind_raise in H2.
  assert (D : draws_only (match p_source pr with
     | Fixed u => se_ret u
     | Family pu => vs <-- random_values g (pu_params pu);; se_lift (as_unitary eps pu vs) end)).
  { destruct (p_source pr); [apply draws_ret|apply draws_bind; [apply draws_random_values|intros; apply draws_lift]]. }
  destruct H2 as [H2|(u & st2 & H2 & H3)]; [eapply draws_world; eauto|].
  apply (draws_world _ _ _ _ D) in H2. rewrite <- H2. clear D H2.
  apply bind_raise in H3.
  assert (D : draws_only (match p_allowed pr with
    | Some allowed => k <-- choice_unif g (List.length allowed);; se_ret (nth k allowed [])
    | None => choice_distinct g (Nat.log2 d) (Nat.log2 (u_dim u)) end)).
  { destruct (p_allowed pr); [apply draws_bind; [apply draws_choice_unif|intros; apply draws_ret]|apply draws_choice_distinct]. }
  destruct H3 as [H3|(qs & st3 & H3 & H4)]; [eapply draws_world; eauto|].
  apply (draws_world _ _ _ _ D) in H3. rewrite <- H3. clear D H3.
  unfold call_entry in H4. apply bind_raise in H4.
  unfold call in H4. cbn [step] in H4. destruct (mk_entry u (map Z.of_nat qs)).
  - destruct H4 as [H4|(v & st4 & H4 & H5)]; [discriminate|]. injection H4 as <- <-. discriminate.
  - destruct H4 as [H4|(v & st4 & H4 & H5)]; [|discriminate]. injection H4 as <- _. reflexivity.
Qed.

(** * Layers *)
Lemma create_entries_ok d p k : forall st st' ls,
  create_entries g eps d p k st = (st', Ok ls) ->
  W (r_world st) ->
  exists gs, Forall2 (has_gate (r_world st')) ls gs /\ List.length gs = k /\ Forall (offered [p] None) gs /\
    forall s, spares s (r_world st) (r_world st').
Proof.
  induction k as [|k IH]; intros st st' ls H HW; simpl in H.
  - apply ret_ok in H. destruct H as [-> ->]. exists []. split; [constructor|]. split; [reflexivity|]. split; [constructor|].
    intros s. apply spares_refl.
  - apply bind_ok in H. destruct H as (l & st1 & H1 & H).
    apply bind_ok in H. destruct H as (ls1 & st2 & H2 & H). apply ret_ok in H. destruct H as [-> ->].
    apply create_ok in H1. destruct H1 as (gt & O1 & O2 & O3).
    assert (HW1 : W (r_world st1)) by (now apply (O3 0%nat)).
    destruct (IH _ _ _ H2 HW1) as (gs & I1 & I2 & I3 & I4).
    exists (gt :: gs). split; [|split; [|split]].
    + constructor; auto. apply (I4 0%nat); auto.
    + simpl. congruence.
    + constructor; auto.
    + intros s. eapply spares_trans; eauto.
Qed.

Definition parts_of (counts : list (primitive * Z)) (parts : list (list gatety)) : Prop :=
  Forall2 (fun pc part => List.length part = Z.to_nat (snd pc) /\ Forall (offered [fst pc] None) part) counts parts.

Lemma has_gates_spares w w' ls gs : W w -> spares 0 w w' -> Forall2 (has_gate w) ls gs -> Forall2 (has_gate w') ls gs.
Proof. intros HW (_ & _ & S). induction 1; constructor; auto. Qed.

Lemma create_layer_loop_ok d counts : forall st st' ls,
  create_layer_loop g eps d counts st = (st', Ok ls) ->
  W (r_world st) ->
  exists parts, parts_of counts parts /\ Forall2 (has_gate (r_world st')) ls (List.concat parts) /\
    forall s, spares s (r_world st) (r_world st').
Proof.
  induction counts as [|[p c] t IH]; intros st st' ls H HW; simpl in H.
  - apply ret_ok in H. destruct H as [-> ->]. exists []. split; [constructor|]. split; [constructor|].
    intros s. apply spares_refl.
  - apply bind_ok in H. destruct H as (ls1 & st1 & H1 & H).
    apply bind_ok in H. destruct H as (ls2 & st2 & H2 & H). apply ret_ok in H. destruct H as [-> ->].
    destruct (create_entries_ok _ _ _ _ _ _ H1 HW) as (gs & A1 & A2 & A3 & A4).
    assert (HW1 : W (r_world st1)) by (now apply (A4 0%nat)).
    destruct (IH _ _ _ H2 HW1) as (parts & B1 & B2 & B3).
    exists (gs :: parts). split; [constructor; auto|]. split.
    + simpl. apply Forall2_app; auto. eapply has_gates_spares; eauto.
    + intros s. eapply spares_trans; eauto.
Qed.

Lemma Forall2_nth_perm {A B} (P : A -> B -> Prop) l l' d d' idx :
  Forall2 P l l' -> (forall i, In i idx -> (i < List.length l)%nat) ->
  Forall2 P (map (fun i => nth i l d) idx) (map (fun i => nth i l' d') idx).
Proof.
  intros H Hi. induction idx as [|i t IH]; simpl; constructor.
  - assert (L : (i < List.length l)%nat) by (apply Hi; simpl; auto). clear IH Hi.
    revert i L. induction H; intros [|i] L; simpl in *; try lia; auto. apply IHForall2. lia.
  - apply IH. intros j Hj. apply Hi. simpl; auto.
Qed.

Lemma map_nth_seq {A} (l : list A) d : map (fun i => nth i l d) (seq 0 (List.length l)) = l.
Proof.
  induction l as [|x t IH]; auto. simpl. f_equal. rewrite <- seq_shift, map_map. exact IH.
Qed.

Lemma nth_permutation {A} (l : list A) d idx :
  Permutation idx (seq 0 (List.length l)) -> Permutation (map (fun i => nth i l d) idx) l.
Proof. intros H. apply (Permutation_map (fun i => nth i l d)) in H. now rewrite map_nth_seq in H. Qed.

Lemma create_layer_ok d counts st st' ls :
  create_random_layer g eps d counts st = (st', Ok ls) ->
  W (r_world st) ->
  exists parts gs, parts_of counts parts /\ Permutation gs (List.concat parts) /\
    Forall2 (has_gate (r_world st')) ls gs /\
    forall s, spares s (r_world st) (r_world st').
Proof.
  intros H HW. apply bind_ok in H. destruct H as (ls1 & st1 & H1 & H).
  destruct (create_layer_loop_ok _ _ _ _ _ H1 HW) as (parts & B1 & B2 & B3).
  unfold shuffle in H. injection H as <- <-. cbn [r_world].
  destruct G as (_ & _ & G3). specialize (G3 (r_draws st1) (List.length ls1)).
  exists parts. eexists. split; [exact B1|]. split; [|split; [|exact B3]].
  - apply (nth_permutation (List.concat parts) (e_unitary no_entry, [])).
    rewrite <- (F2_length _ _ _ B2). exact G3.
  - apply Forall2_nth_perm; auto. intros i Hi.
    apply (Permutation_in _ G3) in Hi. apply in_seq in Hi. lia.
Qed.

(** * Appending and removing many *)
Lemma fits_gate w d l gt : has_gate w l gt -> fits w d l ->
  (u_dim (fst gt) <= d)%nat /\ forall q, In q (snd gt) -> (2 ^ (q + 1) <= d)%nat.
Proof. intros [_ <-] H. exact H. Qed.

Definition fits_in (d : nat) (gt : gatety) : Prop := forall q, In q (snd gt) -> (2 ^ (q + 1) <= d)%nat.

Lemma has_gates_ext w w' ls gs : heap_ext (w_heap w) (w_heap w') ->
  Forall2 (has_gate w) ls gs -> Forall2 (has_gate w') ls gs.
Proof.
  intros [E1 E2]. induction 1 as [|l gt ls gs [H1 H2] _ IH]; constructor; auto.
  split; [lia|]. now rewrite E2.
Qed.

Lemma append_all_first s ls : forall gs first st st' d cs pv,
  append_all eps (AppendFirst s) ls first st = (st', Ok tt) ->
  sees (r_world st) s d cs pv -> Forall2 (has_gate (r_world st)) ls gs ->
  sees (r_world st') s d (rev gs ++ cs) (match ls with [] => pv | _ => if first then Some cs else pv end) /\
  Forall (fits_in d) gs /\ (ls = [] -> st' = st).
Proof.
  induction ls as [|l ls IH]; intros gs first st st' d cs pv H S F; simpl in H.
  - apply ret_ok in H. destruct H as [-> _]. inversion F; subst. simpl. auto.
  - apply bind_ok in H. destruct H as (v & st1 & H1 & H2). apply call_ok in H1. destruct H1 as [H1 _].
    inversion F as [|? gt ? gs' F1 F2]; subst.
    destruct (append_first_view eps _ _ _ _ _ _ _ _ _ _ S F1 H1) as (S1 & Fi & X).
    destruct (IH gs' false st1 st' d (gt :: cs) _ H2 S1) as (S2 & F3 & _).
    { eapply has_gates_ext; eauto. }
    split; [|split; [|discriminate]].
    + simpl rev. rewrite <- app_assoc. simpl. destruct ls; exact S2.
    + constructor; auto. exact (proj2 (fits_gate _ _ _ _ F1 Fi)).
Qed.

Lemma append_all_last s ls : forall gs first st st' d cs pv,
  append_all eps (AppendLast s) ls first st = (st', Ok tt) ->
  sees (r_world st) s d cs pv -> Forall2 (has_gate (r_world st)) ls gs ->
  sees (r_world st') s d (cs ++ gs) (match ls with [] => pv | _ => if first then Some cs else pv end) /\
  Forall (fits_in d) gs /\ (ls = [] -> st' = st).
Proof.
  induction ls as [|l ls IH]; intros gs first st st' d cs pv H S F; simpl in H.
  - apply ret_ok in H. destruct H as [-> _]. inversion F; subst. rewrite app_nil_r. auto.
  - apply bind_ok in H. destruct H as (v & st1 & H1 & H2). apply call_ok in H1. destruct H1 as [H1 _].
    inversion F as [|? gt ? gs' F1 F2]; subst.
    destruct (append_last_view eps _ _ _ _ _ _ _ _ _ _ S F1 H1) as (S1 & Fi & X).
    destruct (IH gs' false st1 st' d (cs ++ [gt]) _ H2 S1) as (S2 & F3 & _).
    { eapply has_gates_ext; eauto. }
    split; [|split; [|discriminate]].
    + rewrite <- app_assoc in S2. simpl in S2. destruct ls; exact S2.
    + constructor; auto. exact (proj2 (fits_gate _ _ _ _ F1 Fi)).
Qed.

Lemma remove_all_first s k : forall first st st' d cs pv,
  remove_all eps (RemoveFirst s) k first st = (st', Ok tt) ->
  sees (r_world st) s d cs pv ->
  sees (r_world st') s d (skipn k cs)
    (match k, cs with S _, _ :: _ => if first then Some cs else pv | _, _ => pv end) /\
  (k = 0%nat \/ cs = [] -> r_world st' = r_world st).
Proof.
  induction k as [|k IH]; intros first st st' d cs pv H S; simpl in H.
  - apply ret_ok in H. destruct H as [-> _]. auto.
  - apply bind_ok in H. destruct H as (v & st1 & H1 & H2). apply call_ok in H1. destruct H1 as [H1 _].
    destruct (remove_first_view eps _ _ _ _ _ _ _ _ S H1) as (S1 & N).
    destruct (IH _ _ _ _ _ _ H2 S1) as (S2 & N2).
    destruct cs as [|c cs].
    + cbn [tl] in *. split.
      * destruct k; exact S2.
      * intros _. rewrite N2 by auto. now apply N.
    + cbn [tl skipn] in *. split.
      * destruct first, k, cs; exact S2.
      * intros [?|?]; discriminate.
Qed.

Lemma removelast_firstn_len {A} (l : list A) : removelast l = firstn (List.length l - 1) l.
Proof.
  induction l as [|x t IH]; auto. destruct t as [|y t]; auto.
  change (removelast (x :: y :: t)) with (x :: removelast (y :: t)). rewrite IH. simpl.
  now rewrite Nat.sub_0_r.
Qed.

Lemma remove_all_last s k : forall first st st' d cs pv,
  remove_all eps (RemoveLast s) k first st = (st', Ok tt) ->
  sees (r_world st) s d cs pv ->
  sees (r_world st') s d (firstn (List.length cs - k) cs)
    (match k, cs with S _, _ :: _ => if first then Some cs else pv | _, _ => pv end) /\
  (k = 0%nat \/ cs = [] -> r_world st' = r_world st).
Proof.
  induction k as [|k IH]; intros first st st' d cs pv H S; simpl in H.
  - apply ret_ok in H. destruct H as [-> _]. rewrite Nat.sub_0_r, firstn_all. auto.
  - apply bind_ok in H. destruct H as (v & st1 & H1 & H2). apply call_ok in H1. destruct H1 as [H1 _].
    destruct (remove_last_view eps _ _ _ _ _ _ _ _ S H1) as (S1 & N).
    destruct (IH _ _ _ _ _ _ H2 S1) as (S2 & N2).
    destruct cs as [|c cs].
    + cbn [removelast] in *. split.
      * destruct k; exact S2.
      * intros _. rewrite N2 by auto. now apply N.
    + split; [|intros [?|?]; discriminate].
      assert (E : firstn (List.length (removelast (c :: cs)) - k) (removelast (c :: cs)) =
                  firstn (List.length (c :: cs) - Datatypes.S k) (c :: cs)).
      { rewrite removelast_firstn_len, firstn_firstn, firstn_length. f_equal. lia. }
      rewrite E in S2. destruct first, k, (removelast (c :: cs)); exact S2.
Qed.
End Entry.
