(** Runs of a well-formed compiler never fail. *)
From Coq Require Import Reals List Arith Lia Lra Bool String ZArith Permutation.
From Coquelicot Require Import Rcomplements Complex.
From Verif Require Import Base CMat CMatFacts Det DetFacts Norms ModelUnitary ModelEntry ModelPrimitive
  ModelSequence ModelCompiler Spec SpecModel SpecCompiler PUnitary PEmbed PEntry PSeqHeap PSeqMeth PSeqNear PSeqWorld
  PSeqUndo PSeqInv PSeqHist PCompView PCompRun PCompEntry PCompLoop PCompTrace.
Import ListNotations.
Open Scope R_scope.
Open Scope C_scope.
Open Scope se_scope.

Lemma winv_any eps b K w : winv eps b K w -> WG eps anyg w.
Proof.
  intros [[HW HR] _]. split; auto. intros l Hl. destruct (HW l Hl) as [C (_ & _ & H & _)]. split; auto.
Qed.

Lemma NoDup_app_left {A} (l l' : list A) : NoDup (l ++ l') -> NoDup l.
Proof.
  induction l as [|x t IH]; simpl; intros H; constructor; inversion H; subst; auto.
  intros Hin. apply H2. apply in_or_app. auto.
Qed.

Section Total.
Variable g : rng.
Variable eps : R.
Hypothesis G : rng_ok g.
Hypothesis eps0 : (0 <= eps)%R.
Hypothesis eps1 : (eps <= 1)%R.
Variable b : bool.
Variable n : nat.
Notation safe := (safe_gate eps b).
Notation winv := (winv eps b).
Notation lim := (limb eps b).
Notation lim0 := (PSeqNear.lim eps).
Notation near := (nearb eps b).
Notation near0 := (PSeqNear.near eps).
Notation uc := (unit_cost b).
Notation sees := (sees eps).

Hypothesis Hb2 : b = true -> lim0 n 2.
Lemma lim_two k : (0 < k)%nat -> lim n (uc * k) -> lim0 n 2.
Proof.
  intros Hk L. destruct b eqn:B; auto. destruct L as [L|(X & _)]; [|discriminate]. eapply lim_mono; [exact eps0|exact eps1| |exact L]. unfold unit_cost, gc. lia.
Qed.

Lemma lim_le c1 c2 : (c1 <= c2)%nat -> lim n c2 -> lim n c1.
Proof. intros. eapply limb_mono; eauto. Qed.

Lemma product_total K w s cs pv :
  winv K w -> sees w s (2 ^ n) cs pv -> lim n (uc * K) ->
  exists w' p, step eps (Product s) w = (w', Ok (VUnitary p)) /\ near n (uc * K) (iordered eps n cs) p /\
    answers eps w s p /\ answers eps w' s p /\ sees w' s (2 ^ n) cs pv /\ winv K w'.
Proof.
  intros HW S L.
  destruct (winv_answers eps eps0 eps1 b K w s n HW (sees_has_dim _ _ _ _ _ _ S) L) as (p & A & N & _).
  rewrite (sees_contents _ _ _ _ _ _ S) in N.
  assert (HW' := step_winv eps eps0 eps1 b (Product s) K w I HW). cbn [cost1] in HW'.
  assert (A' := A). unfold answers in A'.
  destruct (step eps (Product s) w) as [w' r] eqn:E. cbn [fst snd] in *. subst r.
  destruct (product_view eps _ _ _ _ _ _ _ S E) as (p' & E' & S' & A1 & A2 & _). injection E' as <-.
  exists w', p. auto 10.
Qed.

Lemma call_unitary_eq o st w' p :
  step eps o (r_world st) = (w', Ok (VUnitary p)) ->
  call_unitary eps o st = ({| r_world := w'; r_draws := r_draws st |}, Ok p).
Proof. intros E. unfold call_unitary, se_bind, call. rewrite E. reflexivity. Qed.

Lemma call_eq o st w' v :
  step eps o (r_world st) = (w', Ok v) ->
  call eps o st = ({| r_world := w'; r_draws := r_draws st |}, Ok v).
Proof. intros E. unfold call. now rewrite E. Qed.

Lemma gate_placed K w l gt : winv K w -> has_gate w l gt -> placement n (snd gt) ->
  (l < List.length (w_heap w))%nat /\ placement n (e_apply (obj (w_heap w) l)) /\
  entry_valid (2 ^ n) (obj (w_heap w) l) = true.
Proof.
  intros [HW _] [L E] P. assert (E2 : e_apply (obj (w_heap w) l) = snd gt) by now rewrite <- E.
  split; auto. rewrite E2. split; auto. apply placement_entry_valid; [now rewrite E2|].
  destruct (proj1 HW l L) as [_ (_ & _ & _ & H & _)]. exact H.
Qed.

Lemma append_first_total K w s cs pv l gt sv :
  winv K w -> sees w s (2 ^ n) cs pv -> has_gate w l gt -> placement n (snd gt) -> lim n (uc * S K) ->
  exists w', step eps (AppendFirst s l sv) w = (w', Ok VNone).
Proof.
  intros HW (_ & q & Hq & Hd & Ar & _) HG P L.
  destruct (gate_placed K w l gt HW HG P) as (Hl & P' & V).
  assert (GG := WG_G eps _ w s q (proj1 HW) Hq).
  assert (HS := proj2 HW s q n Hq Hd (lim_le (uc * K) (uc * S K) ltac:(nia) L)).
  destruct (append_first_sat eps eps0 eps1 b n K l sv (w_heap w) q GG Hd Ar L HS Hl P')
    as (h1 & q1 & E1 & _).
  rewrite step_append_first. replace (Nat.ltb l (List.length (w_heap w))) with true by (symmetry; now apply Nat.ltb_lt).
  destruct (on_seq_target s (append_first eps l sv) w q h1 q1 (Ok tt) Hq) as [F1 F2].
  { rewrite append_first_eq, Hd, V. exact E1. }
  eexists. unfold se_bind. rewrite F1. reflexivity.
Qed.

Lemma append_last_total K w s cs pv l gt sv :
  winv K w -> sees w s (2 ^ n) cs pv -> has_gate w l gt -> placement n (snd gt) -> lim n (uc * S K) ->
  exists w', step eps (AppendLast s l sv) w = (w', Ok VNone).
Proof.
  intros HW (_ & q & Hq & Hd & Ar & _) HG P L.
  destruct (gate_placed K w l gt HW HG P) as (Hl & P' & V).
  assert (GG := WG_G eps _ w s q (proj1 HW) Hq).
  assert (HS := proj2 HW s q n Hq Hd (lim_le (uc * K) (uc * S K) ltac:(nia) L)).
  destruct (append_last_sat eps eps0 eps1 b n K l sv (w_heap w) q GG Hd Ar L HS Hl P')
    as (h1 & q1 & E1 & _).
  rewrite step_append_last. replace (Nat.ltb l (List.length (w_heap w))) with true by (symmetry; now apply Nat.ltb_lt).
  destruct (on_seq_target s (append_last eps l sv) w q h1 q1 (Ok tt) Hq) as [F1 F2].
  { rewrite append_last_eq, Hd, V. exact E1. }
  eexists. unfold se_bind. rewrite F1. reflexivity.
Qed.

Lemma remove_first_total K w s cs pv sv :
  winv K w -> sees w s (2 ^ n) cs pv -> lim n (uc * S K) ->
  exists w', step eps (RemoveFirst s sv) w = (w', Ok VNone).
Proof.
  intros HW (_ & q & Hq & Hd & Ar & _) L.
  assert (GG := WG_G eps _ w s q (proj1 HW) Hq).
  assert (HS := proj2 HW s q n Hq Hd (lim_le (uc * K) (uc * S K) ltac:(nia) L)).
  cbn [step]. destruct (s_entries q) as [|l t] eqn:Q.
  - exists w. unfold se_bind. erewrite (on_seq_nop _ _ _ _ (Ok tt)); [reflexivity|exact Hq|]. now rewrite remove_first_eq, Q.
  - destruct (remove_first_sat eps eps0 eps1 b n K l t sv (w_heap w) q GG Hd Ar L HS Q)
      as (h1 & q1 & E1 & _).
    destruct (on_seq_target s (remove_first eps sv) w q h1 q1 (Ok tt) Hq) as [F1 F2].
    { rewrite remove_first_eq, Q. exact E1. }
    eexists. unfold se_bind. rewrite F1. reflexivity.
Qed.

Lemma remove_last_total K w s cs pv sv :
  winv K w -> sees w s (2 ^ n) cs pv -> lim n (uc * S K) ->
  exists w', step eps (RemoveLast s sv) w = (w', Ok VNone).
Proof.
  intros HW (_ & q & Hq & Hd & Ar & _) L.
  assert (GG := WG_G eps _ w s q (proj1 HW) Hq).
  assert (HS := proj2 HW s q n Hq Hd (lim_le (uc * K) (uc * S K) ltac:(nia) L)).
  cbn [step]. destruct (rev (s_entries q)) as [|l t] eqn:Q.
  - exists w. unfold se_bind. erewrite (on_seq_nop _ _ _ _ (Ok tt)); [reflexivity|exact Hq|]. now rewrite remove_last_eq, Q.
  - assert (Q' : s_entries q = rev t ++ [l]).
    { rewrite <- (rev_involutive (s_entries q)), Q. reflexivity. }
    destruct (remove_last_sat eps eps0 eps1 b n K l (rev t) sv (w_heap w) q GG Hd Ar L HS Q')
      as (h1 & q1 & E1 & _).
    destruct (on_seq_target s (remove_last eps sv) w q h1 q1 (Ok tt) Hq) as [F1 F2].
    { rewrite remove_last_eq, Q. exact E1. }
    eexists. unfold se_bind. rewrite F1. reflexivity.
Qed.

(** ** Random entries *)
Lemma good_instance p u : good_source eps (p_source p) -> instance eps p u ->
  made eps u /\ u_dim u = src_dim (p_source p).
Proof.
  unfold instance, good_source, src_dim. destruct (p_source p) as [v|pu].
  - intros B ->. auto.
  - intros [_ H] (vs & R & E). destruct (H vs R) as (M & HM & HU).
    destruct (as_unitary_eq eps pu vs _ R HM) as (d & _ & E'). rewrite E in E'. symmetry in E'.
    split.
    + exists (pu_dim pu), M, (Some (pu_name pu)), d, false, []. auto.
    + apply mk_unitary_inv in E'. destruct E' as (_ & _ & _ & _ & _ & ->). reflexivity.
Qed.

Lemma filter_all {A} (f : A -> bool) l : (forall x, In x l -> f x = true) -> filter f l = l.
Proof.
  induction l as [|x t IH]; intros H; simpl; auto. rewrite (H x) by (simpl; auto). f_equal. apply IH.
  intros y Hy. apply H. simpl; auto.
Qed.

Definition choosable (ps : list primitive) (probs : option (list R)) : Prop :=
  filter usable ps <> [] /\
  match probs with None => True | Some q => good_probabilities (List.length (filter usable ps)) q end.

Lemma firstn_perm_placement m k l : (1 <= k <= m)%nat -> Permutation l (seq 0 m) -> placement m (firstn k l) /\ List.length (firstn k l) = k.
Proof.
  intros Hk P. assert (L : List.length l = m) by (rewrite (Permutation_length P); apply seq_length).
  assert (ND : NoDup l) by (eapply Permutation_NoDup; [apply Permutation_sym; exact P|apply seq_NoDup]).
  assert (LK : List.length (firstn k l) = k) by (rewrite firstn_length; lia).
  split; auto. split; [|split].
  - rewrite <- (firstn_skipn k l) in ND. eapply NoDup_app_left; eauto.
  - intros E. rewrite E in LK. simpl in LK. lia.
  - intros q Hq. assert (In q l).
    { rewrite <- (firstn_skipn k l). apply in_or_app. auto. }
    apply (Permutation_in _ P) in H. apply in_seq in H. lia.
Qed.

(** The qubits the generator will draw are fine. *)
Definition drawn_ok (p : primitive) : Prop :=
  good_source eps (p_source p) /\
  match p_allowed p with
  | Some ls => ls <> [] -> forall k, let qs := nth (g_int g k (List.length ls)) ls [] in
      placement n qs /\ (2 ^ List.length qs)%nat = src_dim (p_source p)
  | None => exists k, (1 <= k <= n)%nat /\ src_dim (p_source p) = (2 ^ k)%nat
  end.

Lemma good_drawn p : good_primitive eps n p -> drawn_ok p.
Proof.
  intros [H1 H2]. split; auto. destruct (p_allowed p) as [ls|]; auto.
  intros N k. cbv zeta. apply H2. apply nth_In. apply G. destruct ls; [congruence|simpl; lia].
Qed.

Lemma create_total ps probs st :
  (forall p, In p ps -> drawn_ok p) -> choosable ps probs -> lim0 n 2 ->
  exists st' l gt, create_random_sequence_entry g eps (2 ^ n) ps probs st = (st', Ok l) /\
    has_gate (r_world st') l gt /\ placement n (snd gt).
Proof.
  intros HP [HN HQ] HL. unfold create_random_sequence_entry.
  set (us := filter usable ps) in *.
  assert (A : exists st1 i, (match probs with
      | Some p => choice_p g (List.length us) p | None => choice_unif g (List.length us) end) st = (st1, Ok i) /\
      r_world st1 = r_world st /\ (i < List.length us)%nat).
  { assert (LU : List.length us <> 0%nat) by (destruct us; simpl; congruence).
    destruct probs as [q|].
    - destruct (choice_p_good g (List.length us) q st G LU HQ) as (i & E & Hi & _).
      exists {| r_world := r_world st; r_draws := S (r_draws st) |}, i. auto.
    - unfold choice_unif. destruct (Nat.eqb_spec (List.length us) 0); [contradiction|].
      do 2 eexists. split; [reflexivity|]. split; auto. apply G. lia. }
  destruct A as (st1 & i & E1 & W1 & Hi). rewrite (bind_eq _ _ _ _ _ E1). clear E1.
  destruct (nth_error us i) as [pr|] eqn:E.
  2:{ apply nth_error_None in E. lia. }
  apply nth_error_In in E. apply filter_In in E. destruct E as [Hin Hus].
  destruct (HP pr Hin) as [HS HA].
  assert (B : exists st2 u, (match p_source pr with
     | Fixed u => se_ret u
     | Family pu => vs <-- random_values g (pu_params pu);; se_lift (as_unitary eps pu vs) end) st1 = (st2, Ok u) /\
     r_world st2 = r_world st1 /\ instance eps pr u).
  { unfold instance. unfold good_source in HS. destruct (p_source pr) as [v|pu].
    - exists st1, v. auto.
    - destruct HS as [HR HM].
      destruct (random_values_ok g (pu_params pu) G st1) as (k & vs & EV & HV). specialize (HV HR).
      destruct (HM vs HV) as (M & EM & HU).
      destruct (as_unitary_eq eps pu vs _ HV EM) as (d & _ & EA).
      assert (Hd : (0 < pu_dim pu <= 2 ^ n)%nat).
      { assert (X : exists k, (k <= n)%nat /\ (2 ^ k)%nat = pu_dim pu).
        { destruct (p_allowed pr) as [ls|] eqn:PA.
          - destruct ls as [|qs ls]; [unfold usable in Hus; rewrite PA in Hus; discriminate|].
            destruct (HA ltac:(discriminate) 0%nat) as [X1 X]. eexists. split; [|exact X].
            now apply (placement_length n).
          - destruct HA as (k' & X1 & X). simpl in X. exists k'. split; [lia|]. now symmetry. }
        destruct X as (k' & X1 & <-). split.
        - assert (2 ^ k' <> 0)%nat by (apply Nat.pow_nonzero; lia). lia.
        - apply Nat.pow_le_mono_r; lia. }
      destruct (made_ok eps eps0 (pu_dim pu) M (Some (pu_name pu)) d false [] (proj1 Hd) HU
        (lim_tame eps eps0 eps1 n 2 _ ltac:(lia) (proj2 Hd) HL)) as (u & EU & _).
      rewrite EU in EA.
      exists {| r_world := r_world st1; r_draws := k |}, u. split; [|split; [reflexivity|eauto]].
      rewrite (bind_eq _ _ _ _ _ EV). unfold se_lift. now rewrite EA. }
  destruct B as (st2 & u & E2 & W2 & I2). rewrite (bind_eq _ _ _ _ _ E2). clear E2.
  destruct (good_instance pr u HS I2) as [Bu Du].
  assert (C : exists st3 qs, (match p_allowed pr with
    | Some allowed => k <-- choice_unif g (List.length allowed);; se_ret (nth k allowed [])
    | None => choice_distinct g (Nat.log2 (2 ^ n)) (Nat.log2 (u_dim u)) end) st2 = (st3, Ok qs) /\
    placement n qs /\ (2 ^ List.length qs)%nat = u_dim u).
  { destruct (p_allowed pr) as [ls|] eqn:PA.
    - unfold usable in Hus. rewrite PA in Hus.
      assert (LN : List.length ls <> 0%nat) by (destruct ls; [discriminate|simpl; lia]).
      unfold choice_unif. unfold se_bind. destruct (Nat.eqb_spec (List.length ls) 0); [contradiction|].
      do 2 eexists. split; [reflexivity|].
      destruct (HA ltac:(destruct ls; [discriminate|congruence]) (r_draws st2)) as [P1 P2]. split; [exact P1|now rewrite Du].
    - destruct HA as (k & Hk & Dk). rewrite Du, Dk, !Nat.log2_pow2 by lia.
      unfold choice_distinct. destruct (Nat.ltb_spec n k); [lia|].
      do 2 eexists. split; [reflexivity|].
      destruct G as (_ & _ & G3). destruct (firstn_perm_placement n k _ Hk (G3 (r_draws st2) n)) as [P1 P2].
      split; [exact P1|now rewrite P2]. }
  destruct C as (st3 & qs & E3 & P & L). rewrite (bind_eq _ _ _ _ _ E3). clear E3.
  assert (X : exists e, mk_entry u (map Z.of_nat qs) = Ok e).
  { apply mk_entry_iff. destruct P as (P1 & P2 & P3). split; [|split; [|split]].
    - destruct qs; [congruence|discriminate].
    - apply FinFun.Injective_map_NoDup; auto. intros x y. apply Nat2Z.inj.
    - intros q Hq. apply in_map_iff in Hq. destruct Hq as (y & <- & _). lia.
    - now rewrite map_length. }
  destruct X as [e X].
  destruct (step eps (NewEntry u (map Z.of_nat qs)) (r_world st3)) as [w' r] eqn:ES.
  assert (exists l, r = Ok (VEntry l)) as [l ->].
  { revert ES. cbn [step]. rewrite X. intros ES. injection ES as _ <-. eauto. }
  exists {| r_world := w'; r_draws := r_draws st3 |}, l, (u, qs).
  destruct (new_entry_view eps _ _ _ _ _ ES) as (l' & E & HG & _). injection E as <-. rewrite to_of_nat in HG.
  split; [|split; auto]. unfold call_entry, se_bind, call. now rewrite ES.
Qed.

Lemma create_entries_total p k : forall st,
  good_primitive eps n p -> (k <> 0%nat -> p_allowed p <> Some [] /\ lim0 n 2) ->
  WG eps anyg (r_world st) ->
  exists st' ls gs, create_entries g eps (2 ^ n) p k st = (st', Ok ls) /\
    Forall2 (has_gate (r_world st')) ls gs /\ Forall (fun gt => placement n (snd gt)) gs /\ WG eps anyg (r_world st').
Proof.
  induction k as [|k IH]; intros st HP HN HW; cbn [create_entries].
  - exists st, [], []. split; [reflexivity|]. split; [constructor|]. split; [constructor|exact HW].
  - destruct (create_total [p] None st) as (st1 & l & gt & E1 & HG & P).
    + intros q [->|[]]. now apply good_drawn.
    + split; [|exact I]. simpl. destruct (HN ltac:(lia)) as [HN1 _]. unfold usable.
      destruct (p_allowed p) as [[|]|]; [congruence|discriminate|discriminate].
    + apply HN. lia.
    + rewrite (bind_eq _ _ _ _ _ E1). apply (create_ok g eps G) in E1. destruct E1 as (_ & _ & _ & Sp).
      assert (HW1 : WG eps anyg (r_world st1)) by (now apply (Sp 0%nat)).
      destruct (IH st1 HP ltac:(intros _; apply HN; lia) HW1) as (st2 & ls & gs & E2 & F & PP & HW2).
      rewrite (bind_eq _ _ _ _ _ E2).
      destruct (create_entries_ok g eps G _ _ _ _ _ _ E2 HW1) as (gs' & F' & _ & _ & Sp2).
      exists st2, (l :: ls), (gt :: gs). split; [reflexivity|]. split; [|split; auto].
      constructor; auto. apply (Sp2 0%nat); auto.
Qed.

Definition good_counts (counts : list (primitive * Z)) : Prop :=
  Forall (fun pc => good_primitive eps n (fst pc) /\ ((0 < snd pc)%Z -> p_allowed (fst pc) <> Some [])) counts.

Lemma layer_loop_total counts : good_counts counts -> (layer_size counts <> 0%nat -> lim0 n 2) -> forall st,
  WG eps anyg (r_world st) ->
  exists st' ls gs, create_layer_loop g eps (2 ^ n) counts st = (st', Ok ls) /\
    Forall2 (has_gate (r_world st')) ls gs /\ Forall (fun gt => placement n (snd gt)) gs.
Proof.
  induction 1 as [|[p c] t [HP HN] _ IH]; intros HL st HW; cbn [create_layer_loop].
  - exists st, [], []. split; [reflexivity|]. split; constructor.
  - destruct (create_entries_total p (Z.to_nat c) st HP) as (st1 & ls1 & gs1 & E1 & F1 & P1 & HW1); auto.
    { intros X. split; [apply HN; cbn [snd]; lia|apply HL; cbn [layer_size fold_right snd]; lia]. }
    rewrite (bind_eq _ _ _ _ _ E1).
    destruct (IH ltac:(intros X; apply HL; cbn [layer_size fold_right snd]; unfold layer_size in X; lia) st1 HW1) as (st2 & ls2 & gs2 & E2 & F2 & P2). rewrite (bind_eq _ _ _ _ _ E2).
    exists st2, (ls1 ++ ls2), (gs1 ++ gs2). split; [reflexivity|]. split; [|now apply Forall_app].
    apply Forall2_app; auto.
    destruct (create_layer_loop_ok g eps G _ _ _ _ _ E2 HW1) as (_ & _ & _ & Sp).
    eapply has_gates_spares; eauto.
Qed.

Lemma layer_total counts st : good_counts counts -> (layer_size counts <> 0%nat -> lim0 n 2) -> WG eps anyg (r_world st) ->
  exists st' ls gs, create_random_layer g eps (2 ^ n) counts st = (st', Ok ls) /\
    Forall2 (has_gate (r_world st')) ls gs /\ Forall (fun gt => placement n (snd gt)) gs.
Proof.
  intros HC HL HW. destruct (layer_loop_total counts HC HL st HW) as (st1 & ls & gs & E & F & P).
  unfold create_random_layer. rewrite (bind_eq _ _ _ _ _ E). unfold shuffle.
  do 2 eexists. eexists. split; [reflexivity|]. cbn [r_world].
  destruct G as (_ & _ & G3). specialize (G3 (r_draws st1) (List.length ls)).
  split.
  - apply (Forall2_nth_perm _ ls gs 0%nat (e_unitary no_entry, [])); auto.
    intros i Hi. apply (Permutation_in _ G3) in Hi. apply in_seq in Hi. lia.
  - eapply Permutation_Forall; [apply Permutation_sym; apply nth_permutation|exact P].
    rewrite <- (F2_length _ _ _ F). exact G3.
Qed.

(** ** Changes *)
Definition total_change (k : nat) (change : nat -> CM unit) (c0 : compiler) : Prop :=
  forall bt s st K cs pv, winv K (r_world st) -> sees (r_world st) s (2 ^ n) cs pv -> lim n (uc * (K + k)) ->
    exists st', change s (st, set_beta c0 bt) = ((st', set_beta c0 bt), Ok tt).

Lemma good_actions ap : (0 <= ap <= 1)%R ->
  good_probabilities 4 [(ap / INR 2)%R; (ap / INR 2)%R; ((1 - ap) / INR 2)%R; ((1 - ap) / INR 2)%R].
Proof.
  intros H. simpl INR. split; [reflexivity|]. split.
  - intros x [<-|[<-|[<-|[<-|[]]]]]; lra.
  - cbn [fold_right]. match goal with |- (Rabs ?x <= _)%R => replace x with 0%R by field end.
    rewrite Rabs_R0. apply Rlt_le. apply Rinv_0_lt_compat. apply pow_lt. lra.
Qed.

Lemma choose_total ap st : (0 <= ap <= 1)%R -> exists st' a,
  choose_action g ap st = (st', Ok a) /\ r_world st' = r_world st.
Proof.
  intros H. destruct (choice_p_good g 4 _ st G ltac:(lia) (good_actions ap H)) as (i & E & _).
  exists {| r_world := r_world st; r_draws := S (r_draws st) |}, (nth i actions ActRemoveLast).
  split; [|reflexivity]. exact (bind_eq _ (fun i => se_ret (nth i actions ActRemoveLast)) _ _ _ E).
Qed.

Lemma total_single c0 :
  c_dim c0 = (2 ^ n)%nat -> (0 <= c_append c0 <= 1)%R ->
  (forall p, In p (c_prims c0) -> drawn_ok p) -> choosable (c_prims c0) (c_probs c0) ->
  Forall (safe_primitive eps safe) (c_prims c0) ->
  total_change 1 (make_random_change g eps) c0.
Proof.
  intros Hd Ha HP HC HS bt s st K cs pv HW S L.
  destruct (choose_total (c_append c0) st Ha) as (st1 & a & E1 & W1).
  unfold make_random_change. unfold se_bind at 1, c_self. cbn [snd].
  rewrite (bind_eq _ _ _ _ _ (c_run_eq _ _ _ _ _ E1)). rewrite <- W1 in HW, S. clear E1 W1.
  assert (A : forall mk : nat -> bool -> op,
    (forall w l gt, winv K w -> sees w s (2 ^ n) cs pv -> has_gate w l gt -> placement n (snd gt) ->
       exists w', step eps (mk l true) w = (w', Ok VNone)) ->
    exists st', (l <-- c_run (create_random_sequence_entry g eps (c_dim (set_beta c0 bt)) (c_prims (set_beta c0 bt)) (c_probs (set_beta c0 bt)));;
     c_run (call eps (mk l true));;; se_ret tt) (st1, set_beta c0 bt) = ((st', set_beta c0 bt), Ok tt)).
  { intros mk Hmk. cbn [set_beta c_dim c_prims c_probs]. rewrite Hd.
    destruct (create_total (c_prims c0) (c_probs c0) st1 HP HC (lim_two (K + 1) ltac:(lia) L)) as (st2 & l & gt & E2 & HG & P).
    rewrite (bind_eq _ _ _ _ _ (c_run_eq _ _ _ _ _ E2)).
    assert (HW2 : winv (K + 0) (r_world st2)).
    { apply (evolves_winv eps eps0 eps1 b K 0 (r_world st1)); auto.
      pose proof (create_traced g eps G safe 0 (2 ^ n) (c_prims c0) (c_probs c0) HS st1) as T. now rewrite E2 in T. }
    rewrite Nat.add_0_r in HW2.
    apply (create_ok g eps G) in E2. destruct E2 as (_ & _ & _ & Sp).
    destruct (proj1 (proj2 (Sp s)) _ _ _ S) as [S2 _].
    destruct (Hmk (r_world st2) l gt HW2 S2 HG P) as (w' & E3).
    rewrite (bind_eq _ _ _ _ _ (c_run_eq _ _ _ _ _ (call_eq _ _ _ _ E3))). eexists. reflexivity. }
  replace (K + 1)%nat with (Datatypes.S K) in L by lia.
  destruct a.
  - apply A. intros. eapply append_first_total; eauto.
  - apply A. intros. eapply append_last_total; eauto.
  - destruct (remove_first_total K (r_world st1) s cs pv true HW S L) as (w' & E).
    rewrite (bind_eq _ _ _ _ _ (c_run_eq _ _ _ _ _ (call_eq _ _ _ _ E))). eexists. reflexivity.
  - destruct (remove_last_total K (r_world st1) s cs pv true HW S L) as (w' & E).
    rewrite (bind_eq _ _ _ _ _ (c_run_eq _ _ _ _ _ (call_eq _ _ _ _ E))). eexists. reflexivity.
Qed.

Lemma append_all_total (mk : nat -> bool -> op) s
  (HF : mk = AppendFirst s \/ mk = AppendLast s) ls : forall gs first st K cs pv,
  winv K (r_world st) -> sees (r_world st) s (2 ^ n) cs pv ->
  Forall2 (has_gate (r_world st)) ls gs -> Forall (fun gt => placement n (snd gt)) gs ->
  lim n (uc * (K + List.length ls)) ->
  exists st', append_all eps mk ls first st = (st', Ok tt).
Proof.
  induction ls as [|l ls IH]; intros gs first st K cs pv HW S F P L; cbn [append_all].
  { eexists. reflexivity. }
  inversion F as [|? gt ? gs' F1 F2]; subst. inversion P as [|? ? P1 P2]; subst.
  assert (L1 : lim n (uc * Datatypes.S K)) by (eapply lim_le; [|exact L]; simpl; nia).
  assert (E : exists w' cs' pv', step eps (mk l first) (r_world st) = (w', Ok VNone) /\
     sees w' s (2 ^ n) cs' pv' /\ heap_ext (w_heap (r_world st)) (w_heap w') /\ winv (Datatypes.S K) w').
  { destruct HF as [->| ->].
    - destruct (append_first_total K (r_world st) s cs pv l gt first HW S F1 P1 L1) as (w' & E).
      destruct (append_first_view eps _ _ _ _ _ _ _ _ _ _ S F1 E) as (S1 & _ & X).
      exists w'. do 2 eexists. split; [exact E|]. split; [exact S1|]. split; auto.
      pose proof (step_winv eps eps0 eps1 b (AppendFirst s l first) K (r_world st) I HW) as T. now rewrite E in T.
    - destruct (append_last_total K (r_world st) s cs pv l gt first HW S F1 P1 L1) as (w' & E).
      destruct (append_last_view eps _ _ _ _ _ _ _ _ _ _ S F1 E) as (S1 & _ & X).
      exists w'. do 2 eexists. split; [exact E|]. split; [exact S1|]. split; auto.
      pose proof (step_winv eps eps0 eps1 b (AppendLast s l first) K (r_world st) I HW) as T. now rewrite E in T. }
  destruct E as (w' & cs' & pv' & E & S1 & X & HW1). rewrite (bind_eq _ _ _ _ _ (call_eq _ _ _ _ E)).
  apply (IH gs' false _ (Datatypes.S K) cs' pv'); auto.
  - eapply has_gates_ext; eauto.
  - eapply lim_le; [|exact L]. simpl. nia.
Qed.

Lemma remove_all_total (mk : bool -> op) s
  (HF : mk = RemoveFirst s \/ mk = RemoveLast s) k : forall first st K cs pv,
  winv K (r_world st) -> sees (r_world st) s (2 ^ n) cs pv ->
  lim n (uc * (K + k)) ->
  exists st', remove_all eps mk k first st = (st', Ok tt).
Proof.
  induction k as [|k IH]; intros first st K cs pv HW S L; cbn [remove_all].
  { eexists. reflexivity. }
  assert (L1 : lim n (uc * Datatypes.S K)) by (eapply lim_le; [|exact L]; simpl; nia).
  assert (E : exists w' cs' pv', step eps (mk first) (r_world st) = (w', Ok VNone) /\
     sees w' s (2 ^ n) cs' pv' /\ winv (Datatypes.S K) w').
  { destruct HF as [->| ->].
    - destruct (remove_first_total K (r_world st) s cs pv first HW S L1) as (w' & E).
      destruct (remove_first_view eps _ _ _ _ _ _ _ _ S E) as (S1 & _).
      exists w'. do 2 eexists. split; [exact E|]. split; [exact S1|].
      pose proof (step_winv eps eps0 eps1 b (RemoveFirst s first) K (r_world st) I HW) as T. now rewrite E in T.
    - destruct (remove_last_total K (r_world st) s cs pv first HW S L1) as (w' & E).
      destruct (remove_last_view eps _ _ _ _ _ _ _ _ S E) as (S1 & _).
      exists w'. do 2 eexists. split; [exact E|]. split; [exact S1|].
      pose proof (step_winv eps eps0 eps1 b (RemoveLast s first) K (r_world st) I HW) as T. now rewrite E in T. }
  destruct E as (w' & cs' & pv' & E & S1 & HW1). rewrite (bind_eq _ _ _ _ _ (call_eq _ _ _ _ E)).
  apply (IH false _ (Datatypes.S K) cs' pv'); auto.
  eapply lim_le; [|exact L]. simpl. nia.
Qed.

Lemma total_layered c0 counts :
  c_dim c0 = (2 ^ n)%nat -> (0 <= c_append c0 <= 1)%R -> good_counts counts ->
  Forall (fun pc => safe_primitive eps safe (fst pc)) counts ->
  total_change (layer_size counts) (make_random_change_layered g eps counts) c0.
Proof.
  intros Hd Ha HC HS bt s st K cs pv HW S L.
  destruct (choose_total (c_append c0) st Ha) as (st1 & a & E1 & W1).
  unfold make_random_change_layered. unfold se_bind at 1, c_self. cbn [snd].
  rewrite (bind_eq _ _ _ _ _ (c_run_eq _ _ _ _ _ E1)). rewrite <- W1 in HW, S. clear E1 W1.
  assert (A : forall mk : nat -> bool -> op, mk = AppendFirst s \/ mk = AppendLast s ->
    exists st', (ls <-- c_run (create_random_layer g eps (c_dim (set_beta c0 bt)) counts);;
     c_run (append_all eps mk ls true)) (st1, set_beta c0 bt) = ((st', set_beta c0 bt), Ok tt)).
  { intros mk Hmk. cbn [set_beta c_dim]. rewrite Hd.
    destruct (layer_total counts st1 HC (fun X => lim_two (K + layer_size counts) ltac:(lia) L) (sees_W _ _ _ _ _ _ S)) as (st2 & ls & gs & E2 & F & P).
    rewrite (bind_eq _ _ _ _ _ (c_run_eq _ _ _ _ _ E2)).
    assert (HW2 : winv (K + 0) (r_world st2)).
    { apply (evolves_winv eps eps0 eps1 b K 0 (r_world st1)); auto.
      pose proof (layer_traced g eps G safe (2 ^ n) counts HS st1) as T. now rewrite E2 in T. }
    rewrite Nat.add_0_r in HW2.
    destruct (create_layer_ok g eps G _ _ _ _ _ E2 (sees_W _ _ _ _ _ _ S)) as (_ & _ & _ & _ & _ & Sp).
    destruct (proj1 (proj2 (Sp s)) _ _ _ S) as [S2 _].
    destruct (append_all_total mk s Hmk ls gs true st2 K cs pv HW2 S2 F P) as (st3 & E3).
    { now rewrite (layer_length_ok g eps G _ _ _ _ _ E2). }
    rewrite (c_run_eq _ _ _ _ _ E3). eauto. }
  assert (LL := layer_length_size counts).
  assert (L1 : lim n (uc * (K + Z.to_nat (layer_length counts)))) by (eapply lim_le; [|exact L]; nia).
  destruct a; [apply A; auto|apply A; auto| |].
  - destruct (remove_all_total (RemoveFirst s) s (or_introl eq_refl) _ true st1 K cs pv HW S L1) as (st' & E).
    rewrite (c_run_eq _ _ _ _ _ E). eauto.
  - destruct (remove_all_total (RemoveLast s) s (or_intror eq_refl) _ true st1 K cs pv HW S L1) as (st' & E).
    rewrite (c_run_eq _ _ _ _ _ E). eauto.
Qed.

(** ** Steps and runs *)
Lemma distance_total u v i : u_inverse eps u = Ok i -> u_dim u = u_dim v ->
  exists r, u_distance_from eps u v = Ok r.
Proof.
  intros E D. unfold u_distance_from, u_distance_from_array. cbn [nrows ncols square].
  rewrite D, Nat.eqb_refl. cbn [andb assert bind]. rewrite E. cbn [bind]. eauto.
Qed.

Lemma rough_near u : rough eps u -> u_dim u = (2 ^ n)%nat -> lim0 n 2 -> near0 n 2 (ideal eps u) u.
Proof.
  intros Hr D L. assert (T : tame eps (u_dim u)).
  { rewrite D. eapply lim_tame; eauto. }
  assert (N := ideal_near eps eps0 u Hr T). assert (S := ideal_special eps eps0 u). destruct Hr as (_ & De & _).
  rewrite D in *. split; [auto|]. split; [exact S|]. split; [exact De|].
  eapply Rle_trans; [exact N|]. apply err_2; auto.
Qed.

Lemma made_inverse u : made eps u -> u_dim u = (2 ^ n)%nat -> lim0 n 3 -> exists i, u_inverse eps u = Ok i.
Proof.
  intros B D L.
  destruct (near_inverse eps eps0 n 2 _ _ (rough_near u (made_rough eps eps0 u B) D (lim_mono eps eps0 eps1 n 2 3 ltac:(lia) L)) L) as (i & E & _).
  eauto.
Qed.

Section Run.
Variables (change : nat -> CM unit) (Rel : list (unitary * list nat) -> list (unitary * list nat) -> Prop)
  (c0 : compiler) (k : nat) (target : unitary) (thr : option R) (max : Z).
Hypothesis H1 : change_ok eps change Rel c0.
Hypothesis H2 : forall s, ctraced eps safe c0 k (change s).
Hypothesis H3 : total_change k change c0.
Hypothesis Hd : c_dim c0 = (2 ^ n)%nat.
Hypothesis Ht : exists i, u_inverse eps target = Ok i.
Hypothesis Htd : u_dim target = (2 ^ n)%nat.

Lemma target_distance p : u_dim p = (2 ^ n)%nat -> exists r, u_distance_from eps target p = Ok r.
Proof. intros D. destruct Ht as [i E]. eapply distance_total; eauto. congruence. Qed.

Lemma step_total bt s st K cs pv :
  winv K (r_world st) -> sees (r_world st) s (2 ^ n) cs pv -> lim n (Datatypes.S (uc * (K + k))) ->
  exists st' b' cost, compile_step g eps change s target (st, set_beta c0 bt) = ((st', set_beta c0 b'), Ok cost).
Proof.
  intros HW S L. unfold compile_step. unfold se_bind at 1, anneal. cbn [snd fst]. rewrite set_beta_set.
  set (bt' := Rmin _ _). clearbody bt'.
  destruct (product_total K (r_world st) s cs pv HW S) as (w1 & p & E1 & N1 & A1 & A1' & S1 & HW1).
  { eapply lim_le; [|exact L]. nia. }
  rewrite (bind_eq _ _ _ _ _ (c_run_eq _ _ _ _ _ (call_unitary_eq _ _ _ _ E1))).
  set (st1 := {| r_world := w1; r_draws := r_draws st |}).
  destruct (H3 bt' s st1 K cs pv HW1 S1) as (st2 & E2).
  { eapply lim_le; [|exact L]. lia. }
  rewrite (bind_eq _ _ _ _ _ E2).
  rewrite <- Hd in S1.
  destruct (H1 bt' s st1 st2 _ cs pv S1 E2) as (_ & cs1 & pv1 & S2 & D). rewrite Hd in S1, S2.
  assert (HW2 : winv (K + k) (r_world st2)).
  { apply (evolves_winv eps eps0 eps1 b K k w1); auto.
    destruct (H2 s st1 bt') as [T _]. now rewrite E2 in T. }
  destruct (target_distance p (proj1 (proj1 N1))) as (current & Ec). rewrite Ec.
  unfold se_bind at 1, se_lift at 1.
  destruct (product_total (K + k) (r_world st2) s cs1 pv1 HW2 S2) as (w3 & p1 & E3 & N3 & A3 & A3' & S3 & HW3).
  { eapply lim_le; [|exact L]. nia. }
  rewrite (bind_eq _ _ _ _ _ (c_run_eq _ _ _ _ _ (call_unitary_eq _ _ _ _ E3))).
  destruct (target_distance p1 (proj1 (proj1 N3))) as (proposed & Ep). rewrite Ep.
  unfold se_bind at 1, se_lift at 1.
  unfold accept_proposed_change. unfold se_bind at 1. unfold se_bind at 1, c_self. cbn [snd].
  unfold se_bind at 1, c_run at 1, draw_unif. cbn [fst snd r_world r_draws se_ret].
  destruct (Rltb _ _) eqn:EA.
  - do 3 eexists. reflexivity.
  - destruct D as [[-> D]|[-> D]].
    + destruct (undo_view eps w3 s (2 ^ n) cs1 cs S3) as (w4 & E4 & _).
      do 3 eexists.
      rewrite (bind_eq _ _ _ _ _ (c_run_eq _ _ _ _ _
        (call_eq _ {| r_world := w3; r_draws := Datatypes.S (r_draws st2) |} _ _ E4))).
      reflexivity.
    + exfalso. assert (p1 = p) by (eapply answers_unique; [exact A3|apply D; exact A1']). subst p1.
      assert (proposed = current) by congruence. subst proposed.
      assert (T : (g_unif g (r_draws st2) < Rmin 1 (exp (- c_beta (set_beta c0 bt') * (current - current))))%R).
      { replace (- c_beta (set_beta c0 bt') * (current - current))%R with 0%R by ring.
        rewrite exp_0, Rmin_left by lra. apply G. }
      apply Rltb_spec in T. congruence.
Qed.

Lemma loop_total s : forall fuel bt st K cs pv costs,
  winv K (r_world st) -> sees (r_world st) s (2 ^ n) cs pv ->
  lim n (Datatypes.S (uc * (K + k * Z.to_nat (max - Z.of_nat (List.length costs))))) ->
  (Z.to_nat (max - Z.of_nat (List.length costs)) < fuel)%nat ->
  exists st' b' costs',
    compile_loop g eps change s target thr max costs fuel (st, set_beta c0 bt) = ((st', set_beta c0 b'), Ok costs').
Proof.
  induction fuel as [|fuel IH]; intros bt st K cs pv costs HW S L F; [lia|]. cbn [compile_loop].
  assert (L0 : lim n (Datatypes.S (uc * K))) by (eapply lim_le; [|exact L]; nia).
  destruct (product_total K (r_world st) s cs pv HW S) as (w1 & p & E1 & N1 & A1 & A1' & S1 & HW1).
  { eapply lim_le; [|exact L0]. lia. }
  rewrite (bind_eq _ _ _ _ _ (c_run_eq _ _ _ _ _ (call_unitary_eq _ _ _ _ E1))).
  destruct (nearb_inverse eps eps0 b n _ _ _ N1 L0) as (i & Ei & _).
  destruct (distance_total p target i Ei) as (r & Er).
  { rewrite (proj1 (proj1 N1)). congruence. }
  assert (EC : exists cl, u_close_to eps p target thr = Ok cl).
  { unfold u_close_to. rewrite Er. cbn [bind]. destruct thr; eauto. }
  destruct EC as (cl & EC). rewrite EC. unfold se_bind at 1, se_lift.
  destruct cl; [do 3 eexists; reflexivity|].
  destruct (Z.ltb_spec (Z.of_nat (List.length costs)) max) as [LT|]; [|do 3 eexists; reflexivity].
  remember (Z.to_nat (max - Z.of_nat (Datatypes.S (List.length costs)))) as m eqn:Em.
  assert (EM : Z.to_nat (max - Z.of_nat (List.length costs)) = Datatypes.S m) by lia.
  rewrite EM in L, F.
  destruct (step_total bt s {| r_world := w1; r_draws := r_draws st |} K cs pv HW1 S1) as (st2 & b2 & cost & E2).
  { eapply lim_le; [|exact L]. nia. }
  rewrite (bind_eq _ _ _ _ _ E2).
  rewrite <- Hd in S1.
  destruct (step_ok g eps G change Rel c0 bt s target {| r_world := w1; r_draws := r_draws st |} _ _ _ _ _ H1 S1 E2)
    as (_ & q1 & q2 & q3 & q4 & cs1 & q5 & _ & _ & _ & _ & _ & D).
  assert (X : exists cs2 pv2, sees (r_world st2) s (2 ^ n) cs2 pv2).
  { rewrite <- Hd. destruct D as [(_ & _ & [pv1 D] & _)|(_ & _ & D)]; eauto. }
  destruct X as (cs2 & pv2 & S2).
  assert (HW2 : winv (K + k) (r_world st2)).
  { apply (evolves_winv eps eps0 eps1 b K k w1); auto.
    destruct (step_traced g eps safe c0 k change s target H2 {| r_world := w1; r_draws := r_draws st |} bt) as [T _].
    now rewrite E2 in T. }
  assert (LC : List.length (costs ++ [cost]) = Datatypes.S (List.length costs)) by (rewrite app_length; simpl; lia).
  apply (IH b2 st2 (K + k)%nat cs2 pv2); auto.
  - rewrite LC, <- Em. eapply lim_le; [|exact L]. nia.
  - rewrite LC, <- Em. lia.
Qed.

Lemma with_total bt st K :
  winv K (r_world st) -> lim n (Datatypes.S (uc * (K + k * Z.to_nat max))) ->
  exists st' b' s costs,
    compile_with g eps change target thr max (st, set_beta c0 bt) = ((st', set_beta c0 b'), Ok (s, costs)).
Proof.
  intros HW L. unfold compile_with. unfold se_bind at 1, c_self. cbn [snd].
  destruct (new_sequence_view eps (r_world st) (c_dim c0) (winv_any _ _ _ _ HW)) as (w1 & E & S1).
  assert (HW1 := step_winv eps eps0 eps1 b (NewSequence (c_dim c0) false []) K (r_world st) I HW).
  rewrite E in HW1. cbn [fst cost1] in HW1. rewrite Nat.max_0_r in HW1.
  assert (EC : call_sequence eps (NewSequence (c_dim (set_beta c0 bt)) false []) st =
    ({| r_world := w1; r_draws := r_draws st |}, Ok (List.length (w_seqs (r_world st))))).
  { unfold call_sequence, se_bind, call. cbn [set_beta c_dim]. rewrite E. reflexivity. }
  rewrite (bind_eq _ _ _ _ _ (c_run_eq _ _ _ _ _ EC)).
  rewrite Hd in S1.
  destruct (loop_total (List.length (w_seqs (r_world st))) (Datatypes.S (Z.to_nat max)) bt
    {| r_world := w1; r_draws := r_draws st |} K [] None [] HW1 S1) as (st' & b' & costs & EL).
  { simpl. rewrite Z.sub_0_r. exact L. }
  { simpl. lia. }
  rewrite (bind_eq _ _ _ _ _ EL). do 4 eexists. reflexivity.
Qed.
End Run.
End Total.
