(** Subsets of terms and the primitives of STOQ: C44. *)
From Coq Require Import Reals List Arith Bool String ZArith Lra Lia Permutation Sorted.
From Coquelicot Require Import Complex.
From Verif Require PBits.
From Verif Require Import Base CMat CMatFacts Det DetFacts Norms CRoot Expm ExpmFacts ExpmBounds ModelUnitary ModelEntry
  ModelPrimitive ModelSequence ModelCompiler ModelVerification ModelGates ModelHamiltonian Spec SpecModel
  SpecCompiler SpecGates SpecHamiltonian PUnitary PDrift PEmbed PEntry PSeqHeap PSeqMeth PSeqNear PSeqWorld PSeqUndo
  PCompView PCompRun PCompEntry PCompProps PSeqInv PVerify PGates PHam PHamTerm PHamSeq PHamRun PHamTrot.
Import ListNotations.
Open Scope R_scope.
Open Scope C_scope.
Open Scope res_scope.

(** * Combinations *)
Definition between (a b : nat) (l : list nat) : Prop :=
  StronglySorted lt l /\ forall i, In i l -> (a <= i < b)%nat.

Lemma combinations_between n : forall a k l,
  In l (combinations (seq a n) k) <-> List.length l = k /\ between a (a + n) l.
Proof.
  induction n as [|n IH]; intros a k l.
  - destruct k; simpl.
    + split.
      * intros [<-|[]]. split; [reflexivity|]. split; [constructor|intros i []].
      * intros [L _]. left. destruct l; [reflexivity|discriminate].
    + split; [intros []|]. intros [L [_ B]]. destruct l as [|x l]; [discriminate|].
      specialize (B x (or_introl eq_refl)). lia.
  - destruct k; cbn [seq combinations].
    + split.
      * intros [<-|[]]. split; [reflexivity|]. split; [constructor|intros i []].
      * intros [L _]. left. destruct l; [reflexivity|discriminate].
    + rewrite in_app_iff, in_map_iff, IH. split.
      * intros [(l' & <- & H)|[L [S B]]].
        -- apply IH in H. destruct H as [L [S B]]. split; [simpl; congruence|]. split.
           ++ constructor; auto. apply Forall_forall. intros y Hy. specialize (B y Hy). lia.
           ++ intros i [<-|Hi]; [lia|]. specialize (B i Hi). lia.
        -- split; [exact L|]. split; [exact S|]. intros i Hi. specialize (B i Hi). lia.
      * intros [L [S B]]. destruct l as [|x l]; [discriminate|]. apply StronglySorted_inv in S.
        destruct S as [S F]. rewrite Forall_forall in F.
        destruct (Nat.eq_dec x a) as [->|NE].
        -- left. exists l. split; [reflexivity|]. apply IH. split; [simpl in L; lia|]. split; [exact S|].
           intros i Hi. specialize (F i Hi). specialize (B i (or_intror Hi)). lia.
        -- right. split; [exact L|]. assert (Bx := B x (or_introl eq_refl)). split.
           ++ constructor; auto. now apply Forall_forall.
           ++ intros i [<-|Hi]; [lia|]. specialize (F i Hi). specialize (B i (or_intror Hi)). lia.
Qed.

Lemma NoDup_app_intro {A} (l l' : list A) : NoDup l -> NoDup l' -> (forall x, In x l -> ~ In x l') -> NoDup (l ++ l').
Proof.
  induction 1 as [|x l H _ IH]; intros N D; [exact N|]. cbn [app]. constructor.
  - rewrite in_app_iff. intros [K|K]; [contradiction|]. apply (D x); simpl; auto.
  - apply IH; auto. intros y Hy. apply D. simpl. auto.
Qed.

Lemma NoDup_map_cons {A} (x : A) l : NoDup l -> NoDup (map (cons x) l).
Proof. intros H. apply FinFun.Injective_map_NoDup; auto. intros a b E. congruence. Qed.

Lemma combinations_NoDup n : forall a k, NoDup (combinations (seq a n) k).
Proof.
  induction n as [|n IH]; intros a [|k]; cbn [seq combinations]; try (constructor; [intros []|constructor]); [constructor|].
  apply NoDup_app_intro; [apply NoDup_map_cons, IH|apply IH|].
  intros l H1 H2. apply in_map_iff in H1. destruct H1 as (l' & <- & _).
  apply combinations_between in H2. destruct H2 as [_ [_ B]]. specialize (B a (or_introl eq_refl)). lia.
Qed.

Lemma NoDup_flat_map {A B} (f : A -> list B) l : NoDup l -> (forall x, NoDup (f x)) ->
  (forall x y b, In b (f x) -> In b (f y) -> x = y) -> NoDup (flat_map f l).
Proof.
  intros N H D. induction N as [|x l NI _ IH]; [constructor|]. cbn [flat_map].
  apply NoDup_app_intro; auto. intros b Hb K. apply in_flat_map in K. destruct K as (y & Hy & Kb).
  rewrite (D x y b Hb Kb) in NI. contradiction.
Qed.

Lemma ascending_length n l : ascending_below n l -> (List.length l <= n)%nat.
Proof.
  intros [S B]. rewrite <- (seq_length n 0). apply NoDup_incl_length.
  - clear B. induction S as [|x l _ IH F]; constructor; auto. rewrite Forall_forall in F.
    intros Hx. specialize (F x Hx). lia.
  - intros i Hi. apply in_seq. specialize (B i Hi). lia.
Qed.

Lemma subset_indices_spec L b : term_subsets L b (subset_indices L b).
Proof.
  destruct b; [|reflexivity]. split.
  - cbn [subset_indices]. apply NoDup_flat_map; [apply seq_NoDup|intros; apply combinations_NoDup|].
    intros x y l H1 H2. apply combinations_between in H1. apply combinations_between in H2.
    destruct H1, H2. congruence.
  - intros l. cbn [subset_indices]. rewrite in_flat_map. split.
    + intros (k & Hk & Hl). apply in_seq in Hk. apply combinations_between in Hl. destruct Hl as [Ll [S B]].
      split; [intros ->; simpl in Ll; lia|]. split; [exact S|]. intros i Hi. apply B in Hi. lia.
    + intros [NE A]. exists (List.length l). assert (LL := ascending_length _ _ A). split.
      * apply in_seq. destruct l; [congruence|]. simpl in *. lia.
      * apply combinations_between. split; [reflexivity|]. destruct A as [S B]. split; [exact S|].
        intros i Hi. specialize (B i Hi). lia.
Qed.

(** All ascending lists, for counting. *)
Fixpoint powerset (a n : nat) : list (list nat) :=
  match n with
  | O => [[]]
  | S k => map (cons a) (powerset (S a) k) ++ powerset (S a) k
  end.
Lemma powerset_length n : forall a, List.length (powerset a n) = (2 ^ n)%nat.
Proof.
  induction n as [|n IH]; intros a; [reflexivity|]. cbn [powerset]. rewrite app_length, map_length, IH. simpl. lia.
Qed.
Lemma powerset_between n : forall a l, In l (powerset a n) <-> between a (a + n) l.
Proof.
  induction n as [|n IH]; intros a l; cbn [powerset].
  - split.
    + intros [<-|[]]. split; [constructor|intros i []].
    + intros [_ B]. left. destruct l as [|x l]; [reflexivity|]. specialize (B x (or_introl eq_refl)). lia.
  - rewrite in_app_iff, in_map_iff, IH. split.
    + intros [(l' & <- & H)|[S B]].
      * apply IH in H. destruct H as [S B]. split.
        -- constructor; auto. apply Forall_forall. intros y Hy. specialize (B y Hy). lia.
        -- intros i [<-|Hi]; [lia|]. specialize (B i Hi). lia.
      * split; [exact S|]. intros i Hi. specialize (B i Hi). lia.
    + intros [S B]. destruct l as [|x l].
      * right. split; [constructor|intros i []].
      * apply StronglySorted_inv in S. destruct S as [S F]. rewrite Forall_forall in F.
        destruct (Nat.eq_dec x a) as [->|NE].
        -- left. exists l. split; [reflexivity|]. apply IH. split; [exact S|].
           intros i Hi. specialize (F i Hi). specialize (B i (or_intror Hi)). lia.
        -- right. assert (Bx := B x (or_introl eq_refl)). split.
           ++ constructor; auto. now apply Forall_forall.
           ++ intros i [<-|Hi]; [lia|]. specialize (F i Hi). specialize (B i (or_intror Hi)). lia.
Qed.
Lemma powerset_NoDup n : forall a, NoDup (powerset a n).
Proof.
  induction n as [|n IH]; intros a; cbn [powerset]; [constructor; [intros []|constructor]|].
  apply NoDup_app_intro; [apply NoDup_map_cons, IH|apply IH|].
  intros l H1 H2. apply in_map_iff in H1. destruct H1 as (l' & <- & _).
  apply powerset_between in H2. destruct H2 as [_ B]. specialize (B a (or_introl eq_refl)). lia.
Qed.

Lemma term_subsets_count L ls : term_subsets L true ls -> List.length ls = (2 ^ L - 1)%nat.
Proof.
  intros [N H]. assert (P : Permutation ([] :: ls) (powerset 0 L)).
  { apply NoDup_Permutation.
    - constructor; auto. intros K. apply H in K. tauto.
    - apply powerset_NoDup.
    - intros l. rewrite powerset_between. cbn [In]. rewrite H. unfold ascending_below, between. split.
      + intros [<-|[_ [S B]]]; [split; [constructor|intros i []]|]. split; [exact S|]. intros i Hi. specialize (B i Hi). lia.
      + intros [S B]. destruct l as [|x l]; [auto|]. right. split; [discriminate|]. split; [exact S|].
        intros i Hi. specialize (B i Hi). lia. }
  apply Permutation_length in P. rewrite powerset_length in P. simpl in P. lia.
Qed.

Lemma term_subsets_bound L b ls l : term_subsets L b ls -> In l ls -> forall i, In i l -> (i < L)%nat.
Proof.
  destruct b; cbn [term_subsets].
  - intros [_ H] Hl i Hi. apply H in Hl. now apply Hl.
  - intros -> Hl i Hi. apply in_map_iff in Hl. destruct Hl as (k & <- & Hk). apply in_seq in Hk.
    destruct Hi as [<-|[]]. lia.
Qed.

(** * The primitives *)
Lemma join_plus_concat l : join_plus l = String.concat "+" l.
Proof.
  induction l as [|s l IH]; [reflexivity|]. destruct l as [|s' l]; [reflexivity|].
  change (join_plus (s :: s' :: l)) with (s ++ "+" ++ join_plus (s' :: l))%string. rewrite IH. reflexivity.
Qed.

Lemma pick_terms_ok d Ms ts : Forall2 (term_of d) Ms ts -> forall l, (forall i, In i l -> (i < List.length Ms)%nat) ->
  exists sub, pick_terms ts l = Ok sub /\ Forall2 (term_of d) (map (fun i => nth i Ms mzero) l) sub.
Proof.
  intros F. assert (LT := F2_length _ _ _ F). induction l as [|i l IH]; intros H.
  - exists []. split; [reflexivity|constructor].
  - destruct IH as (sub & E & FS); [intros j Hj; apply H; simpl; auto|].
    assert (Hi : (i < List.length Ms)%nat) by (apply H; simpl; auto).
    destruct (nth_error ts i) as [x|] eqn:Ex; [|apply nth_error_None in Ex; lia].
    exists (x :: sub). cbn [pick_terms map]. rewrite Ex, E. cbn [bind]. split; [reflexivity|]. constructor; [|exact FS].
    clear - F Ex. revert i Ex. induction F as [|M y Ms ts H F IH]; intros [|i] Ex; try discriminate.
    + injection Ex as <-. exact H.
    + apply (IH i). exact Ex.
Qed.

Lemma mapM_ok {A B} (f : A -> res B) (P : A -> B -> Prop) l : (forall x, In x l -> exists y, f x = Ok y /\ P x y) ->
  exists r, mapM f l = Ok r /\ Forall2 P l r.
Proof.
  induction l as [|x l IH]; intros H; [exists []; split; [reflexivity|constructor]|].
  destruct (H x (or_introl eq_refl)) as (y & E & HP). destruct IH as (r & Er & F); [intros; apply H; simpl; auto|].
  exists (y :: r). cbn [mapM]. rewrite E, Er. cbn [bind]. split; [reflexivity|]. constructor; auto.
Qed.

Lemma evolution_meq d A B t E : meq d A B -> evolution d A t E -> evolution d B t E.
Proof.
  intros H K. unfold evolution in *. eapply is_expm_meq; [|exact K].
  intros i j Hi Hj. now rewrite (H i j Hi Hj).
Qed.

Definition at_t (p : primitive) (T : R) : Prop :=
  exists pu, p_source p = Family pu /\
    pu_params pu = [{| pr_name := "t"; pr_min := - T; pr_max := T; pr_angle := false |}].

Lemma subset_primitive_ok eps n Ms h T l : (1 <= n)%nat -> small_drift eps n 1 -> hamiltonian_of (2 ^ n) Ms h ->
  (0 <= T)%R -> (forall i, In i l -> (i < List.length Ms)%nat) ->
  exists p, subset_primitive eps h T l = Ok p /\ evolves_subset eps n Ms T l p /\ good_primitive eps n p /\ at_t p T.
Proof.
  intros N1 SD HH T0 Hl. destruct (ham_facts _ _ _ HH) as (DP & D & _ & F).
  destruct (pick_terms_ok _ _ _ F l Hl) as (sub & Es & FS).
  assert (ES := sum_total _ _ _ FS). assert (HT := total_hermitian _ _ _ FS).
  assert (HS : hermitian_mx (2 ^ n) (sum_matrices sub)) by (eapply hermitian_meq; [symmetry; exact ES|exact HT]).
  assert (TT : (- T <= T)%R) by lra.
  destruct (C39_family_lemma eps n (sum_matrices sub) (- T) T (join_plus (map str_nat l)) SD HS) as [FAM _].
  destruct (FAM TT) as (pu & Epu & Dpu & Npu & Fin & Fout).
  assert (E2 := pd_te_ok eps (2 ^ n) (sum_matrices sub) (- T) T (join_plus (map str_nat l)) DP HS TT).
  assert (EP : pu = {| pu_dim := 2 ^ n; pu_matrix := evolution_matrix eps (2 ^ n) (sum_matrices sub) (join_plus (map str_nat l));
                 pu_params := [{| pr_name := "t"; pr_min := - T; pr_max := T; pr_angle := false |}];
                 pu_name := "H" ++ join_plus (map str_nat l) |}) by congruence.
  assert (MP : exists p, mk_primitive (Family pu) (Some [map Z.of_nat (seq 0 n)]) = Ok p).
  { apply mk_primitive_iff. intros ls [= <-] qs [<-|[]]. split; [|split; [|split]].
    - destruct n; [lia|discriminate].
    - apply FinFun.Injective_map_NoDup; [intros a b; apply Nat2Z.inj|apply seq_NoDup].
    - intros q Hq. apply in_map_iff in Hq. destruct Hq as (i & <- & _). lia.
    - rewrite map_length, seq_length. cbn [src_dim]. now rewrite Dpu. }
  destruct MP as (p & MP). exists p.
  assert (PS : p_source p = Family pu /\ p_allowed p = Some [seq 0 n]).
  { unfold mk_primitive in MP. destruct (forallb nodupb_Z _); cbn [assert bind] in MP; [|discriminate].
    destruct (forallb _ [map Z.of_nat (seq 0 n)]); cbn [assert bind] in MP; [|discriminate].
    destruct (existsb _ _); [discriminate|]. destruct (forallb (forallb _) _); cbn [assert bind] in MP; [|discriminate].
    injection MP as <-. cbn [p_source p_allowed map]. split; [reflexivity|]. do 2 f_equal. rewrite map_map.
    rewrite <- (map_id (seq 0 n)) at 2. apply map_ext. intros i. apply Nat2Z.id. }
  destruct PS as [PS PA]. split; [|split; [|split]].
  - unfold subset_primitive. rewrite Es. cbn [bind]. rewrite D, Epu. cbn [bind]. now rewrite (all_qubits_n h n D).
  - split; [exact PA|]. exists pu. split; [exact PS|]. split; [exact Dpu|]. split; [|split; [|exact Fout]].
    + rewrite EP. reflexivity.
    + intros t E Ht HE. rewrite <- join_plus_concat. apply Fin; auto. eapply evolution_meq; [symmetry; exact ES|exact HE].
  - unfold good_primitive. rewrite PS, PA. split.
    + rewrite EP. cbn [good_source pu_params pu_dim pu_matrix]. split.
      * intros q [<-|[]]. exact TT.
      * intros vs HV. unfold in_range in HV. inversion HV as [|q t ps vs' Ht HV']; subst. inversion HV'; subst.
        destruct (small_lim eps n 1 1 SD ltac:(lia)) as [E0 L].
        destruct (te_stands eps n (sum_matrices sub) _ t (join_plus (map str_nat l)) E0 L HT ES)
          as (u & c & Eu & _ & [_ MF] & Du & _).
        exists (u_mat u). cbn [evolution_matrix]. rewrite Eu. cbn [bind]. rewrite Du. split; [reflexivity|].
        right. exists u. auto.
    + intros qs [<-|[]]. split.
      * now apply placement_all.
      * cbn [src_dim]. now rewrite seq_length, Dpu.
  - exists pu. split; [exact PS|]. now rewrite EP.
Qed.

Lemma primitives_ok eps n Ms h T b : (1 <= n)%nat -> small_drift eps n 1 -> hamiltonian_of (2 ^ n) Ms h -> (0 <= T)%R ->
  exists ls ps, stoq_primitives eps h T b = Ok ps /\ term_subsets (List.length Ms) b ls /\
    Forall2 (fun l p => evolves_subset eps n Ms T l p /\ good_primitive eps n p /\ at_t p T) ls ps.
Proof.
  intros N1 SD HH T0. destruct (ham_facts _ _ _ HH) as (_ & D & _ & F). assert (LT := F2_length _ _ _ F).
  set (ls := subset_indices (List.length Ms) b).
  assert (TS : term_subsets (List.length Ms) b ls) by apply subset_indices_spec.
  destruct (mapM_ok (subset_primitive eps h T)
    (fun l p => evolves_subset eps n Ms T l p /\ good_primitive eps n p /\ at_t p T) ls) as (ps & Eps & FP).
  { intros l Hl. apply subset_primitive_ok; auto. intros i. now apply (term_subsets_bound (List.length Ms) b ls). }
  exists ls, ps. split; [|auto]. unfold stoq_primitives. rewrite <- LT. exact Eps.
Qed.

Lemma C44_subsets_lemma : forall n, term_subsets n true (subset_indices n true) /\
  List.length (subset_indices n true) = (2 ^ n - 1)%nat /\
  term_subsets n false (subset_indices n false).
Proof.
  intros n. split; [apply subset_indices_spec|]. split; [|apply subset_indices_spec].
  apply term_subsets_count, subset_indices_spec.
Qed.

Lemma C44_primitives_lemma : forall eps n Ms h T simultaneous, (1 <= n)%nat -> small_drift eps n 1 ->
  hamiltonian_of (2 ^ n) Ms h ->
  ((0 <= T)%R -> exists ls ps, stoq_primitives eps h T simultaneous = Ok ps /\
     term_subsets (List.length Ms) simultaneous ls /\
     Forall2 (fun l p => evolves_subset eps n Ms T l p /\ good_primitive eps n p) ls ps) /\
  ((T < 0)%R -> stoq_primitives eps h T simultaneous = Raise AssertionError).
Proof.
  intros eps n Ms h T b N1 SD HH. split.
  - intros T0. destruct (primitives_ok eps n Ms h T b N1 SD HH T0) as (ls & ps & E & TS & FP).
    exists ls, ps. split; [exact E|]. split; [exact TS|]. eapply F2_impl; [|exact FP]. intros l p (K1 & K2 & _). auto.
  - intros T0. destruct (ham_facts _ _ _ HH) as (DP & D & NE & F). assert (LT := F2_length _ _ _ F).
    assert (LP : (1 <= List.length Ms)%nat) by (destruct Ms; [congruence|simpl; lia]).
    unfold stoq_primitives. rewrite <- LT.
    assert (SH : exists l rest, subset_indices (List.length Ms) b = l :: rest).
    { destruct (subset_indices (List.length Ms) b) as [|l rest] eqn:E; [|eauto]. exfalso.
      assert (TS := subset_indices_spec (List.length Ms) b). rewrite E in TS. destruct b.
      - destruct TS as [_ TS]. apply (TS [0%nat]). split; [discriminate|]. split; [repeat constructor|].
        intros i [<-|[]]. lia.
      - cbn [term_subsets] in TS. destruct (List.length Ms); [lia|discriminate]. }
    destruct SH as (l & rest & SH). rewrite SH. cbn [mapM].
    assert (Hl : forall i, In i l -> (i < List.length Ms)%nat).
    { apply (term_subsets_bound (List.length Ms) b (subset_indices (List.length Ms) b)); [apply subset_indices_spec|].
      rewrite SH. simpl. auto. }
    destruct (pick_terms_ok _ _ _ F l Hl) as (sub & Es & FS).
    unfold subset_primitive. rewrite Es. cbn [bind].
    assert (HS : hermitian_mx (2 ^ n) (sum_matrices sub)).
    { eapply hermitian_meq; [symmetry; exact (sum_total _ _ _ FS)|exact (total_hermitian _ _ _ FS)]. }
    destruct (C39_family_lemma eps n (sum_matrices sub) (- T) T (join_plus (map str_nat l)) SD HS) as [_ BAD].
    rewrite D, BAD by lra. reflexivity.
Qed.
