(** One step of compile(): the decision tree over the answers, and the mean over them. *)
From Coq Require Import Reals List Arith Lia Lra Bool String ZArith Permutation.
From Coquelicot Require Import Coquelicot.
From Verif Require Import Base CMat CMatFacts Det DetFacts Norms ModelUnitary ModelEntry ModelPrimitive
  ModelSequence ModelCompiler Spec SpecModel SpecCompiler PUnitary PUnitaryProps PEmbed PEntry PSeqHeap PSeqMeth PSeqNear PSeqWorld
  PSeqUndo PSeqInv PSeqHist PSeqProps PSeqCases PCompView PCompRun PCompEntry PCompLoop PCompTrace PCompTotal PCompProps PCompMore
  PCompCases PReach PVerify SpecChain PChain.
Import ListNotations.
Open Scope R_scope.
Open Scope C_scope.
Open Scope se_scope.

(** * The chosen index *)
(** [i] is the index chosen among the usable primitives by the [r]-th answer. *)
Definition picks (g : rng) (ps : list primitive) (probs : option (list R)) (r i : nat) : Prop :=
  match probs with
  | None => g_int g r (List.length (filter usable ps)) = i
  | Some q => (sumR (firstn i q) <= g_unif g r * sumR q < sumR (firstn (S i) q))%R
  end.
(** [qs] is the place chosen by the [r]-th answer. *)
Definition lands (g : rng) (n : nat) (p : primitive) (u : unitary) (r : nat) (qs : list nat) : Prop :=
  match p_allowed p with
  | Some ls => nth (g_int g r (List.length ls)) ls [] = qs
  | None => firstn (Nat.log2 (u_dim u)) (g_perm g r n) = qs
  end.
(** [gt] is the gate drawn by two answers. *)
Definition gives (g : rng) (n : nat) (ps : list primitive) (probs : option (list R)) (r : nat) (gt : gatety) : Prop :=
  exists i p, nth_error (filter usable ps) i = Some p /\ picks g ps probs r i /\
    p_source p = Fixed (fst gt) /\ lands g n p (fst gt) (S r) (snd gt).

Lemma slot_unique (q : list R) y i j : (forall x, In x q -> (0 <= x)%R) ->
  (sumR (firstn i q) <= y < sumR (firstn (S i) q))%R -> (sumR (firstn j q) <= y < sumR (firstn (S j) q))%R -> i = j.
Proof.
  intros N H1 H2. destruct (Nat.lt_trichotomy i j) as [X|[X|X]]; auto; exfalso.
  - pose proof (sumR_firstn_mono q (S i) j N ltac:(lia)). lra.
  - pose proof (sumR_firstn_mono q (S j) i N ltac:(lia)). lra.
Qed.

Lemma picks_eval g ps probs i st : rng_ok g -> choosable ps probs -> picks g ps probs (r_draws st) i ->
  match probs with
  | None => choice_unif g (List.length (filter usable ps))
  | Some q => choice_p g (List.length (filter usable ps)) q
  end st = ({| r_world := r_world st; r_draws := S (r_draws st) |}, Ok i).
Proof.
  intros G [HN HQ] H. assert (L : List.length (filter usable ps) <> 0%nat) by (destruct (filter usable ps); simpl; congruence).
  unfold picks in H. destruct probs as [q|].
  - destruct (choice_p_good g _ q st G L HQ) as (j & E & _ & B1 & B2). rewrite E. do 2 f_equal.
    symmetry. apply (slot_unique q _ i j (proj1 (proj2 HQ)) H). auto.
  - unfold choice_unif. destruct (Nat.eqb_spec (List.length (filter usable ps)) 0); [contradiction|]. now rewrite H.
Qed.

(** With these answers the entry is a given one. *)
Lemma create_eval g n ps probs gt st : rng_ok g -> choosable ps probs ->
  (forall p, In p ps -> good_primitive 0 n p) ->
  gives g n ps probs (r_draws st) gt ->
  create_random_sequence_entry g 0 (2 ^ n) ps probs st =
  call_entry 0 (NewEntry (fst gt) (map Z.of_nat (snd gt))) {| r_world := r_world st; r_draws := (r_draws st + 2)%nat |}.
Proof.
  intros G HC GP (i & p & Hi & HP & HS & HL).
  unfold create_random_sequence_entry. rewrite (bind_eq _ _ _ _ _ (picks_eval g ps probs i st G HC HP)).
  rewrite Hi. set (st1 := {| r_world := r_world st; r_draws := S (r_draws st) |}) in *.
  rewrite HS. unfold se_bind at 1, se_ret at 1.
  set (st3 := {| r_world := r_world st; r_draws := (r_draws st + 2)%nat |}).
  apply nth_error_In, filter_In in Hi. destruct Hi as [Hin HU].
  assert (E3 : (match p_allowed p with
    | Some allowed => k <-- choice_unif g (List.length allowed);; se_ret (nth k allowed [])
    | None => choice_distinct g (Nat.log2 (2 ^ n)) (Nat.log2 (u_dim (fst gt))) end) st1 = (st3, Ok (snd gt))).
  { assert (D : st3 = {| r_world := r_world st; r_draws := S (S (r_draws st)) |}) by (unfold st3; f_equal; lia). rewrite D.
    destruct (GP p Hin) as [_ GA]. unfold lands in HL. unfold usable in HU. destruct (p_allowed p) as [ls|].
    - unfold choice_unif. destruct (Nat.eqb_spec (List.length ls) 0) as [E|]; [destruct ls; discriminate|].
      unfold se_bind, se_ret. cbn [r_draws st1 r_world]. now rewrite HL.
    - unfold choice_distinct. rewrite Nat.log2_pow2 by lia.
      destruct GA as (k & Hk & GA). rewrite HS in GA. cbn [src_dim] in GA. rewrite GA in HL |- *.
      rewrite Nat.log2_pow2 in HL |- * by lia. destruct (Nat.ltb_spec n k); [lia|].
      cbn [r_draws st1 r_world]. now rewrite HL. }
  now rewrite (bind_eq _ _ _ _ _ E3).
Qed.

(** * Proposals *)
(** The sequence with contents [cs]. *)
Definition holds (n s : nat) (st : rstate) (cs : list gatety) : Prop :=
  exact_world (r_world st) /\ list_sequence (r_world st) s (2 ^ n) /\ contents (r_world st) s = cs.

Lemma holds_sees n s st cs : holds n s st cs -> exists pv, sees 0 (r_world st) s (2 ^ n) cs pv.
Proof. intros (HX & HL & <-). apply sees_intro; auto. now apply exact_W. Qed.

Lemma sees_holds n s st cs pv : exact_world (r_world st) -> sees 0 (r_world st) s (2 ^ n) cs pv -> holds n s st cs.
Proof.
  intros HX S. split; auto. split; [|now apply (sees_contents _ _ _ _ _ _ S)].
  destruct S as (_ & q & E & D & A & _). now exists q.
Qed.

(** The mean over the changes [change] makes is [P]: from any state there is a tree of
    questions whose leaves are states known from the answers, and the mean of a
    function of the contents there is the one [P] says. *)
Definition change_tree (n s : nat) (c : compiler) (change : rng -> nat -> CM unit)
    (P : list gatety -> (list gatety -> R) -> R) : Prop :=
  forall r0 h0 st b cs f V, holds n s st cs -> legal h0 -> r_draws st = (r0 + List.length h0)%nat ->
  (forall h st1 cs1, legal h ->
     (forall g, rng_ok g -> tells g r0 h -> tells g r0 h0 /\
        change g s (st, set_beta c b) = ((st1, set_beta c b), Ok tt)) ->
     holds n s st1 cs1 -> r_draws st1 = (r0 + List.length h)%nat ->
     average r0 f h (V cs1)) ->
  average r0 f h0 (P cs V).

(** The index that owns a draw. *)
Fixpoint slot (acc : R) (q : list R) (y : R) : nat :=
  match q with [] => O | x :: t => if Rlt_dec y (acc + x) then O else Datatypes.S (slot (acc + x) t y) end.

Lemma slot_spec q : forall acc y, (acc <= y < acc + sumR q)%R ->
  (slot acc q y < List.length q)%nat /\
  (acc + sumR (firstn (slot acc q y) q) <= y < acc + sumR (firstn (Datatypes.S (slot acc q y)) q))%R.
Proof.
  induction q as [|x t IH]; intros acc y H.
  - simpl in H. lra.
  - cbn [slot]. cbn [sumR] in H. destruct (Rlt_dec y (acc + x)).
    + split; [simpl; lia|]. cbn [firstn sumR]. lra.
    + destruct (IH (acc + x)%R y ltac:(lra)) as [I1 I2]. split; [simpl; lia|].
      change (firstn (Datatypes.S (Datatypes.S (slot (acc + x) t y))) (x :: t))
        with (x :: firstn (Datatypes.S (slot (acc + x) t y)) t).
      change (firstn (Datatypes.S (slot (acc + x) t y)) (x :: t)) with (x :: firstn (slot (acc + x) t y) t).
      cbn [sumR]. lra.
Qed.

Lemma slot_RInt (q : list R) (V : nat -> R) : (forall x, In x q -> (0 <= x)%R) -> (0 < sumR q)%R ->
  is_RInt (fun x => V (slot 0 q (x * sumR q))) 0 1
    (fold_right Rplus 0 (map (fun iq => (snd iq * V (fst iq))%R) (List.combine (seq 0 (List.length q)) q)) / sumR q)%R.
Proof.
  intros N P.
  assert (A := steps_RInt (sumR q) (fun x => V (slot 0 q (x * sumR q))) P q (map V (seq 0 (List.length q))) 0%R
    ltac:(now rewrite map_length, seq_length) N).
  replace (0 / sumR q)%R with 0%R in A by (field; lra).
  rewrite <- (sumR_fold q) in A. replace ((0 + sumR q) / sumR q)%R with 1%R in A by (field; lra).
  replace (fold_right Rplus 0 (map (fun iq => (snd iq * V (fst iq))%R) (List.combine (seq 0 (List.length q)) q)))
    with (dot q (map V (seq 0 (List.length q)))).
  2:{ generalize 0%nat. clear. induction q as [|x t IH]; intros k; [reflexivity|].
      cbn [List.length seq map List.combine dot fold_right fst snd]. now rewrite IH. }
  apply A. clear A. intros k x Hk Hx. rewrite <- (sumR_fold (firstn k q)), <- (sumR_fold (firstn (Datatypes.S k) q)) in Hx.
  assert (E : nth k (map V (seq 0 (List.length q))) 0%R = V k).
  { rewrite (nth_indep _ 0%R (V 0%nat)) by now rewrite map_length, seq_length.
    rewrite (map_nth V), seq_nth by auto. reflexivity. }
  rewrite E. clear E. f_equal.
  assert (B : (sumR (firstn k q) <= x * sumR q < sumR (firstn (Datatypes.S k) q))%R).
  { destruct Hx as [X1 X2]. split.
    - apply (Rmult_le_compat_r (sumR q)) in X1; [|lra]. unfold Rdiv in X1.
      rewrite Rmult_assoc, Rinv_l, Rmult_1_r in X1 by lra. lra.
    - apply (Rmult_lt_compat_r (sumR q)) in X2; [|lra]. unfold Rdiv in X2.
      rewrite Rmult_assoc, Rinv_l, Rmult_1_r in X2 by lra. lra. }
  pose proof (sumR_firstn_mono q 0 k N ltac:(lia)) as M1. cbn [firstn sumR] in M1.
  pose proof (sumR_firstn_mono q (Datatypes.S k) (List.length q) N ltac:(lia)) as M2. rewrite firstn_all in M2.
  destruct (slot_spec q 0 (x * sumR q)%R ltac:(lra)) as [_ I].
  rewrite !Rplus_0_l in I. exact (slot_unique q _ _ k N I B).
Qed.

Lemma action_RInt (V : action -> R) ap : (0 <= ap <= 1)%R ->
  is_RInt (fun x => V (action_at ap x)) 0 1
    (ap / 2 * V ActAppendFirst + ap / 2 * V ActAppendLast + (1 - ap) / 2 * V ActRemoveFirst + (1 - ap) / 2 * V ActRemoveLast)%R.
Proof.
  intros Ha.
  assert (A := steps_RInt 1 (fun x => V (action_at ap x)) Rlt_0_1 [ap / 2; ap / 2; (1 - ap) / 2; (1 - ap) / 2]%R
    [V ActAppendFirst; V ActAppendLast; V ActRemoveFirst; V ActRemoveLast] 0%R eq_refl).
  cbn [fold_right dot] in A. replace (0 / 1)%R with 0%R in A by field.
  replace ((0 + (ap / 2 + (ap / 2 + ((1 - ap) / 2 + ((1 - ap) / 2 + 0))))) / 1)%R with 1%R in A by field.
  match type of A with _ -> _ -> is_RInt _ _ _ ?v =>
    replace v with (ap / 2 * V ActAppendFirst + ap / 2 * V ActAppendLast + (1 - ap) / 2 * V ActRemoveFirst + (1 - ap) / 2 * V ActRemoveLast)%R in A by field end.
  apply A.
  - intros x [<-|[<-|[<-|[<-|[]]]]]; lra.
  - intros [|[|[|[|k]]]] x Hk; cbn [firstn fold_right nth]; intros Hx; unfold action_at; [| | | |simpl in Hk; lia];
      destruct (Rlt_dec x (ap / 2)), (Rlt_dec x ap), (Rlt_dec x (ap + (1 - ap) / 2)); try reflexivity; exfalso; lra.
Qed.

Lemma metropolis_range b d : (0 <= metropolis b d <= 1)%R.
Proof.
  split; [left; apply metropolis_pos|]. unfold metropolis. apply Rmin_l.
Qed.


(** * Single gates *)
(** [cs1] is proposed from [cs] with action [a] by the [k] answers from the [r]-th on. *)
Definition proposal (a : action) (g : rng) (n : nat) (c : compiler) (r : nat) (cs cs1 : list gatety) (k : nat) : Prop :=
  action_at (c_append c) (g_unif g r) = a /\
  match a with
  | ActAppendFirst => k = 3%nat /\ exists gt, gives g n (c_prims c) (c_probs c) (S r) gt /\ cs1 = gt :: cs
  | ActAppendLast => k = 3%nat /\ exists gt, gives g n (c_prims c) (c_probs c) (S r) gt /\ cs1 = cs ++ [gt]
  | ActRemoveFirst => k = 1%nat /\ cs1 = tl cs
  | ActRemoveLast => k = 1%nat /\ cs1 = removelast cs
  end.

Section Single.
Variables (n : nat) (c : compiler).
Hypothesis HC : good_compiler 0 n c.

Lemma change_eval a g b s st st' c' cs pv cs1 k : rng_ok g -> sees 0 (r_world st) s (2 ^ n) cs pv ->
  make_random_change g 0 s (st, set_beta c b) = ((st', c'), Ok tt) ->
  proposal a g n c (r_draws st) cs cs1 k ->
  (exists pv', sees 0 (r_world st') s (2 ^ n) cs1 pv') /\ r_draws st' = (r_draws st + k)%nat.
Proof.
  intros G S H [HPa HP]. assert (CH := good_choosable 0 n c HC). destruct HC as (Hd & Ha & GP & _).
  unfold make_random_change in H.
  apply bind_ok in H. destruct H as (c1 & stc & H0 & H). unfold c_self in H0. injection H0 as <- <-.
  cbn [snd] in H. apply bind_ok in H. destruct H as (a' & [st1 c1] & H1 & H).
  apply c_run_inv in H1. destruct H1 as [H1 ->]. cbn [set_beta c_append] in H1.
  rewrite choose_action_at in H1 by auto. rewrite HPa in H1. injection H1 as E1 <-.
  assert (W1 : r_world st1 = r_world st) by now rewrite <- E1.
  assert (R1 : r_draws st1 = Datatypes.S (r_draws st)) by now rewrite <- E1.
  rewrite <- W1 in S. clear E1 W1.
  assert (A : forall mk : nat -> bool -> op, forall f,
    (forall l sv w w' v gt, sees 0 w s (2 ^ n) cs pv -> has_gate w l gt -> step 0 (mk l sv) w = (w', Ok v) ->
      exists pv', sees 0 w' s (2 ^ n) (f gt) pv') ->
    (l <-- c_run (create_random_sequence_entry g 0 (c_dim (set_beta c b)) (c_prims (set_beta c b)) (c_probs (set_beta c b)));;
     c_run (call 0 (mk l true));;; se_ret tt) (st1, set_beta c b) = ((st', c'), Ok tt) ->
    k = 3%nat /\ (exists gt, gives g n (c_prims c) (c_probs c) (Datatypes.S (r_draws st)) gt /\ cs1 = f gt) ->
    (exists pv', sees 0 (r_world st') s (2 ^ n) cs1 pv') /\ r_draws st' = (r_draws st + k)%nat).
  { intros mk f Hmk HH (-> & gt & HG & ->). apply bind_ok in HH. destruct HH as (l & [st2 c2] & H2 & HH).
    apply c_run_inv in H2. destruct H2 as [H2 ->]. cbn [set_beta c_dim c_prims c_probs] in H2. rewrite Hd in H2.
    assert (Sp : spares 0 s (r_world st1) (r_world st2)).
    { apply (create_ok g 0 G) in H2. destruct H2 as (_ & _ & _ & Sp). apply Sp. }
    rewrite <- R1 in HG. rewrite (create_eval g n _ _ gt _ G CH GP HG) in H2.
    apply call_entry_ok in H2. destruct H2 as [H2 HR]. cbn [r_world r_draws] in H2, HR.
    destruct (new_entry_view 0 _ _ _ _ _ H2) as (l' & E & HL & _). injection E as <-. rewrite to_of_nat in HL.
    replace (fst gt, snd gt) with gt in HL by now destruct gt.
    apply bind_ok in HH. destruct HH as (v & [st3 c3] & H3 & HH).
    apply c_run_inv in H3. destruct H3 as [H3 ->]. apply ret_ok in HH. destruct HH as [HH _].
    injection HH as -> ->.
    assert (HR3 := call_draws _ _ _ _ _ H3). apply call_ok in H3. destruct H3 as [H3 _].
    destruct (proj1 (proj2 Sp) _ _ _ S) as [S2 _].
    split; [exact (Hmk l true _ _ _ gt S2 HL H3)|]. rewrite HR3, HR, R1. lia. }
  assert (B : forall (o : op) cs2,
    (forall w w' v, sees 0 w s (2 ^ n) cs pv -> step 0 o w = (w', Ok v) -> exists pv', sees 0 w' s (2 ^ n) cs2 pv') ->
    (c_run (call 0 o);;; se_ret tt) (st1, set_beta c b) = ((st', c'), Ok tt) -> k = 1%nat /\ cs1 = cs2 ->
    (exists pv', sees 0 (r_world st') s (2 ^ n) cs1 pv') /\ r_draws st' = (r_draws st + k)%nat).
  { intros o cs2 Ho HH (-> & ->). apply bind_ok in HH. destruct HH as (v & [st3 c3] & H3 & HH).
    apply c_run_inv in H3. destruct H3 as [H3 ->]. apply ret_ok in HH. destruct HH as [HH _].
    injection HH as -> ->.
    assert (HR3 := call_draws _ _ _ _ _ H3). apply call_ok in H3. destruct H3 as [H3 _].
    split; [exact (Ho _ _ _ S H3)|]. rewrite HR3, R1. lia. }
  destruct a.
  - apply (A (AppendFirst s) (fun gt => gt :: cs)); auto. intros l sv w w' v gt S0 HG E.
    destruct (append_first_view 0 _ _ _ _ _ _ _ _ _ _ S0 HG E) as (X1 & _). eauto.
  - apply (A (AppendLast s) (fun gt => cs ++ [gt])); auto. intros l sv w w' v gt S0 HG E.
    destruct (append_last_view 0 _ _ _ _ _ _ _ _ _ _ S0 HG E) as (X1 & _). eauto.
  - apply (B (RemoveFirst s true) (tl cs)); auto. intros w w' v S0 E.
    destruct (remove_first_view 0 _ _ _ _ _ _ _ _ S0 E) as (X1 & _). eauto.
  - apply (B (RemoveLast s true) (removelast cs)); auto. intros w w' v S0 E.
    destruct (remove_last_view 0 _ _ _ _ _ _ _ _ S0 E) as (X1 & _). eauto.
Qed.

(** Nothing else of the answers matters. *)
Lemma change_same a g g' b s st cs cs1 k : rng_ok g -> rng_ok g' ->
  proposal a g n c (r_draws st) cs cs1 k -> proposal a g' n c (r_draws st) cs cs1 k ->
  make_random_change g 0 s (st, set_beta c b) = make_random_change g' 0 s (st, set_beta c b).
Proof.
  intros G G' [A HP] [A' HP']. assert (CH := good_choosable 0 n c HC). destruct HC as (Hd & Ha & GP & _).
  unfold make_random_change.
  unfold se_bind at 1, c_self at 1. symmetry. unfold se_bind at 1, c_self at 1. symmetry. cbn [snd].
  assert (E := choose_action_at g (c_append c) st G Ha). assert (E' := choose_action_at g' (c_append c) st G' Ha).
  rewrite A in E. rewrite A' in E'.
  rewrite (bind_eq _ _ _ _ _ (c_run_eq _ _ _ _ _ E)), (bind_eq _ _ _ _ _ (c_run_eq _ _ _ _ _ E')).
  set (st1 := {| r_world := r_world st; r_draws := Datatypes.S (r_draws st) |}).
  assert (Cr : forall gt, gives g n (c_prims c) (c_probs c) (Datatypes.S (r_draws st)) gt ->
    gives g' n (c_prims c) (c_probs c) (Datatypes.S (r_draws st)) gt ->
    create_random_sequence_entry g 0 (2 ^ n) (c_prims c) (c_probs c) st1 =
    create_random_sequence_entry g' 0 (2 ^ n) (c_prims c) (c_probs c) st1).
  { intros gt H H'. now rewrite !(create_eval _ n _ _ gt st1) by auto. }
  destruct a; auto.
  - destruct HP as (_ & gt & Hg & E1), HP' as (_ & gt' & Hg' & E2).
    assert (gt' = gt) by congruence. subst gt'. cbn [set_beta c_dim c_prims c_probs]. rewrite Hd.
    unfold se_bind at 1. unfold c_run at 1. cbn [fst snd]. rewrite (Cr gt Hg Hg').
    symmetry. unfold se_bind at 1. unfold c_run at 1. cbn [fst snd]. reflexivity.
  - destruct HP as (_ & gt & Hg & E1), HP' as (_ & gt' & Hg' & E2).
    assert (gt' = gt) by (rewrite E1 in E2; apply app_inj_tail in E2; destruct E2; congruence). subst gt'. cbn [set_beta c_dim c_prims c_probs]. rewrite Hd.
    unfold se_bind at 1. unfold c_run at 1. cbn [fst snd]. rewrite (Cr gt Hg Hg').
    symmetry. unfold se_bind at 1. unfold c_run at 1. cbn [fst snd]. reflexivity.
Qed.

Lemma single_safe (Q : unitary -> Prop) : (forall u, made 0 u -> Q u) -> List.Forall (safe_primitive 0 Q) (c_prims c).
Proof. intros H. apply (good_safe 0); auto. intros p Hp. apply HC in Hp. apply Hp. Qed.

Lemma single_total g s : rng_ok g -> forall st b K cs pv, winv 0 true K (r_world st) -> sees 0 (r_world st) s (2 ^ n) cs pv ->
  exists st', make_random_change g 0 s (st, set_beta c b) = ((st', set_beta c b), Ok tt).
Proof.
  intros G st b K cs pv HW S. assert (CH := good_choosable 0 n c HC).
  assert (HS := single_safe _ safe_made0). destruct HC as (Hd & Ha & GP & _).
  apply (total_single g 0 G ltac:(lra) ltac:(lra) true n (fun _ => lim0_zero _ _) c Hd Ha
    (fun p Hp => good_drawn g 0 G n p (GP p Hp)) CH HS b s st K cs pv HW S (lim_zero _ _)).
Qed.

Section Tree.
Variables (s r0 : nat) (h0 : list (question * answer)) (st : rstate) (b : R) (cs : list gatety) (f : rng -> R)
  (V : list gatety -> R).
Hypothesis HF : fixed_gates c.
Hypothesis HH : holds n s st cs.
Hypothesis HL0 : legal h0.
Hypothesis HR0 : r_draws st = (r0 + List.length h0)%nat.
Hypothesis Leaf : forall h st1 cs1, legal h ->
  (forall g, rng_ok g -> tells g r0 h -> tells g r0 h0 /\
     make_random_change g 0 s (st, set_beta c b) = ((st1, set_beta c b), Ok tt)) ->
  holds n s st1 cs1 -> r_draws st1 = (r0 + List.length h)%nat -> average r0 f h (V cs1).
Notation r := (r_draws st).

Lemma tree_leaf a h k cs1 : legal h -> List.length h = (List.length h0 + k)%nat ->
  (forall g, tells g r0 h -> tells g r0 h0) ->
  (forall g, rng_ok g -> tells g r0 h -> proposal a g n c r cs cs1 k) -> average r0 f h (V cs1).
Proof.
  intros Lh Hk T0 HP. destruct (teller r0 h Lh) as (g0 & G0 & T).
  destruct (holds_sees _ _ _ _ HH) as (pv & S). destruct (exact_winv_ex _ (proj1 HH)) as [K HW].
  destruct (single_total g0 s G0 st b K cs pv HW S) as (st1 & E).
  destruct (change_eval a g0 b s st st1 _ cs pv cs1 k G0 S E (HP g0 G0 T)) as ((pv1 & S1) & HR).
  apply (Leaf h st1 cs1 Lh).
  - intros g G Tg. split; auto. rewrite <- E. exact (change_same a g g0 b s st cs cs1 k G G0 (HP g G Tg) (HP g0 G0 T)).
  - eapply sees_holds; [|exact S1]. destruct (single_traced g0 0 G0 _ c s (single_safe _ made_built0) st b) as [EV _].
    rewrite E in EV. exact (evolves_exact _ _ _ (proj1 HH) EV).
  - rewrite HR, HR0, Hk. lia.
Qed.

Lemma tells_at h q a g : tells g r0 (h ++ [(q, a)]) -> tells g r0 h /\ replies g (r0 + List.length h) (q, a).
Proof. apply tells_snoc. Qed.

(** The mean over the places of a primitive. *)
Lemma avg_place act h i p u mk : legal h -> List.length h = (List.length h0 + 2)%nat -> (forall g, tells g r0 h -> tells g r0 h0) ->
  nth_error (filter usable (c_prims c)) i = Some p -> p_source p = Fixed u ->
  (forall g, rng_ok g -> tells g r0 h -> picks g (c_prims c) (c_probs c) (Datatypes.S r) i) ->
  (forall g gt, rng_ok g -> tells g r0 h -> gives g n (c_prims c) (c_probs c) (Datatypes.S r) gt ->
     proposal act g n c r cs (mk gt) 3) ->
  average r0 f h (gate_mean n p (fun gt => V (mk gt))).
Proof.
  intros Gh Lh T0 Hi HS HPk HP. unfold gate_mean. rewrite HS. unfold places.
  assert (Lands : forall q a qs, possible q a ->
    (forall g, rng_ok g -> tells g r0 (h ++ [(q, a)]) -> lands g n p u (Datatypes.S (Datatypes.S r)) qs) ->
    average r0 f (h ++ [(q, a)]) (V (mk (u, qs)))).
  { intros q a qs P HLd. apply (tree_leaf act _ 3).
    - now apply legal_snoc.
    - rewrite app_length, Lh. simpl. lia.
    - intros g T. apply tells_at in T. now apply T0.
    - intros g G T. assert (L := HLd g G T). apply tells_at in T. destruct T as [T _]. apply HP; auto.
      exists i, p. split; auto. }
  assert (R2 : (r0 + List.length h)%nat = Datatypes.S (Datatypes.S r)) by lia.
  destruct (p_allowed p) as [ls|] eqn:EA.
  - assert (Ne : ls <> []).
    { apply nth_error_In, filter_In in Hi. destruct Hi as [_ Hi]. unfold usable in Hi. rewrite EA in Hi.
      destruct ls; [discriminate|congruence]. }
    apply average_ask with (q := QInt (List.length ls))
      (F := fun a => match a with AInt k => V (mk (u, nth k ls [])) | _ => 0%R end).
    + intros [x|k|l] P; try (simpl in P; contradiction). apply Lands; auto. intros g G T.
      apply tells_at in T. destruct T as [_ T]. rewrite R2 in T. simpl in T.
      unfold lands. rewrite EA. now rewrite T.
    + cbn [mean_answer]. split; [destruct ls; [congruence|simpl; lia]|]. apply (meanl_nth ls [] (fun qs => V (mk (u, qs)))).
  - apply average_ask with (q := QPerm n)
      (F := fun a => match a with AList l => V (mk (u, firstn (Nat.log2 (u_dim u)) l)) | _ => 0%R end).
    + intros [x|k|l] P; try (simpl in P; contradiction). apply Lands; auto. intros g G T.
      apply tells_at in T. destruct T as [_ T]. rewrite R2 in T. simpl in T.
      unfold lands. rewrite EA. now rewrite T.
    + cbn [mean_answer]. apply (meanl_map (orders (seq 0 n)) (firstn (Nat.log2 (u_dim u))) (fun qs => V (mk (u, qs)))).
Qed.

Lemma fixed_usable p : In p (filter usable (c_prims c)) -> exists u, p_source p = Fixed u.
Proof. intros H. apply filter_In in H. now apply HF. Qed.

(** The mean over the offered gates. *)
Lemma avg_gate act h mk : legal h -> List.length h = (List.length h0 + 1)%nat -> (forall g, tells g r0 h -> tells g r0 h0) ->
  (forall g gt, rng_ok g -> tells g r0 h -> gives g n (c_prims c) (c_probs c) (Datatypes.S r) gt ->
     proposal act g n c r cs (mk gt) 3) ->
  average r0 f h (offer_mean n (c_prims c) (c_probs c) (fun gt => V (mk gt))).
Proof.
  intros Gh Lh T0 HP. unfold offer_mean. change has_place with usable.
  destruct (good_choosable 0 n c HC) as [HN HQ].
  set (us := filter usable (c_prims c)) in *.
  assert (Xp : exists dp : primitive, In dp us) by (destruct us as [|p0 us']; [congruence|exists p0; now left]).
  destruct Xp as [dp _].
  set (W := fun i => gate_mean n (nth i us dp) (fun gt => V (mk gt))).
  assert (R1 : (r0 + List.length h)%nat = Datatypes.S r) by lia.
  assert (Next : forall q a i, possible q a -> (i < List.length us)%nat ->
    (forall g, rng_ok g -> tells g r0 (h ++ [(q, a)]) -> picks g (c_prims c) (c_probs c) (Datatypes.S r) i) ->
    average r0 f (h ++ [(q, a)]) (W i)).
  { intros q a i P Hi HPk. assert (Ei := nth_error_nth' us dp Hi).
    destruct (fixed_usable (nth i us dp)) as [u HS]; [apply nth_In; exact Hi|].
    apply (avg_place act _ i _ u mk); auto.
    - now apply legal_snoc.
    - rewrite app_length, Lh. simpl. lia.
    - intros g T. apply tells_at in T. now apply T0.
    - intros g gt G T. apply HP; auto. apply tells_at in T. apply T. }
  destruct (c_probs c) as [q|] eqn:EQ.
  - destruct HQ as (L & N & Hs).
    assert (P : (0 < sumR q)%R) by (apply (good_sum_pos (List.length us) q); split; auto).
    apply average_ask with (q := QUnif)
      (F := fun a => match a with AReal x => W (slot 0 q (x * sumR q)) | _ => 0%R end).
    + intros [x|k|l] Px; try (simpl in Px; contradiction). simpl in Px.
      assert (B : (0 <= x * sumR q < 0 + sumR q)%R).
      { split; [apply Rmult_le_pos; lra|]. rewrite Rplus_0_l. rewrite <- (Rmult_1_l (sumR q)) at 2.
        apply Rmult_lt_compat_r; lra. }
      destruct (slot_spec q 0 _ B) as [I1 I2]. rewrite !Rplus_0_l in I2.
      apply Next; [exact Px|congruence|]. intros g G T. apply tells_at in T. destruct T as [_ T]. rewrite R1 in T. simpl in T.
      unfold picks. rewrite T. exact I2.
    + cbn [mean_answer]. assert (A := slot_RInt q W N P).
      rewrite <- (sumR_fold q).
      replace (map (fun pq => snd pq * gate_mean n (fst pq) (fun gt => V (mk gt)))%R (List.combine us q))
        with (map (fun iq => snd iq * W (fst iq))%R (List.combine (seq 0 (List.length q)) q)); [exact A|].
      unfold W. rewrite L. clear. revert q.
      assert (X : forall pre q, map (fun iq : nat * R => snd iq * gate_mean n (nth (fst iq) (pre ++ us) dp) (fun gt => V (mk gt)))%R
        (List.combine (seq (List.length pre) (List.length us)) q) =
        map (fun pq => snd pq * gate_mean n (fst pq) (fun gt => V (mk gt)))%R (List.combine us q)).
      { clearbody us. induction us as [|p t IH]; intros pre q; [reflexivity|]. destruct q as [|x q]; [reflexivity|].
        cbn [List.length seq List.combine map fst snd]. f_equal.
        - do 2 f_equal. rewrite app_nth2, Nat.sub_diag by lia. reflexivity.
        - specialize (IH (pre ++ [p]) q). rewrite app_length in IH. cbn [List.length] in IH.
          rewrite Nat.add_1_r in IH. rewrite <- IH. rewrite <- app_assoc. reflexivity. }
      intros q. exact (X [] q).
  - apply average_ask with (q := QInt (List.length us))
      (F := fun a => match a with AInt k => W k | _ => 0%R end).
    + intros [x|k|l] Px; try (simpl in Px; contradiction). apply Next; auto.
      intros g G T. apply tells_at in T. destruct T as [_ T]. rewrite R1 in T. simpl in T.
      unfold picks. fold us. exact T.
    + cbn [mean_answer]. split; [destruct us; [congruence|simpl; lia]|].
      apply (meanl_nth us dp).
Qed.

Lemma single_tree : average r0 f h0 (single_mean n c cs V).
Proof.
  unfold single_mean. set (Mg := offer_mean n (c_prims c) (c_probs c)).
  set (W := fun a => match a with
    | ActAppendFirst => Mg (fun gt => V (gt :: cs)) | ActAppendLast => Mg (fun gt => V (cs ++ [gt]))
    | ActRemoveFirst => V (tl cs) | ActRemoveLast => V (removelast cs) end).
  apply average_ask with (q := QUnif) (F := fun a => match a with AReal x => W (action_at (c_append c) x) | _ => 0%R end).
  - intros [x|k|l] Px; try (simpl in Px; contradiction).
    assert (T0 : forall g, tells g r0 (h0 ++ [(QUnif, AReal x)]) -> tells g r0 h0 /\ g_unif g r = x).
    { intros g T. apply tells_at in T. rewrite HR0. exact T. }
    assert (T1 : forall g, tells g r0 (h0 ++ [(QUnif, AReal x)]) -> tells g r0 h0) by apply T0.
    assert (T2 : forall g, tells g r0 (h0 ++ [(QUnif, AReal x)]) -> g_unif g r = x) by apply T0.
    assert (Lg := legal_snoc h0 QUnif (AReal x) HL0 Px).
    assert (Ln : List.length (h0 ++ [(QUnif, AReal x)]) = (List.length h0 + 1)%nat) by now rewrite app_length.
    destruct (action_at (c_append c) x) eqn:EA; cbn [W].
    + apply (avg_gate ActAppendFirst _ (fun gt => gt :: cs)); auto. intros g gt G T HG.
      split; [now rewrite (T2 g T)|eauto].
    + apply (avg_gate ActAppendLast _ (fun gt => cs ++ [gt])); auto. intros g gt G T HG.
      split; [now rewrite (T2 g T)|eauto].
    + apply (tree_leaf ActRemoveFirst _ 1); auto. intros g G T. split; [now rewrite (T2 g T)|auto].
    + apply (tree_leaf ActRemoveLast _ 1); auto. intros g G T. split; [now rewrite (T2 g T)|auto].
  - cbn [mean_answer]. apply (action_RInt W). apply HC.
Qed.
End Tree.

Lemma single_change_tree s : fixed_gates c -> change_tree n s c (fun g => make_random_change g 0) (single_mean n c).
Proof. intros HF r0 h0 st b cs f V HH HL0 HR0 Leaf. eapply single_tree; eauto. Qed.
End Single.

(** * One step *)
Section Step.
Variables (n : nat) (c : compiler) (change : rng -> nat -> CM unit) (target : unitary) (k : nat)
  (P : list gatety -> (list gatety -> R) -> R) (Rel : rng -> list gatety -> list gatety -> Prop).
Hypothesis Hd : c_dim c = (2 ^ n)%nat.
Hypothesis HT : built 0 target.
Hypothesis HD : u_dim target = (2 ^ n)%nat.
Hypothesis H1 : forall g, rng_ok g -> change_ok 0 (change g) (Rel g) c.
Hypothesis H2 : forall g s, rng_ok g -> ctraced 0 (built 0) c k (change g s).
Hypothesis H3 : forall g, rng_ok g -> total_change 0 true n k (change g) c.
Hypothesis HP : forall s, change_tree n s c change P.

Notation next b := (Rmin (b + c_rate c) (c_max_beta c)).

Lemma cost_exact s st cs pv q x : exact_world (r_world st) -> sees 0 (r_world st) s (2 ^ n) cs pv -> answers 0 (r_world st) s q ->
  u_distance_from 0 target q = Ok x -> x = cost_of n target cs.
Proof.
  intros HX S A E. destruct (exact_special _ _ _ _ _ _ HX S A) as (D0 & _ & _ & E').
  rewrite overlap_inv in E; [|eapply built_wf; eauto|apply eps_clean_0|congruence]. injection E as <-.
  unfold cost_of. rewrite HD. f_equal. apply overlap_proper; [reflexivity|exact E'].
Qed.

(** The outcome of a step whose change is known. *)
Lemma step_value g s st b cs cs1 st1 : rng_ok g -> holds n s st cs ->
  change g s ({| r_world := fst (step 0 (Product s) (r_world st)); r_draws := r_draws st |}, set_beta c (next b)) =
    ((st1, set_beta c (next b)), Ok tt) ->
  holds n s st1 cs1 ->
  let cs2 := if Rlt_dec (g_unif g (r_draws st1)) (metropolis (next b) (cost_of n target cs1 - cost_of n target cs)) then cs1 else cs in
  exists st2, compile_step g 0 (change g) s target (st, set_beta c b) = ((st2, set_beta c (next b)), Ok (cost_of n target cs2)) /\
    holds n s st2 cs2 /\ r_draws st2 = Datatypes.S (r_draws st1).
Proof.
  intros G HH HCh HH1 cs2. destruct (exact_winv_ex _ (proj1 HH)) as [K HW].
  destruct (holds_sees _ _ _ _ HH) as (pv & S).
  assert (H2' : forall s, ctraced 0 (safe_gate 0 true) c k (change g s)).
  { intros s' st' b'. destruct (H2 g s' G st' b') as [EV B]. split; [|exact B].
    eapply evolves_weaken; [|exact EV]. apply safe_built0. }
  destruct (step_total g 0 G ltac:(lra) ltac:(lra) true n (change g) (Rel g) c k target (H1 g G) H2' (H3 g G)
    Hd (made_inverse 0 ltac:(lra) ltac:(lra) n target (built_made _ _ HT) HD (lim0_zero _ _)) HD b s st K cs pv HW S (lim_zero _ _))
    as (st' & b' & cost & E).
  assert (S' : sees 0 (r_world st) s (c_dim c) cs pv) by now rewrite Hd.
  destruct (step_ok g 0 G _ _ c b s target st st' _ cost cs pv (H1 g G) S' E)
    as (Eb & p & cur & p1 & prop & cs3 & x & A & Ec & _ & Ep & (st3 & Hch & A1 & (pv1 & S1) & HRd & Hx) & D).
  rewrite HCh in Hch. injection Hch as <-. rewrite Hd in S1, D.
  assert (cs3 = cs1) by (rewrite <- (sees_contents _ _ _ _ _ _ S1); apply HH1). subst cs3.
  rewrite (cost_exact s st cs pv p cur (proj1 HH) S A Ec) in D.
  rewrite (cost_exact s st1 cs1 pv1 p1 prop (proj1 HH1) S1 A1 Ep) in D. subst x.
  exists st'. rewrite E, Eb.
  assert (HX' : exact_world (r_world st')).
  { destruct (step_traced g 0 _ c k (change g) s target (fun s => H2 g s G) st b) as [EV _].
    rewrite E in EV. exact (evolves_exact _ _ _ (proj1 HH) EV). }
  cut (cost = cost_of n target cs2 /\ exists pv2, sees 0 (r_world st') s (2 ^ n) cs2 pv2).
  { intros (-> & pv2 & S2). split; auto. split; auto. now apply (sees_holds n s st' cs2 pv2). }
  unfold cs2. destruct D as [(L & X & (pv3 & S3) & _)|(L & X & S3)].
  - destruct (Rlt_dec _ _); [eauto|contradiction].
  - destruct (Rlt_dec _ _); [lra|eauto].
Qed.

Lemma bind_same {A B} (m m' : CM A) (f f' : A -> CM B) sc : m sc = m' sc ->
  (forall a sc', m sc = (sc', Ok a) -> f a sc' = f' a sc') -> se_bind m f sc = se_bind m' f' sc.
Proof. intros E H. unfold se_bind. rewrite <- E. destruct (m sc) as [sc' [a|e]]; auto. Qed.

(** A step depends on the change and on one more answer. *)
Lemma step_same g g' s st b st1 :
  change g s ({| r_world := fst (step 0 (Product s) (r_world st)); r_draws := r_draws st |}, set_beta c (next b)) =
    ((st1, set_beta c (next b)), Ok tt) ->
  change g' s ({| r_world := fst (step 0 (Product s) (r_world st)); r_draws := r_draws st |}, set_beta c (next b)) =
    ((st1, set_beta c (next b)), Ok tt) ->
  g_unif g (r_draws st1) = g_unif g' (r_draws st1) ->
  compile_step g 0 (change g) s target (st, set_beta c b) = compile_step g' 0 (change g') s target (st, set_beta c b).
Proof.
  intros E E' HU. unfold compile_step. apply bind_same; [reflexivity|]. intros ua sa Ea.
  unfold anneal in Ea. cbn [snd fst] in Ea.
  assert (Ea' : sa = (st, set_beta c (next b))) by now inversion Ea. subst sa. clear Ea.
  apply bind_same; [reflexivity|]. intros p [st2 c2] EP. apply c_run_inv in EP. destruct EP as [EP ->].
  apply call_unitary_ok in EP. destruct EP as [EP ER].
  replace st2 with {| r_world := fst (step 0 (Product s) (r_world st)); r_draws := r_draws st |}
    by (rewrite EP, <- ER; cbn [fst]; now destruct st2).
  apply bind_same; [now rewrite E, E'|]. intros ub sb Eb. rewrite E in Eb. injection Eb as <- <-.
  apply bind_same; [reflexivity|]. intros cur sc Ec. unfold se_lift in Ec. injection Ec as <- _.
  apply bind_same; [reflexivity|]. intros p1 [st3 c3] EP1. apply c_run_inv in EP1. destruct EP1 as [EP1 ->].
  apply call_unitary_ok in EP1. destruct EP1 as [_ ER1].
  apply bind_same; [reflexivity|]. intros prop sd Ed. unfold se_lift in Ed. injection Ed as <- _.
  apply bind_same; [|reflexivity].
  unfold accept_proposed_change, se_bind, c_self, c_run, draw_unif, se_ret. cbn [fst snd r_draws r_world].
  now rewrite ER1, HU.
Qed.

Lemma metropolis_mean V cs cs1 b r0 h f : legal h ->
  (forall x, (0 <= x < 1)%R -> average r0 f (h ++ [(QUnif, AReal x)])
     (V (if Rlt_dec x (metropolis b (cost_of n target cs1 - cost_of n target cs)) then cs1 else cs))) ->
  average r0 f h (accept_mean n b target V cs cs1).
Proof.
  intros L H. set (al := metropolis b (cost_of n target cs1 - cost_of n target cs)) in *.
  apply average_ask with (q := QUnif)
    (F := fun a => match a with AReal x => V (if Rlt_dec x al then cs1 else cs) | _ => 0%R end).
  - intros [x|j|l] Px; try (simpl in Px; contradiction). now apply H.
  - cbn [mean_answer]. unfold accept_mean. cbv zeta. fold al.
    apply (@is_RInt_ext R_NormedModule (fun x => if Rlt_dec x al then V cs1 else V cs)).
    + intros x _. destruct (Rlt_dec x al); reflexivity.
    + apply below_RInt. apply metropolis_range.
Qed.

(** The tree of a step. *)
Lemma step_tree s r0 h0 st b cs f V : holds n s st cs -> legal h0 -> r_draws st = (r0 + List.length h0)%nat ->
  (forall h st2 cs2, legal h ->
     (forall g, rng_ok g -> tells g r0 h -> tells g r0 h0 /\
        compile_step g 0 (change g) s target (st, set_beta c b) = ((st2, set_beta c (next b)), Ok (cost_of n target cs2))) ->
     holds n s st2 cs2 -> r_draws st2 = (r0 + List.length h)%nat -> average r0 f h (V cs2)) ->
  average r0 f h0 (P cs (accept_mean n (next b) target V cs)).
Proof.
  intros HH HL0 HR0 Leaf.
  set (stp := {| r_world := fst (step 0 (Product s) (r_world st)); r_draws := r_draws st |}).
  assert (HHp : holds n s stp cs).
  { destruct (holds_sees _ _ _ _ HH) as (pv & S). eapply (sees_holds n s stp cs pv).
    - apply (evolves_exact 0 (r_world st)); [apply HH|]. now apply evolves_step.
    - apply sees_other; auto. }
  apply (HP s r0 h0 stp (next b) cs f (accept_mean n (next b) target V cs) HHp HL0 HR0).
  intros h st1 cs1 Lh HCh HH1 HR1. apply metropolis_mean; auto. intros x Px.
  assert (Lx := legal_snoc h QUnif (AReal x) Lh Px).
  destruct (teller r0 _ Lx) as (g0 & G0 & T0').
  assert (T0 := T0'). apply tells_snoc in T0. destruct T0 as [T0 U0]. cbn [replies] in U0. rewrite <- HR1 in U0.
  destruct (HCh g0 G0 T0) as [_ E0].
  destruct (step_value g0 s st b cs cs1 st1 G0 HH E0 HH1) as (st2 & E2 & HH2 & HR2). rewrite U0 in E2, HH2.
  apply (Leaf _ st2 _ Lx).
  - intros g G T. apply tells_snoc in T. destruct T as [T U]. cbn [replies] in U. rewrite <- HR1 in U.
    destruct (HCh g G T) as [Th E]. split; auto.
    rewrite (step_same g g0 s st b st1 E E0) by congruence. exact E2.
  - exact HH2.
  - rewrite HR2, HR1, app_length. simpl. lia.
Qed.
End Step.
