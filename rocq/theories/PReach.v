(** Every sequence of gates that the primitives stand for can come out of a
    compilation: random answers are recorded on a tape and played back. *)
From Coq Require Import Reals List Arith Lia Lra Bool String ZArith Permutation.
From Coquelicot Require Import Rcomplements Complex.
From Verif Require Import Base CMat CMatFacts Det DetFacts Norms ModelUnitary ModelEntry ModelPrimitive
  ModelSequence ModelCompiler Spec SpecModel SpecCompiler PUnitary PUnitaryProps PEmbed PEntry PSeqHeap PSeqMeth PSeqNear PSeqWorld
  PSeqUndo PSeqInv PSeqHist PSeqProps PSeqCases PCompView PCompRun PCompEntry PCompLoop PCompTrace PCompTotal PCompProps PCompMore
  PCompCases.
Import ListNotations.
Open Scope R_scope.
Open Scope C_scope.
Open Scope se_scope.

Notation gatety := (unitary * list nat)%type.

(** * Tapes *)
Inductive draw : Type := DU (x : R) | DI (i : nat) | DP (l : list nat).

Definition answer_is (g : rng) (k : nat) (d : draw) : Prop :=
  match d with
  | DU x => g_unif g k = x
  | DI i => forall n, (i < n)%nat -> g_int g k n = i
  | DP l => forall n, placement n l -> firstn (List.length l) (g_perm g k n) = l
  end.

Definition tape_at (g : rng) (k : nat) (t : list draw) : Prop :=
  forall i d, nth_error t i = Some d -> answer_is g (k + i) d.

Definition draw_ok (d : draw) : Prop := match d with DU x => (0 <= x < 1)%R | _ => True end.

Lemma tape_app g k t1 t2 : tape_at g k (t1 ++ t2) <-> tape_at g k t1 /\ tape_at g (k + List.length t1) t2.
Proof.
  split.
  - intros H. split; intros i d E.
    + apply H. rewrite nth_error_app1; auto. apply nth_error_Some. congruence.
    + rewrite <- Nat.add_assoc. apply H. rewrite nth_error_app2 by lia.
      now replace (List.length t1 + i - List.length t1)%nat with i by lia.
  - intros [H1 H2] i d E. destruct (Nat.lt_ge_cases i (List.length t1)) as [L|L].
    + rewrite nth_error_app1 in E by auto. auto.
    + rewrite nth_error_app2 in E by auto. replace (k + i)%nat with (k + List.length t1 + (i - List.length t1))%nat by lia.
      auto.
Qed.

Lemma tape_cons g k d t : tape_at g k (d :: t) <-> answer_is g k d /\ tape_at g (S k) t.
Proof.
  change (d :: t) with ([d] ++ t). rewrite tape_app. cbn [List.length]. rewrite Nat.add_1_r.
  split; intros [H1 H2]; split; auto.
  - specialize (H1 0%nat d eq_refl). now rewrite Nat.add_0_r in H1.
  - intros [|i] d' E; [|destruct i; discriminate]. injection E as <-. now rewrite Nat.add_0_r.
Qed.

(** ** Playing a tape back *)
Definition complete (l : list nat) (n : nat) : list nat :=
  l ++ filter (fun q => negb (if in_dec Nat.eq_dec q l then true else false)) (seq 0 n).

Lemma NoDup_app_disjoint {A} (l l' : list A) : NoDup l -> NoDup l' -> (forall x, In x l -> ~ In x l') -> NoDup (l ++ l').
Proof.
  induction l as [|x t IH]; intros N N' H; simpl; auto. inversion N; subst. constructor.
  - rewrite in_app_iff. intros [X|X]; [contradiction|]. apply (H x); simpl; auto.
  - apply IH; auto. intros y Hy. apply H. simpl; auto.
Qed.

Lemma complete_perm l n : NoDup l -> (forall q, In q l -> (q < n)%nat) -> Permutation (complete l n) (seq 0 n).
Proof.
  intros N H. apply NoDup_Permutation.
  - unfold complete. apply NoDup_app_disjoint; auto.
    + apply NoDup_filter, seq_NoDup.
    + intros x Hx K. apply filter_In in K. destruct K as [_ K].
      destruct (in_dec Nat.eq_dec x l); [discriminate|contradiction].
  - apply seq_NoDup.
  - intros q. unfold complete. rewrite in_app_iff, filter_In, in_seq.
    destruct (in_dec Nat.eq_dec q l) as [I|I]; simpl; split; intros X.
    + apply H in I. lia.
    + auto.
    + destruct X as [X|[X _]]; [contradiction|lia].
    + right. split; auto.
Qed.

(** Decidable form of [placement] for the tape. *)
Definition placed (l : list nat) (n : nat) : bool :=
  (if ListDec.NoDup_dec Nat.eq_dec l then true else false) && forallb (fun q => Nat.ltb q n) l.

Lemma placed_spec l n : placed l n = true <-> NoDup l /\ forall q, In q l -> (q < n)%nat.
Proof.
  unfold placed. rewrite andb_true_iff, forallb_forall.
  destruct (ListDec.NoDup_dec Nat.eq_dec l) as [N|N]; split.
  - intros [_ H]. split; auto. intros q Hq. apply Nat.ltb_lt. auto.
  - intros [_ H]. split; auto. intros q Hq. apply Nat.ltb_lt. auto.
  - intros [H _]. discriminate.
  - intros [H _]. contradiction.
Qed.

Definition tape_rng (base : nat) (t : list draw) : rng :=
  {| g_unif := fun k => match nth_error t (k - base) with Some (DU x) => x | _ => 0%R end;
     g_int := fun k n => match nth_error t (k - base) with
                         | Some (DI i) => if Nat.ltb i n then i else 0%nat | _ => 0%nat end;
     g_perm := fun k n => match nth_error t (k - base) with
                          | Some (DP l) => if placed l n then complete l n else seq 0 n
                          | _ => seq 0 n end |}.

Lemma tape_rng_ok base t : List.Forall draw_ok t -> rng_ok (tape_rng base t).
Proof.
  intros H. split; [|split].
  - intros k. cbn [g_unif g_int g_perm tape_rng]. destruct (nth_error t (k - base)) as [d|] eqn:E; [|lra].
    apply nth_error_In in E. rewrite Forall_forall in H. apply H in E. destruct d; cbn in E; lra.
  - intros k n Hn. cbn [g_unif g_int g_perm tape_rng]. destruct (nth_error t (k - base)) as [[| |]|]; auto.
    destruct (Nat.ltb_spec i n); auto.
  - intros k n. cbn [g_unif g_int g_perm tape_rng]. destruct (nth_error t (k - base)) as [[| |]|]; try apply Permutation_refl.
    destruct (placed l n) eqn:E; [|apply Permutation_refl]. apply placed_spec in E.
    apply complete_perm; apply E.
Qed.

Lemma tape_rng_at base t : tape_at (tape_rng base t) base t.
Proof.
  intros i d E. destruct d; cbn [answer_is g_unif g_int g_perm tape_rng]; replace (base + i - base)%nat with i by lia; rewrite E.
  - reflexivity.
  - intros n Hn. destruct (Nat.ltb_spec i0 n); [auto|lia].
  - intros n (P1 & _ & P3). replace (placed l n) with true by (symmetry; apply placed_spec; auto).
    unfold complete. rewrite firstn_app, firstn_all, Nat.sub_diag. simpl. apply app_nil_r.
Qed.

(** * What the tape makes the library do *)
Section Play.
Variable g : rng.
Variable eps : R.
Hypothesis G : rng_ok g.

Definition frac (p : parameter) (v : R) : R :=
  if Req_EM_T (pr_min p) (pr_max p) then 0%R else ((v - pr_min p) / (pr_max p - pr_min p))%R.

Definition value_tape (ps : list parameter) (vs : list R) : list draw :=
  map (fun pv => DU (frac (fst pv) (snd pv))) (List.combine ps vs).

Lemma frac_ok p v : (pr_min p <= v < pr_max p)%R \/ (v = pr_min p /\ pr_min p = pr_max p) ->
  (0 <= frac p v < 1)%R /\ pr_random_value p (frac p v) = v.
Proof.
  unfold frac, pr_random_value. destruct (Req_EM_T (pr_min p) (pr_max p)) as [E|E]; intros [H|H].
  - lra.
  - split; [lra|]. rewrite E. lra.
  - assert (0 < pr_max p - pr_min p)%R by lra. split.
    + split; [apply Rle_div_r; lra|]. apply Rlt_div_l; lra.
    + field. lra.
  - lra.
Qed.

Lemma value_tape_ok ps vs : drawable_values ps vs -> List.Forall draw_ok (value_tape ps vs).
Proof.
  induction 1 as [|p v ps vs H _ IH]; constructor; auto. simpl. now apply frac_ok.
Qed.

Lemma drawable_in_range ps vs : drawable_values ps vs -> in_range ps vs.
Proof. induction 1 as [|p v ps vs H _ IH]; constructor; auto. lra. Qed.

Lemma play_values ps vs : drawable_values ps vs -> forall st, tape_at g (r_draws st) (value_tape ps vs) ->
  random_values g ps st =
    ({| r_world := r_world st; r_draws := (r_draws st + List.length (value_tape ps vs))%nat |}, Ok vs).
Proof.
  induction 1 as [|p v ps vs H _ IH]; intros st T.
  - destruct st. cbn. now rewrite Nat.add_0_r.
  - cbn [value_tape List.combine map] in T. apply tape_cons in T. destruct T as [T1 T2]. cbn in T1.
    cbn [random_values]. unfold se_bind at 1, draw_unif. rewrite T1.
    specialize (IH {| r_world := r_world st; r_draws := S (r_draws st) |} T2).
    rewrite (bind_eq _ _ _ _ _ IH). unfold se_ret. cbn [r_world r_draws].
    rewrite (proj2 (frac_ok p v H)). cbn [value_tape List.combine map List.length].
    now replace (S (r_draws st) + List.length (value_tape ps vs))%nat with (r_draws st + S (List.length (value_tape ps vs)))%nat by lia.
Qed.

(** The part of the tape that makes one gate of primitive [p]. *)
Definition gate_tape (p : primitive) (gt : gatety) (t : list draw) : Prop :=
  exists tv tq, t = tv ++ [tq] /\
    match p_source p with
    | Fixed u => fst gt = u /\ tv = []
    | Family pu => exists vs, drawable_values (pu_params pu) vs /\ as_unitary eps pu vs = Ok (fst gt) /\
        tv = value_tape (pu_params pu) vs
    end /\
    match p_allowed p with
    | Some ls => exists k, tq = DI k /\ nth_error ls k = Some (snd gt)
    | None => tq = DP (snd gt)
    end.

Lemma gate_tape_exists n p gt : drawable eps n p gt ->
  exists t, gate_tape p gt t /\ List.Forall draw_ok t.
Proof.
  intros (H1 & H2 & H3). unfold drawable_gate in H1.
  assert (A : exists tv, List.Forall draw_ok tv /\ match p_source p with
    | Fixed u => fst gt = u /\ tv = []
    | Family pu => exists vs, drawable_values (pu_params pu) vs /\ as_unitary eps pu vs = Ok (fst gt) /\
        tv = value_tape (pu_params pu) vs end).
  { destruct (p_source p) as [v|pu].
    - exists []. auto.
    - destruct H1 as (vs & V1 & V2). exists (value_tape (pu_params pu) vs).
      split; [now apply value_tape_ok|]. eauto. }
  destruct A as (tv & A1 & A2).
  assert (B : exists tq, draw_ok tq /\ match p_allowed p with
    | Some ls => exists k, tq = DI k /\ nth_error ls k = Some (snd gt)
    | None => tq = DP (snd gt) end).
  { destruct (p_allowed p) as [ls|].
    - destruct (In_nth_error _ _ (H2 ls eq_refl)) as (k & Hk). exists (DI k). split; [exact I|eauto].
    - exists (DP (snd gt)). split; [exact I|reflexivity]. }
  destruct B as (tq & B1 & B2).
  exists (tv ++ [tq]). split.
  - exists tv, tq. auto.
  - apply Forall_app. split; auto.
Qed.

(** The choice of the primitive. *)
Definition pick_tape (ps : list primitive) (probs : option (list R)) (p : primitive) (d : draw) : Prop :=
  exists i, nth_error (filter usable ps) i = Some p /\
    match probs with
    | None => d = DI i
    | Some q => good_probabilities (List.length (filter usable ps)) q /\ (0 < nth i q 0)%R /\
        d = DU (sumR (firstn i q) / sumR q)
    end.

Lemma sumR_app l l' : sumR (l ++ l') = (sumR l + sumR l')%R.
Proof. induction l as [|x t IH]; simpl; [lra|]. rewrite IH. lra. Qed.

Lemma sumR_nonneg l : (forall x, In x l -> (0 <= x)%R) -> (0 <= sumR l)%R.
Proof.
  induction l as [|x t IH]; simpl; intros H; [lra|].
  assert (0 <= x)%R by auto. assert (0 <= sumR t)%R by auto. lra.
Qed.

Lemma firstn_in {A} k (l : list A) x : In x (firstn k l) -> In x l.
Proof. intros H. rewrite <- (firstn_skipn k l). apply in_or_app. auto. Qed.

Lemma sumR_firstn_mono q i j : (forall x, In x q -> (0 <= x)%R) -> (i <= j)%nat ->
  (sumR (firstn i q) <= sumR (firstn j q))%R.
Proof.
  intros H L. replace (firstn i q) with (firstn i (firstn j q)) by (rewrite firstn_firstn; f_equal; lia).
  rewrite <- (firstn_skipn i (firstn j q)) at 2. rewrite sumR_app.
  assert (0 <= sumR (skipn i (firstn j q)))%R; [|lra].
  apply sumR_nonneg. intros x Hx. apply H. apply (firstn_in j).
  rewrite <- (firstn_skipn i (firstn j q)). apply in_or_app. auto.
Qed.

Lemma sumR_firstn_S q i : (i < List.length q)%nat -> sumR (firstn (S i) q) = (sumR (firstn i q) + nth i q 0)%R.
Proof.
  revert i. induction q as [|x t IH]; intros i H; simpl in H; [lia|].
  destruct i as [|i].
  - simpl. destruct t; simpl; lra.
  - change (firstn (S (S i)) (x :: t)) with (x :: firstn (S i) t).
    change (firstn (S i) (x :: t)) with (x :: firstn i t). cbn [sumR nth]. rewrite (IH i) by lia. lra.
Qed.

Lemma good_sum_pos n q : good_probabilities n q -> (0 < sumR q)%R.
Proof.
  intros (_ & _ & H). rewrite <- sumR_fold in H. pose proof choice_tol_small as T. fold choice_tol in H.
  apply Rabs_le_between in H. lra.
Qed.

Lemma pick_tape_ok ps probs p d : pick_tape ps probs p d -> draw_ok d.
Proof.
  intros (i & Hi & H). destruct probs as [q|]; [|subst; exact I].
  destruct H as (GP & Hp & ->). cbn. pose proof (good_sum_pos _ _ GP) as P.
  destruct GP as (L & N & _).
  assert (Li : (i < List.length q)%nat) by (rewrite L; apply nth_error_Some; congruence).
  split.
  - apply Rle_div_r; auto. rewrite Rmult_0_l. apply sumR_nonneg. intros x Hx. apply N. eapply firstn_in; eauto.
  - apply Rlt_div_l; auto. rewrite Rmult_1_l. pose proof (sumR_firstn_S q i Li).
    pose proof (sumR_firstn_mono q (S i) (List.length q) N ltac:(lia)) as M. rewrite firstn_all in M. lra.
Qed.

Lemma play_pick ps probs p d st : pick_tape ps probs p d -> answer_is g (r_draws st) d ->
  exists i, nth_error (filter usable ps) i = Some p /\
  match probs with
  | None => choice_unif g (List.length (filter usable ps))
  | Some q => choice_p g (List.length (filter usable ps)) q
  end st = ({| r_world := r_world st; r_draws := S (r_draws st) |}, Ok i).
Proof.
  intros (i & Hi & H) A. exists i. split; auto.
  assert (Li : (i < List.length (filter usable ps))%nat) by (apply nth_error_Some; congruence).
  destruct probs as [q|].
  - destruct H as (GP & Hp & ->). cbn in A.
    destruct (choice_p_good g (List.length (filter usable ps)) q st G ltac:(lia) GP) as (j & E & Lj & B1 & B2). rewrite E. do 2 f_equal.
    rewrite A in B1, B2. pose proof (good_sum_pos _ _ GP) as P. destruct GP as (L & N & _).
    replace (sumR (firstn i q) / sumR q * sumR q)%R with (sumR (firstn i q)) in B1, B2 by (field; lra).
    assert (S1 := sumR_firstn_S q i ltac:(lia)).
    destruct (Nat.lt_trichotomy i j) as [X|[X|X]]; [|auto|].
    + pose proof (sumR_firstn_mono q (S i) j N ltac:(lia)). lra.
    + pose proof (sumR_firstn_mono q (S j) i N ltac:(lia)). lra.
  - subst d. cbn in A. unfold choice_unif. destruct (Nat.eqb_spec (List.length (filter usable ps)) 0); [lia|].
    now rewrite A.
Qed.

(** One entry: it says what the tape says, and exactly the tape is used up. *)
Lemma play_create n ps probs p gt d t st st' l :
  drawable eps n p gt -> pick_tape ps probs p d -> gate_tape p gt t ->
  tape_at g (r_draws st) (d :: t) ->
  create_random_sequence_entry g eps (2 ^ n) ps probs st = (st', Ok l) ->
  has_gate (r_world st') l gt /\ r_draws st' = (r_draws st + List.length (d :: t))%nat /\
  forall s, spares eps s (r_world st) (r_world st').
Proof.
  intros HD HP (tv & tq & -> & HV & HQ) T H.
  assert (Sp : forall s, spares eps s (r_world st) (r_world st')).
  { apply (create_ok g eps G) in H. destruct H as (_ & _ & _ & Sp). exact Sp. }
  apply tape_cons in T. destruct T as [T1 T]. apply tape_app in T. destruct T as [T2 T3].
  apply tape_cons in T3. destruct T3 as [T3 _].
  destruct (play_pick _ _ _ _ _ HP T1) as (i & Hi & E1).
  unfold create_random_sequence_entry in H. rewrite (bind_eq _ _ _ _ _ E1) in H. rewrite Hi in H. clear E1 Hi HP.
  set (st1 := {| r_world := r_world st; r_draws := S (r_draws st) |}) in *.
  set (st2 := {| r_world := r_world st; r_draws := (S (r_draws st) + List.length tv)%nat |}).
  assert (E2 : (match p_source p with
     | Fixed u => se_ret u
     | Family pu => vs <-- random_values g (pu_params pu);; se_lift (as_unitary eps pu vs) end) st1 = (st2, Ok (fst gt))).
  { destruct (p_source p) as [v|pu].
    - destruct HV as [<- ->]. unfold st2, se_ret. cbn [List.length]. now rewrite Nat.add_0_r.
    - destruct HV as (vs & V1 & V2 & ->). rewrite (bind_eq _ _ _ _ _ (play_values _ _ V1 st1 T2)).
      unfold se_lift. now rewrite V2. }
  rewrite (bind_eq _ _ _ _ _ E2) in H. clear E2 HV.
  set (st3 := {| r_world := r_world st; r_draws := S (S (r_draws st) + List.length tv)%nat |}).
  assert (E3 : (match p_allowed p with
    | Some allowed => k <-- choice_unif g (List.length allowed);; se_ret (nth k allowed [])
    | None => choice_distinct g (Nat.log2 (2 ^ n)) (Nat.log2 (u_dim (fst gt))) end) st2 = (st3, Ok (snd gt))).
  { destruct HD as (_ & _ & HD). destruct (p_allowed p) as [ls|].
    - destruct HQ as (k & -> & Hk). cbn [answer_is] in T3.
      assert (Lk : (k < List.length ls)%nat) by (apply nth_error_Some; congruence).
      unfold choice_unif. destruct (Nat.eqb_spec (List.length ls) 0); [lia|].
      unfold se_bind. cbn [r_draws st2 r_world]. rewrite (T3 _ Lk). unfold se_ret.
      now rewrite (nth_error_nth ls k [] Hk).
    - subst tq. cbn [answer_is] in T3. destruct (HD eq_refl) as [P L]. rewrite L, !Nat.log2_pow2 by lia.
      unfold choice_distinct. pose proof (placement_length n _ P) as PL.
      destruct (Nat.ltb_spec n (List.length (snd gt))); [lia|].
      cbn [r_draws st2 r_world]. now rewrite (T3 n P). }
  rewrite (bind_eq _ _ _ _ _ E3) in H. clear E3.
  apply call_entry_ok in H. destruct H as [H HR].
  destruct (new_entry_view eps _ _ _ _ _ H) as (l' & E & HG & _). injection E as <-. rewrite to_of_nat in HG.
  split; [now destruct gt|]. split; auto.
  rewrite HR. cbn. rewrite app_length. cbn. lia.
Qed.

(** One change that appends [gs] at the end. *)
Definition follows (change : nat -> CM unit) (c0 : compiler) (t : list draw) (gs : list gatety) : Prop :=
  forall bt s st st' c' cs pv, tape_at g (r_draws st) t -> sees eps (r_world st) s (c_dim c0) cs pv ->
    change s (st, set_beta c0 bt) = ((st', c'), Ok tt) ->
    (exists pv', sees eps (r_world st') s (c_dim c0) (cs ++ gs) pv') /\
    r_draws st' = (r_draws st + List.length t)%nat.

Lemma action_half ap : (0 < ap <= 1)%R -> action_at ap (ap / 2) = ActAppendLast.
Proof.
  intros H. unfold action_at. destruct (Rlt_dec (ap / 2) (ap / 2)); [lra|].
  destruct (Rlt_dec (ap / 2) ap); [auto|lra].
Qed.

Lemma call_draws o st st' v : call eps o st = (st', Ok v) -> r_draws st' = r_draws st.
Proof. intros H. apply call_ok in H. apply H. Qed.

Lemma follows_single n c0 p gt d t :
  c_dim c0 = (2 ^ n)%nat -> (0 < c_append c0 <= 1)%R ->
  drawable eps n p gt -> pick_tape (c_prims c0) (c_probs c0) p d -> gate_tape p gt t ->
  follows (make_random_change g eps) c0 (DU (c_append c0 / 2) :: d :: t) [gt].
Proof.
  intros Hd Ha HD HP HT bt s st st' c' cs pv T S H.
  apply tape_cons in T. destruct T as [T1 T].
  unfold make_random_change in H.
  apply bind_ok in H. destruct H as (c & stc & H0 & H). unfold c_self in H0. injection H0 as <- <-.
  cbn [snd] in H. apply bind_ok in H. destruct H as (a & [st1 c1] & H1 & H).
  apply c_run_inv in H1. destruct H1 as [H1 ->]. cbn [set_beta c_append] in H1.
  rewrite choose_action_at in H1 by (auto; lra). cbn [answer_is] in T1. rewrite T1, action_half in H1 by auto.
  injection H1 as <- <-.
  apply bind_ok in H. destruct H as (l & [st2 c2] & H2 & H).
  apply c_run_inv in H2. destruct H2 as [H2 ->]. cbn [set_beta c_dim c_prims c_probs] in H2. rewrite Hd in H2.
  destruct (play_create n _ _ p gt d t {| r_world := r_world st; r_draws := Datatypes.S (r_draws st) |} _ _ HD HP HT T H2) as (HG & HR & Sp).
  apply bind_ok in H. destruct H as (v & [st3 c3] & H3 & H).
  apply c_run_inv in H3. destruct H3 as [H3 ->]. apply ret_ok in H. destruct H as [H _].
  injection H as -> ->. assert (HR3 := call_draws _ _ _ _ H3). apply call_ok in H3. destruct H3 as [H3 _].
  destruct (proj1 (proj2 (Sp s)) _ _ _ S) as [S2 _].
  destruct (append_last_view eps _ _ _ _ _ _ _ _ _ _ S2 HG H3) as (S3 & _).
  split; [eexists; exact S3|]. rewrite HR3, HR. cbn [r_draws List.length]. lia.
Qed.

(** ** Layers *)
Definition one_tape (p : primitive) (gt : gatety) (t : list draw) : Prop :=
  exists t', gate_tape p gt t' /\ t = DI 0 :: t'.

Lemma drawable_usable n p gt : drawable eps n p gt -> usable p = true.
Proof.
  intros (_ & H & _). unfold usable. destruct (p_allowed p) as [[|]|]; auto. destruct (H [] eq_refl).
Qed.

Lemma pick_one n p gt : drawable eps n p gt -> pick_tape [p] None p (DI 0).
Proof.
  intros H. exists 0%nat. split; auto. simpl. rewrite (drawable_usable _ _ _ H). reflexivity.
Qed.

Definition some_tapes (p : primitive) (gs : list gatety) (t : list draw) : Prop :=
  exists ts, Forall2 (one_tape p) gs ts /\ t = List.concat ts.

Lemma play_entries n p gs ts : Forall2 (one_tape p) gs ts -> List.Forall (drawable eps n p) gs -> forall st st' ls,
  tape_at g (r_draws st) (List.concat ts) -> WG eps anyg (r_world st) ->
  create_entries g eps (2 ^ n) p (List.length gs) st = (st', Ok ls) ->
  Forall2 (has_gate (r_world st')) ls gs /\ r_draws st' = (r_draws st + List.length (List.concat ts))%nat /\
  forall s, spares eps s (r_world st) (r_world st').
Proof.
  induction 1 as [|gt t gs ts (t' & H1 & ->) _ IH]; intros HF st st' ls T HW H; cbn [List.length create_entries] in H.
  - apply ret_ok in H. destruct H as [-> ->]. split; [constructor|]. split; [simpl; lia|]. intros. apply spares_refl.
  - inversion HF as [|? ? HD HF']; subst. cbn [List.concat] in T. apply tape_app in T. destruct T as [T1 T2].
    apply bind_ok in H. destruct H as (l & st1 & E1 & H). apply bind_ok in H. destruct H as (ls' & st2 & E2 & H).
    apply ret_ok in H. destruct H as [-> ->].
    destruct (play_create n _ _ p gt (DI 0) t' _ _ _ HD (pick_one _ _ _ HD) H1 T1 E1) as (HG & HR & Sp).
    rewrite <- HR in T2.
    assert (HW1 : WG eps anyg (r_world st1)) by (now apply (Sp 0%nat)).
    destruct (IH HF' st1 st2 ls' T2 HW1 E2) as (F & HR2 & Sp2).
    split; [|split].
    + constructor; auto. apply (Sp2 0%nat); auto.
    + rewrite HR2, HR. cbn [List.concat]. rewrite app_length. lia.
    + intros s. eapply spares_trans; eauto.
Qed.

Lemma play_layer_loop n counts parts : 
  Forall2 (fun pc part => List.length part = Z.to_nat (snd pc) /\ List.Forall (drawable eps n (fst pc)) part) counts parts ->
  forall ts, Forall2 (fun pcp t => some_tapes (fst (fst pcp)) (snd pcp) t) (List.combine counts parts) ts ->
  forall st st' ls, tape_at g (r_draws st) (List.concat ts) -> WG eps anyg (r_world st) ->
  create_layer_loop g eps (2 ^ n) counts st = (st', Ok ls) ->
  Forall2 (has_gate (r_world st')) ls (List.concat parts) /\
  r_draws st' = (r_draws st + List.length (List.concat ts))%nat /\
  forall s, spares eps s (r_world st) (r_world st').
Proof.
  induction 1 as [|[p k] part counts parts [HL HF] _ IH]; intros ts HT st st' ls T HW H; cbn [create_layer_loop List.combine] in *.
  - inversion HT; subst. apply ret_ok in H. destruct H as [-> ->]. split; [constructor|]. split; [simpl; lia|].
    intros. apply spares_refl.
  - inversion HT as [|? t ? ts' (ts1 & HT1 & ->) HT2]; subst. cbn [fst snd] in *.
    cbn [List.concat] in T. apply tape_app in T. destruct T as [T1 T2].
    apply bind_ok in H. destruct H as (ls1 & st1 & E1 & H). apply bind_ok in H. destruct H as (ls2 & st2 & E2 & H).
    apply ret_ok in H. destruct H as [-> ->]. rewrite <- HL in E1.
    destruct (play_entries n p part ts1 HT1 HF st st1 ls1 T1 HW E1) as (F1 & HR1 & Sp1).
    rewrite <- HR1 in T2.
    assert (HW1 : WG eps anyg (r_world st1)) by (now apply (Sp1 0%nat)).
    destruct (IH ts' HT2 st1 st2 ls2 T2 HW1 E2) as (F2 & HR2 & Sp2).
    split; [|split].
    + cbn [List.concat]. apply Forall2_app; auto. eapply has_gates_spares; eauto.
    + rewrite HR2, HR1. cbn [List.concat]. rewrite app_length. lia.
    + intros s. eapply spares_trans; eauto.
Qed.

(** Any rearrangement is made by some permutation of the positions. *)
Lemma rearrange {A} (a : A) l l' : Permutation l l' ->
  exists idx, Permutation idx (seq 0 (List.length l')) /\ map (fun i => nth i l' a) idx = l.
Proof.
  intros H. apply Permutation_sym, Permutation_nth with (d := a) in H.
  destruct H as (HL & f & B & I & E). exists (map f (seq 0 (List.length l'))). split.
  - apply NoDup_Permutation_bis.
    + apply (proj2 (NoDup_nth _ 0%nat)). rewrite map_length, seq_length. intros i j Hi Hj X.
      rewrite !(nth_indep _ 0%nat (f 0%nat)) in X by (rewrite map_length, seq_length; auto).
      rewrite !map_nth, !seq_nth in X by auto. simpl in X. now apply I.
    + now rewrite map_length.
    + intros x Hx. apply in_map_iff in Hx. destruct Hx as (y & <- & Hy). apply in_seq in Hy. apply in_seq.
      split; [lia|]. simpl. apply B. lia.
  - rewrite map_map. apply (nth_ext _ _ a a).
    + rewrite map_length, seq_length. auto.
    + intros i Hi. rewrite map_length, seq_length in Hi.
      rewrite (nth_indep _ a ((fun x => nth (f x) l' a) 0%nat)) by (rewrite map_length, seq_length; auto).
      rewrite (map_nth (fun x => nth (f x) l' a)), seq_nth by auto. symmetry. now apply E.
Qed.

Lemma play_perm k idx n : Permutation idx (seq 0 n) -> answer_is g k (DP idx) -> g_perm g k n = idx.
Proof.
  intros P A. destruct G as (_ & _ & G3). specialize (G3 k n).
  assert (L : List.length idx = n) by (rewrite (Permutation_length P); apply seq_length).
  assert (L' : List.length (g_perm g k n) = n) by (rewrite (Permutation_length G3); apply seq_length).
  destruct (Nat.eq_dec n 0) as [->|Hn].
  - destruct idx; [|discriminate]. destruct (g_perm g k 0); [auto|discriminate].
  - cbn [answer_is] in A. specialize (A n). rewrite L in A. rewrite <- L' in A at 2. rewrite firstn_all in A.
    apply A. split; [|split].
    + eapply Permutation_NoDup; [apply Permutation_sym; exact P|apply seq_NoDup].
    + intros ->. simpl in L. lia.
    + intros q Hq. apply (Permutation_in _ P) in Hq. apply in_seq in Hq. lia.
Qed.

(** The tape of a layer: the entries of every primitive, then the shuffle. *)
Definition layer_tape (n : nat) (counts : list (primitive * Z)) (layer : list gatety) (t : list draw) : Prop :=
  exists parts ts idx,
    Forall2 (fun pc part => List.length part = Z.to_nat (snd pc) /\ List.Forall (drawable eps n (fst pc)) part)
      counts parts /\
    Forall2 (fun pcp t => some_tapes (fst (fst pcp)) (snd pcp) t) (List.combine counts parts) ts /\
    Permutation idx (seq 0 (List.length (List.concat parts))) /\
    map (fun i => nth i (List.concat parts) (e_unitary no_entry, [])) idx = layer /\
    t = List.concat ts ++ [DP idx].

Lemma play_layer n counts layer t st st' ls : layer_tape n counts layer t ->
  tape_at g (r_draws st) t -> WG eps anyg (r_world st) ->
  create_random_layer g eps (2 ^ n) counts st = (st', Ok ls) ->
  Forall2 (has_gate (r_world st')) ls layer /\ r_draws st' = (r_draws st + List.length t)%nat /\
  forall s, spares eps s (r_world st) (r_world st').
Proof.
  intros (parts & ts & idx & H1 & H2 & H3 & H4 & ->) T HW H.
  apply tape_app in T. destruct T as [T1 T2]. apply tape_cons in T2. destruct T2 as [T2 _].
  apply bind_ok in H. destruct H as (ls1 & st1 & E1 & H).
  destruct (play_layer_loop n counts parts H1 ts H2 st st1 ls1 T1 HW E1) as (F & HR & Sp).
  unfold shuffle in H. injection H as <- <-. cbn [r_world r_draws]. rewrite <- HR in T2.
  assert (LL := F2_length _ _ _ F).
  rewrite (play_perm (r_draws st1) idx (List.length ls1)); [|now rewrite LL|exact T2].
  split; [|split].
  - rewrite <- H4. apply Forall2_nth_perm; auto. intros i Hi.
    apply (Permutation_in _ H3) in Hi. apply in_seq in Hi. lia.
  - rewrite HR, app_length. simpl. lia.
  - exact Sp.
Qed.

Lemma append_all_draws mk ls : forall first st st', append_all eps mk ls first st = (st', Ok tt) -> r_draws st' = r_draws st.
Proof.
  induction ls as [|l ls IH]; intros first st st' H; cbn [append_all] in H.
  - apply ret_ok in H. now destruct H as [-> _].
  - apply bind_ok in H. destruct H as (v & st1 & H1 & H2). apply call_draws in H1. apply IH in H2. congruence.
Qed.

Lemma follows_layered n c0 counts layer t :
  c_dim c0 = (2 ^ n)%nat -> (0 < c_append c0 <= 1)%R -> layer_tape n counts layer t ->
  follows (make_random_change_layered g eps counts) c0 (DU (c_append c0 / 2) :: t) layer.
Proof.
  intros Hd Ha HT bt s st st' c' cs pv T S H.
  apply tape_cons in T. destruct T as [T1 T].
  unfold make_random_change_layered in H.
  apply bind_ok in H. destruct H as (c & stc & H0 & H). unfold c_self in H0. injection H0 as <- <-.
  cbn [snd] in H. apply bind_ok in H. destruct H as (a & [st1 c1] & H1 & H).
  apply c_run_inv in H1. destruct H1 as [H1 ->]. cbn [set_beta c_append] in H1.
  rewrite choose_action_at in H1 by (auto; lra). cbn [answer_is] in T1. rewrite T1, action_half in H1 by auto.
  injection H1 as <- <-.
  apply bind_ok in H. destruct H as (ls & [st2 c2] & H2 & H).
  apply c_run_inv in H2. destruct H2 as [H2 ->]. cbn [set_beta c_dim] in H2. rewrite Hd in H2.
  destruct (play_layer n counts layer t {| r_world := r_world st; r_draws := Datatypes.S (r_draws st) |} _ _ HT T (sees_W _ _ _ _ _ _ S) H2)
    as (F & HR & Sp).
  apply c_run_inv in H. destruct H as [H ->].
  destruct (proj1 (proj2 (Sp s)) _ _ _ S) as [S2 _].
  destruct (append_all_last eps s ls layer true st2 st' _ cs pv H S2 F) as (S3 & _).
  split; [eexists; exact S3|]. rewrite (append_all_draws _ _ _ _ _ H), HR. cbn [r_draws List.length]. lia.
Qed.

(** ** Runs *)
Definition accept_after (t : list draw) : list draw := t ++ [DU 0].

Lemma play_loop change R c0 s target thr max :
  change_ok eps change R c0 ->
  forall items, (forall x, In x items -> follows change c0 (fst x) (snd x)) ->
  forall fuel bt costs st st' c' costs' cs pv,
  sees eps (r_world st) s (c_dim c0) cs pv ->
  (max <= Z.of_nat (List.length costs + List.length items))%Z ->
  tape_at g (r_draws st) (List.concat (map (fun x => accept_after (fst x)) items)) ->
  compile_loop g eps change s target thr max costs fuel (st, set_beta c0 bt) = ((st', c'), Ok costs') ->
  (List.length costs <= List.length costs')%nat /\
  contents (r_world st') s = cs ++ List.concat (map snd (firstn (List.length costs' - List.length costs) items)).
Proof.
  intros HC items. induction items as [|[t gs] items IH]; intros HF fuel bt costs st st' c' costs' cs pv S HM T H;
    (destruct fuel as [|fuel]; [discriminate|]); cbn [compile_loop] in H.
  all: apply bind_ok in H; destruct H as (p & [st1 c1] & H1 & H); apply c_run_inv in H1; destruct H1 as [H1 ->].
  all: apply call_unitary_ok in H1; destruct H1 as [H1 HR1].
  all: destruct (product_view eps _ _ _ _ _ _ _ S H1) as (p' & E & S1 & A & A1 & _); injection E as <-.
  all: apply bind_ok in H; destruct H as (close & sty & H2 & H); apply lift_ok in H2; destruct H2 as [-> H2].
  all: assert (Stop : forall st2 costs2, st2 = st1 -> costs2 = costs -> (List.length costs <= List.length costs2)%nat /\
    forall items, contents (r_world st2) s = cs ++ List.concat (map (@snd (list draw) (list gatety)) (firstn (List.length costs2 - List.length costs) items)))
    by (intros ? ? -> ->; split; [lia|]; intros; rewrite Nat.sub_diag; simpl; rewrite app_nil_r; eapply sees_contents; exact S1).
  - assert (X : st' = st1 /\ costs' = costs).
    { destruct close; [apply ret_ok in H; destruct H as [H ->]; injection H as -> ->; auto|].
      simpl in HM. destruct (Z.ltb_spec (Z.of_nat (List.length costs)) max); [lia|].
      apply ret_ok in H; destruct H as [H ->]; injection H as -> ->; auto. }
    destruct X as [X1 X2]. destruct (Stop st' costs' X1 X2) as [Y1 Y2]. split; auto.
  - destruct close.
    { apply ret_ok in H; destruct H as [H ->]; injection H as -> ->.
      destruct (Stop _ _ eq_refl eq_refl) as [Y1 Y2]. split; auto. }
    destruct (Z.ltb_spec (Z.of_nat (List.length costs)) max) as [L|L].
    2:{ apply ret_ok in H; destruct H as [H ->]; injection H as -> ->.
        destruct (Stop _ _ eq_refl eq_refl) as [Y1 Y2]. split; auto. }
    clear Stop.
    apply bind_ok in H. destruct H as (cost & [st2 c2] & H3 & H).
    cbn [map List.concat fst] in T. apply tape_app in T. destruct T as [T TN].
    apply tape_app in T. destruct T as [TC TA]. apply tape_cons in TA. destruct TA as [TA _].
    destruct (step_ok g eps G change R c0 bt s target _ _ _ _ _ _ HC S1 H3)
      as (-> & q1 & q2 & q3 & q4 & cs1 & q5 & _ & _ & _ & _ & (st5 & Hch & _ & (pv5 & S5) & HR5 & Hq5) & D).
    assert (SX := sees_other eps _ _ _ _ _ (Product s) S1 eq_refl).
    rewrite HR1 in Hch.
    destruct (HF (t, gs) (or_introl eq_refl) _ s {| r_world := fst (step eps (Product s) (r_world st1)); r_draws := r_draws st |}
      _ _ cs pv TC SX Hch) as ((pv6 & S6) & HR6). cbn [fst snd r_draws] in S6, HR6.
    assert (EC : cs1 = cs ++ gs).
    { apply sees_contents in S5. apply sees_contents in S6. congruence. }
    rewrite <- HR6 in TA. cbn [answer_is] in TA. rewrite TA in Hq5. subst q5.
    destruct D as [(_ & _ & (pv7 & S7) & _)|(D & _)].
    2:{ exfalso. pose proof (metropolis_pos (Rmin (bt + c_rate c0) (c_max_beta c0)) (q4 - q2)). lra. }
    rewrite EC in S7.
    assert (TN' : tape_at g (r_draws st2) (List.concat (map (fun x => accept_after (fst x)) items))).
    { replace (r_draws st2) with (r_draws st + List.length (accept_after t))%nat; [exact TN|].
      unfold accept_after. rewrite app_length. simpl. lia. }
    assert (LC : List.length (costs ++ [cost]) = Datatypes.S (List.length costs)) by (rewrite app_length; simpl; lia).
    destruct (IH (fun x Hx => HF x (or_intror Hx)) _ _ _ _ _ _ _ _ _ S7
      ltac:(rewrite LC; simpl in HM |- *; lia) TN' H) as [I1 I2].
    rewrite LC in I1, I2. split; [lia|]. rewrite I2, <- app_assoc.
    replace (List.length costs' - List.length costs)%nat with (Datatypes.S (List.length costs' - Datatypes.S (List.length costs))) by lia.
    reflexivity.
Qed.

Lemma play_with change R c0 target thr max items st st' c' s costs :
  change_ok eps change R c0 -> (forall x, In x items -> follows change c0 (fst x) (snd x)) ->
  (max <= Z.of_nat (List.length items))%Z ->
  WG eps anyg (r_world st) ->
  tape_at g (r_draws st) (List.concat (map (fun x => accept_after (fst x)) items)) ->
  compile_with g eps change target thr max (st, c0) = ((st', c'), Ok (s, costs)) ->
  contents (r_world st') s = List.concat (map snd (firstn (List.length costs) items)).
Proof.
  intros HC HF HM HW T H. unfold compile_with in H.
  apply bind_ok in H. destruct H as (cc & sty & H0 & H). unfold c_self in H0. injection H0 as <- <-.
  cbn [snd] in H. apply bind_ok in H. destruct H as (s0 & [st1 c1] & H1 & H).
  apply c_run_inv in H1. destruct H1 as [H1 ->]. apply call_sequence_ok in H1. destruct H1 as [H1 HR].
  destruct (new_sequence_view eps (r_world st) (c_dim c0) HW) as (w1 & E & S1).
  rewrite E in H1. injection H1 as E1 <-.
  apply bind_ok in H. destruct H as (costs1 & [st2 c2] & H2 & H). apply ret_ok in H. destruct H as [H H3].
  injection H as -> ->. injection H3 as -> ->. rewrite E1 in S1. rewrite <- (set_beta_same c0) in H2.
  rewrite <- HR in T.
  destruct (play_loop change R c0 _ target thr max HC items HF _ _ _ _ _ _ _ _ _ S1 ltac:(simpl; lia) T H2) as [_ I].
  rewrite I. simpl. now rewrite Nat.sub_0_r.
Qed.
End Play.

(** * The theorems *)
Lemma pick_tape_exists eps n c p : good_compiler eps n c -> weighted (c_prims c) (c_probs c) p ->
  exists d, pick_tape (c_prims c) (c_probs c) p d.
Proof.
  intros (_ & _ & _ & HC) (i & Hi & HQ). change has_place with usable in Hi. destruct (c_probs c) as [q|] eqn:E.
  - destruct HC as (_ & H1 & H2).
    assert (F : filter usable (c_prims c) = c_prims c).
    { apply filter_all. intros x Hx. apply H1 in Hx. unfold usable. destruct (p_allowed x) as [[|]|]; auto; congruence. }
    eexists. exists i. split; [exact Hi|]. rewrite F. split; [exact H2|]. split; [now apply HQ|reflexivity].
  - exists (DI i). exists i. auto.
Qed.

Definition items_of (xs : list (list draw * list gatety)) : list draw :=
  List.concat (map (fun x => accept_after (fst x)) xs).

Lemma items_ok xs : (forall x, In x xs -> List.Forall draw_ok (fst x)) -> List.Forall draw_ok (items_of xs).
Proof.
  induction xs as [|x xs IH]; intros H; [constructor|]. unfold items_of. cbn [map List.concat].
  apply Forall_app. split; [|apply IH; intros; apply H; simpl; auto].
  unfold accept_after. apply Forall_app. split; [apply H; simpl; auto|]. constructor; [|constructor]. cbn. lra.
Qed.

Lemma single_items eps n c gts :
  good_compiler eps n c -> (0 < c_append c)%R -> List.Forall (in_repertoire eps n c) gts ->
  exists xs, map snd xs = map (fun gt => [gt]) gts /\
    (forall x, In x xs -> List.Forall draw_ok (fst x)) /\
    (forall g, rng_ok g -> forall x, In x xs -> follows g eps (make_random_change g eps) c (fst x) (snd x)).
Proof.
  intros HC Ha H. induction H as [|gt gts (p & HQ & HD) _ (xs & I1 & I2 & I3)].
  - exists []. split; [reflexivity|]. split; [intros x []|intros g G x []].
  - destruct (pick_tape_exists eps n c p HC HQ) as (d & Hd).
    destruct (gate_tape_exists eps n p gt HD) as (t & T1 & T2).
    destruct HC as (C1 & C2 & _).
    exists ((DU (c_append c / 2) :: d :: t, [gt]) :: xs). split; [simpl; now rewrite I1|]. split.
    + intros x [<-|Hx]; [|auto]. cbn [fst]. constructor; [cbn; lra|]. constructor; [eapply pick_tape_ok; eauto|auto].
    + intros g G x [<-|Hx]; [|auto]. cbn [fst snd]. eapply follows_single; eauto. lra.
Qed.

Lemma concat_singles {A} (l : list A) : List.concat (map (fun x => [x]) l) = l.
Proof. induction l; simpl; congruence. Qed.

Lemma single_tape eps n c gts k :
  good_compiler eps n c -> (0 < c_append c)%R -> List.Forall (in_repertoire eps n c) gts ->
  exists g, rng_ok g /\ forall st target thr st' c' s costs, r_draws st = k -> WG eps anyg (r_world st) ->
    compile g eps target thr (Z.of_nat (List.length gts)) (st, c) = ((st', c'), Ok (s, costs)) ->
    contents (r_world st') s = firstn (List.length costs) gts.
Proof.
  intros HC Ha H. destruct (single_items _ _ _ _ HC Ha H) as (xs & X1 & X2 & X3).
  assert (L : List.length xs = List.length gts).
  { apply (f_equal (@List.length _)) in X1. now rewrite !map_length in X1. }
  assert (G := tape_rng_ok k _ (items_ok _ X2)). exists (tape_rng k (items_of xs)). split; auto.
  intros st target thr st' c' s costs <- HW E. apply compile_inv in E.
  rewrite (play_with _ eps G _ _ c target thr (Z.of_nat (List.length gts)) xs st st' c' s costs (change_single _ eps G c) (X3 _ G)
    ltac:(rewrite L; lia) HW (tape_rng_at _ _) E).
  rewrite <- firstn_map, X1, firstn_map. apply concat_singles.
Qed.

Lemma early eps w s target thr (costs : list R) (l : list gatety) :
  (exists p close, answers eps w s p /\ u_close_to eps p target thr = Ok close /\
    (close = false -> (Z.of_nat (List.length l) <= Z.of_nat (List.length costs))%Z)) ->
  (List.length costs < List.length l)%nat -> exists p, answers eps w s p /\ u_close_to eps p target thr = Ok true.
Proof.
  intros (p & close & A & B & D) L. exists p. split; auto. destruct close; auto. specialize (D eq_refl). lia.
Qed.

Lemma exact_reachable w : exact_world w -> reachable 0 w.
Proof. intros (os & -> & H). exists os. auto. Qed.
Lemma drift_reachable eps K w : drift_world eps K w -> reachable eps w.
Proof. intros (os & -> & H). exists os. auto. Qed.

Lemma layer_tape_exists eps n counts layer : drawable_layer eps n counts layer ->
  exists t, layer_tape eps n counts layer t /\ List.Forall draw_ok t.
Proof.
  intros (parts & HP & HF).
  assert (A : exists ts, Forall2 (fun pcp t => some_tapes eps (fst (fst pcp)) (snd pcp) t) (List.combine counts parts) ts /\
    List.Forall draw_ok (List.concat ts)).
  { clear HP. induction HF as [|[p k] part counts parts [_ HD] _ (ts & I1 & I2)].
    - exists []. split; constructor.
    - assert (B : exists t, some_tapes eps p part t /\ List.Forall draw_ok t).
      { cbn [fst snd] in HD. clear - HD. induction HD as [|gt gs HD _ (t & (ts & J1 & ->) & J2)].
        - exists []. split; [|constructor]. exists []. split; constructor.
        - destruct (gate_tape_exists eps n p gt HD) as (t & T1 & T2).
          exists ((DI 0 :: t) ++ List.concat ts). split.
          + exists ((DI 0 :: t) :: ts). split; [|reflexivity]. constructor; auto. exists t. auto.
          + apply Forall_app. split; auto. constructor; [exact I|auto]. }
      destruct B as (t & B1 & B2). exists (t :: ts). split.
      + cbn [List.combine]. constructor; auto.
      + cbn [List.concat]. apply Forall_app. auto. }
  destruct A as (ts & A1 & A2).
  destruct (rearrange (e_unitary no_entry, []) layer (List.concat parts) HP) as (idx & D1 & D2).
  exists (List.concat ts ++ [DP idx]). split.
  - exists parts, ts, idx. auto.
  - apply Forall_app. split; auto. constructor; [exact I|constructor].
Qed.

Lemma layered_items eps n c counts layers :
  c_dim c = (2 ^ n)%nat -> (0 < c_append c <= 1)%R -> List.Forall (drawable_layer eps n counts) layers ->
  exists xs, map snd xs = layers /\
    (forall x, In x xs -> List.Forall draw_ok (fst x)) /\
    (forall g, rng_ok g -> forall x, In x xs -> follows g eps (make_random_change_layered g eps counts) c (fst x) (snd x)).
Proof.
  intros Hd Ha H. induction H as [|layer layers HL _ (xs & I1 & I2 & I3)].
  - exists []. split; [reflexivity|]. split; [intros x []|intros g G x []].
  - destruct (layer_tape_exists eps n counts layer HL) as (t & T1 & T2).
    exists ((DU (c_append c / 2) :: t, layer) :: xs). split; [simpl; now rewrite I1|]. split.
    + intros x [<-|Hx]; [|auto]. cbn [fst]. constructor; [cbn; lra|auto].
    + intros g G x [<-|Hx]; [|auto]. cbn [fst snd]. eapply follows_layered; eauto.
Qed.

Lemma layered_tape eps n c counts layers k :
  c_dim c = (2 ^ n)%nat -> (0 < c_append c <= 1)%R -> List.Forall (drawable_layer eps n counts) layers ->
  exists g, rng_ok g /\ forall st target thr st' c' s costs, r_draws st = k -> WG eps anyg (r_world st) ->
    compile_layered g eps target counts thr (Z.of_nat (List.length layers)) (st, c) = ((st', c'), Ok (s, costs)) ->
    contents (r_world st') s = List.concat (firstn (List.length costs) layers).
Proof.
  intros Hd Ha H. destruct (layered_items _ _ _ _ _ Hd Ha H) as (xs & X1 & X2 & X3).
  assert (L : List.length xs = List.length layers).
  { apply (f_equal (@List.length _)) in X1. now rewrite !map_length in X1. }
  assert (G := tape_rng_ok k _ (items_ok _ X2)). exists (tape_rng k (items_of xs)). split; auto.
  intros st target thr st' c' s costs <- HW E. unfold compile_layered in E.
  rewrite (play_with _ eps G _ _ c target thr (Z.of_nat (List.length layers)) xs st st' c' s costs (change_layered _ eps G c counts) (X3 _ G)
    ltac:(rewrite L; lia) HW (tape_rng_at _ _) E).
  now rewrite <- firstn_map, X1.
Qed.

Lemma C63_lemma : forall st c n gts,
  exact_world (r_world st) -> good_compiler 0 n c -> c_array c = false \/ List.length (c_prims c) = 1%nat ->
  (0 < c_append c)%R -> Forall (in_repertoire 0 n c) gts ->
  exists g, rng_ok g /\ forall target thr, built 0 target -> u_dim target = (2 ^ n)%nat ->
  exists st' c' s costs,
    compile g 0 target thr (Z.of_nat (List.length gts)) (st, c) = ((st', c'), Ok (s, costs)) /\
    contents (r_world st') s = firstn (List.length costs) gts /\
    ((List.length costs < List.length gts)%nat ->
       exists p, answers 0 (r_world st') s p /\ u_close_to 0 p target thr = Ok true).
Proof.
  intros st c n gts HX HC HA Ha H. destruct (single_tape 0 n c gts (r_draws st) HC Ha H) as (g & G & P).
  exists g. split; auto. intros target thr HT Hd.
  destruct (C28_lemma g st c target thr (Z.of_nat (List.length gts)) n G HX HC HA HT Hd) as (st' & c' & s & costs & E).
  exists st', c', s, costs. assert (HR := exact_reachable _ HX). split; auto. split.
  - eapply P; eauto. now apply reachable_W.
  - apply early. eapply (C24_lemma g 0 st c target thr _ st' c' s costs G HR E).
Qed.

Lemma C63_drift_lemma : forall eps st c n K gts,
  drift_world eps K (r_world st) -> good_compiler eps n c -> c_array c = false \/ List.length (c_prims c) = 1%nat ->
  (0 < c_append c)%R -> Forall (in_repertoire eps n c) gts -> small_drift eps n (S (K + List.length gts)) ->
  exists g, rng_ok g /\ forall target thr, made eps target -> u_dim target = (2 ^ n)%nat ->
  exists st' c' s costs,
    compile g eps target thr (Z.of_nat (List.length gts)) (st, c) = ((st', c'), Ok (s, costs)) /\
    contents (r_world st') s = firstn (List.length costs) gts /\
    ((List.length costs < List.length gts)%nat ->
       exists p, answers eps (r_world st') s p /\ u_close_to eps p target thr = Ok true).
Proof.
  intros eps st c n K gts HX HC HA Ha H SD. destruct (single_tape eps n c gts (r_draws st) HC Ha H) as (g & G & P).
  exists g. split; auto. intros target thr HT Hd.
  destruct (C28_drift_lemma g eps st c target thr (Z.of_nat (List.length gts)) n K G HX HC HA HT Hd) as (st' & c' & s & costs & E).
  { now rewrite Nat2Z.id. }
  exists st', c', s, costs. assert (HR := drift_reachable _ _ _ HX). split; auto. split.
  - eapply P; eauto. now apply reachable_W.
  - apply early. eapply (C24_lemma g eps st c target thr _ st' c' s costs G HR E).
Qed.

Lemma C63_layered_lemma : forall st c n counts layers,
  exact_world (r_world st) -> c_dim c = (2 ^ n)%nat -> (0 < c_append c <= 1)%R -> good_table 0 n counts ->
  Forall (drawable_layer 0 n counts) layers ->
  exists g, rng_ok g /\ forall target thr, built 0 target -> u_dim target = (2 ^ n)%nat ->
  exists st' c' s costs,
    compile_layered g 0 target counts thr (Z.of_nat (List.length layers)) (st, c) = ((st', c'), Ok (s, costs)) /\
    contents (r_world st') s = List.concat (firstn (List.length costs) layers) /\
    ((List.length costs < List.length layers)%nat ->
       exists p, answers 0 (r_world st') s p /\ u_close_to 0 p target thr = Ok true).
Proof.
  intros st c n counts layers HX Hdc Ha HC H.
  destruct (layered_tape 0 n c counts layers (r_draws st) Hdc Ha H) as (g & G & P).
  exists g. split; auto. intros target thr HT Hd.
  destruct (C28_layered_lemma g st c target counts thr (Z.of_nat (List.length layers)) n G HX Hdc ltac:(lra) HC HT Hd)
    as (st' & c' & s & costs & E).
  exists st', c', s, costs. assert (HR := exact_reachable _ HX). split; auto. split.
  - eapply P; eauto. now apply reachable_W.
  - intros L. destruct (proj2 (C24_layered_lemma g 0 st c target counts thr _ st' c' s costs G HR E)) as (p & close & A & B & D).
    exists p. split; auto. destruct close; auto. specialize (D eq_refl). lia.
Qed.

Lemma C63_drift_layered_lemma : forall eps st c n K counts layers,
  drift_world eps K (r_world st) -> c_dim c = (2 ^ n)%nat -> (0 < c_append c <= 1)%R -> good_table eps n counts ->
  Forall (drawable_layer eps n counts) layers -> small_drift eps n (S (K + table_size counts * List.length layers)) ->
  exists g, rng_ok g /\ forall target thr, made eps target -> u_dim target = (2 ^ n)%nat ->
  exists st' c' s costs,
    compile_layered g eps target counts thr (Z.of_nat (List.length layers)) (st, c) = ((st', c'), Ok (s, costs)) /\
    contents (r_world st') s = List.concat (firstn (List.length costs) layers) /\
    ((List.length costs < List.length layers)%nat ->
       exists p, answers eps (r_world st') s p /\ u_close_to eps p target thr = Ok true).
Proof.
  intros eps st c n K counts layers HX Hdc Ha HC H SD.
  destruct (layered_tape eps n c counts layers (r_draws st) Hdc Ha H) as (g & G & P).
  exists g. split; auto. intros target thr HT Hd.
  destruct (C28_drift_layered_lemma g eps st c target counts thr (Z.of_nat (List.length layers)) n K G HX Hdc ltac:(lra) HC HT Hd)
    as (st' & c' & s & costs & E).
  { now rewrite Nat2Z.id. }
  exists st', c', s, costs. assert (HR := drift_reachable _ _ _ HX). split; auto. split.
  - eapply P; eauto. now apply reachable_W.
  - intros L. destruct (proj2 (C24_layered_lemma g eps st c target counts thr _ st' c' s costs G HR E)) as (p & close & A & B & D).
    exists p. split; auto. destruct close; auto. specialize (D eq_refl). lia.
Qed.

(** ** A target that the primitives can express *)
Lemma exact_wf w s n p : exact_world w -> has_dim w s (2 ^ n) -> answers 0 w s p -> wf p.
Proof.
  intros HX HD A0. destruct (exact_winv_ex _ HX) as [K HW].
  destruct (winv_exact 0 K w s n ltac:(lra) HW HD (lim_zero _ _)) as (p' & A & N).
  assert (p' = p) by (eapply answers_unique; eauto). subst p'.
  destruct (near_zero _ _ _ _ N) as (D & U & E).
  apply (wf_of p (2 ^ n) _ ltac:(apply Nat.neq_0_lt_0, Nat.pow_nonzero; lia) D E U).
Qed.

Lemma close_of_phase n p target thr M : wf p -> u_dim p = (2 ^ n)%nat -> meq (2 ^ n) (u_mat p) M -> built 0 target ->
  u_dim target = (2 ^ n)%nat -> phase_eq (2 ^ n) (u_mat target) M ->
  match thr with Some t => (t <= 1)%R | None => True end ->
  u_close_to 0 p target thr = Ok true.
Proof.
  intros W Dp E HT Dt HP Hthr. apply built_wf in HT.
  unfold u_close_to. rewrite overlap_inv by (auto using eps_clean_0; congruence). cbn [bind].
  assert (O : overlap (u_dim p) (u_mat p) (u_mat target) = 1%R).
  { destruct W as (P & U & _). destruct HT as (_ & T & _). rewrite Dt in T. rewrite Dp in *.
    apply overlap_1_iff; auto. destruct HP as (k & Hk & HP). exists k. split; auto. now rewrite E. }
  rewrite O. destruct thr as [t|]; f_equal.
  - apply Rleb_true. lra.
  - apply isclose_spec. replace (1 - 1)%R with 0%R by lra. unfold Cminus. rewrite Cplus_opp_r, Cmod_0, Rmult_0_r, Rplus_0_r.
    unfold atol. lra.
Qed.

Lemma C63_expressible_lemma : forall st c n gts target thr,
  exact_world (r_world st) -> good_compiler 0 n c -> c_array c = false \/ List.length (c_prims c) = 1%nat ->
  (0 < c_append c)%R -> Forall (in_repertoire 0 n c) gts ->
  built 0 target -> u_dim target = (2 ^ n)%nat -> phase_eq (2 ^ n) (u_mat target) (ordered n gts) ->
  match thr with Some t => (t <= 1)%R | None => True end ->
  exists g st' c' s costs p, rng_ok g /\
    compile g 0 target thr (Z.of_nat (List.length gts)) (st, c) = ((st', c'), Ok (s, costs)) /\
    answers 0 (r_world st') s p /\ u_close_to 0 p target thr = Ok true.
Proof.
  intros st c n gts target thr HX HC HA Ha H HT Hd HP Hthr.
  destruct (C63_lemma st c n gts HX HC HA Ha H) as (g & G & P).
  destruct (P target thr HT Hd) as (st' & c' & s & costs & E & EC & EL). clear P.
  assert (HS : forall p, In p (c_prims c) -> good_source 0 (p_source p)).
  { intros p Hp. apply HC in Hp. apply Hp. }
  destruct (C26_lemma g st c target thr _ st' c' s costs n G HX (proj1 HC) HS E) as (HX' & p & close & A & D & M & B & F).
  exists g, st', c', s, costs, p. split; auto. split; auto. split; auto.
  destruct (Nat.lt_ge_cases (List.length costs) (List.length gts)) as [L|L].
  - destruct (EL L) as (p' & A' & B'). assert (p' = p) by (eapply answers_unique; eauto). congruence.
  - rewrite firstn_all2 in EC by auto. rewrite EC in M. apply (close_of_phase n p target thr (ordered n gts)); auto.
    apply (exact_wf (r_world st') s n p HX'); auto. rewrite <- (proj1 HC).
    apply (C27_lemma g 0 st c target thr _ st' c' s costs G (exact_reachable _ HX) E).
Qed.

Lemma C63_expressible_layered_lemma : forall st c n counts layers target thr,
  exact_world (r_world st) -> c_dim c = (2 ^ n)%nat -> (0 < c_append c <= 1)%R -> good_table 0 n counts ->
  Forall (drawable_layer 0 n counts) layers ->
  built 0 target -> u_dim target = (2 ^ n)%nat -> phase_eq (2 ^ n) (u_mat target) (ordered n (List.concat layers)) ->
  match thr with Some t => (t <= 1)%R | None => True end ->
  exists g st' c' s costs p, rng_ok g /\
    compile_layered g 0 target counts thr (Z.of_nat (List.length layers)) (st, c) = ((st', c'), Ok (s, costs)) /\
    answers 0 (r_world st') s p /\ u_close_to 0 p target thr = Ok true.
Proof.
  intros st c n counts layers target thr HX Hdc Ha HC H HT Hd HP Hthr.
  destruct (C63_layered_lemma st c n counts layers HX Hdc Ha HC H) as (g & G & P).
  destruct (P target thr HT Hd) as (st' & c' & s & costs & E & EC & EL). clear P.
  assert (HS : forall pc, In pc counts -> good_source 0 (p_source (fst pc))).
  { intros p Hp. unfold good_table in HC. rewrite List.Forall_forall in HC. apply HC in Hp. apply Hp. }
  destruct (C26_layered_lemma g st c target counts thr _ st' c' s costs n G HX Hdc HS E) as (HX' & p & close & A & D & M & B & F).
  exists g, st', c', s, costs, p. split; auto. split; auto. split; auto.
  destruct (Nat.lt_ge_cases (List.length costs) (List.length layers)) as [L|L].
  - destruct (EL L) as (p' & A' & B'). assert (p' = p) by (eapply answers_unique; eauto). congruence.
  - rewrite firstn_all2 in EC by auto. rewrite EC in M. apply (close_of_phase n p target thr (ordered n (List.concat layers))); auto.
    apply (exact_wf (r_world st') s n p HX'); auto. rewrite <- Hdc.
    apply (C27_layered_lemma g 0 st c target counts thr _ st' c' s costs G (exact_reachable _ HX) E).
Qed.
