(** Sequences of a Hamiltonian: other sequences (C60), dimensions that are not a
    power of two (C61), matrices that are only nearly Hermitian (C62). *)
From Coq Require Import Reals List Arith Bool String ZArith Lra Lia Permutation Sorted.
From Coquelicot Require Import Coquelicot.
From Verif Require PBits.
From Verif Require Import Base CMat CMatFacts Det DetFacts Norms CRoot Expm ExpmFacts ExpmBounds ModelUnitary ModelEntry
  ModelPrimitive ModelSequence ModelCompiler ModelVerification ModelGates ModelHamiltonian Spec SpecModel
  SpecCompiler SpecGates SpecHamiltonian PUnitary PDrift PEmbed PEntry PSeqHeap PSeqMeth PSeqNear PSeqWorld PSeqUndo
  PCompView PCompRun PCompEntry PCompLoop PCompTrace PCompTotal PCompProps PCompMore PSeqInv PSeqHist PSeqProps PVerify
  PVerifyProps PGates PHam PHamTerm PHamSeq PHamRun PHamTrot PHamSub PHamStoq.
Import ListNotations.
Open Scope R_scope.
Open Scope C_scope.
Open Scope res_scope.
Open Scope se_scope.

(** * Other sequences *)
Section Isolation.
Variables (g : rng) (eps : R) (t : nat).
Hypothesis G : rng_ok g.
Notation spare := (rspares eps t).
Notation hspare := (hspares eps t).

Lemma rspares_entry u qs : spare (call_entry eps (NewEntry u qs)).
Proof.
  apply rspares_bind; [now apply rspares_call|].
  intros []; apply rspares_draws; first [apply draws_ret|apply draws_raise].
Qed.
Lemma rspares_lift {A} (r : res A) : spare (se_lift r).
Proof. apply rspares_draws, draws_lift. Qed.
Lemma rspares_ret {A} (a : A) : spare (se_ret a).
Proof. apply rspares_draws, draws_ret. Qed.
Lemma rspares_raise {A} x : spare (@se_raise rstate A x).
Proof. apply rspares_draws, draws_raise. Qed.

Lemma ideal_spares h T N : spare (ideal_sequence eps h T N).
Proof.
  unfold ideal_sequence. apply rspares_bind.
  { unfold per_step. destruct (Z.eqb N 0); [apply rspares_raise|apply rspares_ret]. }
  intros dt. apply rspares_bind; [apply rspares_lift|]. intros u. apply rspares_bind; [|intros; now apply rspares_sequence].
  induction (Z.to_nat N) as [|n IH]; cbn [ideal_entries]; [apply rspares_ret|].
  apply rspares_bind; [apply rspares_entry|]. intros l. apply rspares_bind; [exact IH|]. intros. apply rspares_ret.
Qed.

Lemma term_spares h dt is : spare (term_entries eps h dt is).
Proof.
  induction is as [|i is IH]; cbn [term_entries]; [apply rspares_ret|].
  destruct (nth_error (h_terms h) i); [|apply rspares_raise].
  apply rspares_bind; [apply rspares_lift|]. intros u. apply rspares_bind; [apply rspares_entry|]. intros l.
  apply rspares_bind; [exact IH|]. intros. apply rspares_ret.
Qed.
Lemma trotter_spares h T N b : spare (trotter_sequence eps g h T N b).
Proof.
  unfold trotter_sequence. apply rspares_bind.
  { unfold per_step. destruct (Z.eqb N 0); [apply rspares_raise|apply rspares_ret]. }
  intros dt. apply rspares_bind; [|intros; now apply rspares_sequence].
  generalize (seq 0 (List.length (h_terms h))). induction (Z.to_nat N) as [|n IH]; intros is; cbn [trotter_entries]; [apply rspares_ret|].
  apply rspares_bind. { destruct b; [apply rspares_draws, draws_shuffle|apply rspares_ret]. }
  intros is'. apply rspares_bind; [apply term_spares|]. intros. apply rspares_bind; [apply IH|]. intros. apply rspares_ret.
Qed.
Lemma qdrift_spares h T N : spare (qdrift_sequence eps g h T N).
Proof.
  unfold qdrift_sequence. cbv zeta. apply rspares_bind; [|intros; now apply rspares_sequence].
  induction (Z.to_nat N) as [|n IH]; cbn [qdrift_entries]; [apply rspares_ret|].
  apply rspares_bind; [apply rspares_draws, draws_choice_p|]. intros i.
  destruct (nth_error (h_terms h) i); [|apply rspares_raise].
  apply rspares_bind; [apply rspares_lift|]. intros u. apply rspares_bind; [apply rspares_entry|]. intros l.
  apply rspares_bind; [exact IH|]. intros. apply rspares_ret.
Qed.

Lemma stoq_for_spares h target T thr b : hspare (compile_stoq_for eps g h target T thr b).
Proof.
  unfold compile_stoq_for. apply hspares_bind; [apply hspares_lift|]. intros ps. apply hspares_with. intros st HW HL.
  unfold compile. unfold se_bind at 1, c_self. cbn [snd]. unfold se_bind at 1, se_lift.
  destruct (assert_primitives (snd st)); [|apply spares_refl].
  now apply spares_single.
Qed.
Lemma stoq_spares h T T0 thr b : hspare (compile_stoq_sequence eps g h T T0 thr b).
Proof.
  unfold compile_stoq_sequence. apply hspares_bind; [apply hspares_lift|]. intros u. apply stoq_for_spares.
Qed.
Lemma rav_loop_spares fuel ps qs T0 T s : s <> t -> forall total, spare (rav_loop eps g fuel ps qs T0 T s total).
Proof.
  intros N. assert (E : Nat.eqb s t = false) by now apply Nat.eqb_neq.
  induction fuel as [|k IH]; intros total; cbn [rav_loop].
  all: destruct (Rltb total T); [|apply rspares_ret].
  { apply rspares_raise. }
  apply rspares_bind; [apply rspares_draws, draws_unif|]. intros r1.
  apply rspares_bind; [apply rspares_draws, draws_unif|]. intros r2. cbv zeta.
  apply rspares_bind; [apply rspares_draws, draws_choice_unif|]. intros i.
  destruct (nth_error ps i); [|apply rspares_raise].
  apply rspares_bind; [apply rspares_lift|]. intros u. apply rspares_bind; [apply rspares_entry|]. intros l.
  apply rspares_bind; [now apply rspares_call|]. intros _. apply IH.
Qed.
Lemma ham_rav_spares fuel h T T0 thr b : hspare (compile_rav_sequence eps g fuel h T T0 thr b).
Proof.
  unfold compile_rav_sequence. apply hspares_bind; [apply hspares_lift|]. intros ps. apply hspares_new. intros s N.
  apply hspares_bind; [apply hspares_r; now apply rav_loop_spares|]. intros _.
  apply hspares_inverse. intros target. apply stoq_for_spares.
Qed.
End Isolation.

Section C60.
Variables (eps : R) (st : rstate) (t dt : nat) (p : unitary).
Hypotheses (HR : reachable eps (r_world st)) (HL : list_sequence (r_world st) t dt).
Definition keeps (w' : world) : Prop :=
  list_sequence w' t dt /\ contents w' t = contents (r_world st) t /\ (answers eps (r_world st) t p -> answers eps w' t p).
Lemma keeps_r {A} (m : RM A) : rspares eps t m -> keeps (r_world (fst (m st))).
Proof. intros H. apply (spares_others eps t (r_world st) _ (reachable_W _ _ HR)); [|exact HL]. apply H. Qed.
Lemma keeps_h {A} (m : RM A) : hspares eps t m -> keeps (r_world (fst (m st))).
Proof.
  intros H. apply (spares_others eps t (r_world st) _ (reachable_W _ _ HR)); [|exact HL].
  destruct (sees_intro eps _ t dt (reachable_W _ _ HR) HL) as (pv & S). eapply H; eauto.
Qed.
End C60.

Lemma C60_sequences_lemma : forall g eps h time N b st t dt p w',
  reachable eps (r_world st) -> list_sequence (r_world st) t dt ->
  w' = r_world (fst (ideal_sequence eps h time N st)) \/
  w' = r_world (fst (trotter_sequence eps g h time N b st)) \/
  w' = r_world (fst (qdrift_sequence eps g h time N st)) ->
  list_sequence w' t dt /\ contents w' t = contents (r_world st) t /\
  (answers eps (r_world st) t p -> answers eps w' t p).
Proof.
  intros g eps h time N b st t dt p w' HR HL [->|[->| ->]]; apply keeps_r; auto.
  - apply ideal_spares.
  - apply trotter_spares.
  - apply qdrift_spares.
Qed.

Lemma C60_compile_lemma : forall g eps fuel h time T thr b st t dt p w',
  rng_ok g -> reachable eps (r_world st) -> list_sequence (r_world st) t dt ->
  w' = r_world (fst (compile_stoq_sequence eps g h time T thr b st)) \/
  w' = r_world (fst (compile_rav_sequence eps g fuel h time T thr b st)) ->
  list_sequence w' t dt /\ contents w' t = contents (r_world st) t /\
  (answers eps (r_world st) t p -> answers eps w' t p).
Proof.
  intros g eps fuel h time T thr b st t dt p w' G HR HL [->| ->]; apply keeps_h; auto.
  - now apply stoq_spares.
  - now apply ham_rav_spares.
Qed.

(** * Dimensions that are not a power of two *)
Lemma time_evolution_dim eps d M t sfx u : time_evolution eps d M t sfx = Ok u -> u_dim u = d.
Proof.
  unfold time_evolution, assert. destruct (allclose d M (adj M)); [|discriminate]. cbn [bind]. intros H.
  apply mk_unitary_inv in H. destruct H as (_ & _ & _ & _ & _ & ->). reflexivity.
Qed.

Lemma all_qubits_length h : List.length (all_qubits h) = qubit_count h.
Proof. unfold all_qubits. now rewrite map_length, seq_length. Qed.

Lemma log2_power d : (forall n, (1 <= n)%nat -> d <> (2 ^ n)%nat) -> forall qs : list Z,
  qs <> [] -> (2 ^ List.length qs)%nat <> d.
Proof. intros H [|q qs]; [congruence|]. intros _ E. apply (H (List.length (q :: qs))); simpl; [lia|]. now rewrite <- E. Qed.

Lemma no_entry eps u qs st st' l : (forall n, (1 <= n)%nat -> u_dim u <> (2 ^ n)%nat) ->
  call_entry eps (NewEntry u qs) st <> (st', Ok l).
Proof.
  intros H E. unfold call_entry in E. apply bind_ok in E. destruct E as (v & st1 & E & _).
  unfold call in E. cbn [step] in E. destruct (mk_entry u qs) as [e|x] eqn:Ee.
  - destruct (proj1 (mk_entry_iff u qs) (ex_intro _ _ Ee)) as (N & _ & _ & D). now apply (log2_power _ H qs N).
  - injection E as _ E. discriminate.
Qed.

Section NotPower.
Variables (g : rng) (eps : R) (h : hamiltonian).
Hypothesis HD : forall n, (1 <= n)%nat -> h_dim h <> (2 ^ n)%nat.

Lemma no_ideal time N st st' s : (1 <= N)%Z -> ideal_sequence eps h time N st <> (st', Ok s).
Proof.
  intros HN E. unfold ideal_sequence in E. apply bind_ok in E. destruct E as (dt & st1 & _ & E).
  apply bind_ok in E. destruct E as (u & st2 & E1 & E). apply lift_ok in E1. destruct E1 as [_ E1].
  apply time_evolution_dim in E1. apply bind_ok in E. destruct E as (ls & st3 & E & _).
  destruct (Z.to_nat N) as [|k] eqn:EN; [lia|]. cbn [ideal_entries] in E.
  apply bind_ok in E. destruct E as (l & st4 & E & _). revert E. apply no_entry. rewrite E1. exact HD.
Qed.

Lemma no_terms dt is st st' ls : is <> [] -> term_entries eps h dt is st <> (st', Ok ls).
Proof.
  destruct is as [|i is]; [congruence|]. intros _ E. cbn [term_entries] in E. destruct (nth_error (h_terms h) i) as [x|]; [|discriminate].
  apply bind_ok in E. destruct E as (u & st2 & E1 & E). apply lift_ok in E1. destruct E1 as [_ E1].
  apply time_evolution_dim in E1. apply bind_ok in E. destruct E as (l & st3 & E & _). revert E. apply no_entry. rewrite E1. exact HD.
Qed.

Lemma no_trotter time N b st st' s : rng_ok g -> h_terms h <> [] -> (1 <= N)%Z ->
  trotter_sequence eps g h time N b st <> (st', Ok s).
Proof.
  intros G NE HN E. unfold trotter_sequence in E. apply bind_ok in E. destruct E as (dt & st1 & _ & E).
  apply bind_ok in E. destruct E as (ls & st3 & E & _).
  destruct (Z.to_nat N) as [|k] eqn:EN; [lia|]. cbn [trotter_entries] in E.
  apply bind_ok in E. destruct E as (is & st4 & E1 & E). apply bind_ok in E. destruct E as (ls1 & st5 & E & _).
  revert E. apply no_terms. destruct b.
  - unfold shuffle in E1. injection E1 as <- <-. rewrite seq_length. intros X. apply map_eq_nil in X.
    destruct G as (_ & _ & G). specialize (G (r_draws st1) (List.length (h_terms h))). rewrite X in G. apply Permutation_length in G. rewrite seq_length in G.
    simpl in G. destruct (h_terms h); [congruence|discriminate].
  - apply ret_ok in E1. destruct E1 as [_ ->]. destruct (h_terms h); [congruence|]. simpl. congruence.
Qed.

Lemma no_qdrift time N st st' s : (1 <= N)%Z -> qdrift_sequence eps g h time N st <> (st', Ok s).
Proof.
  intros HN E. unfold qdrift_sequence in E. cbv zeta in E. apply bind_ok in E. destruct E as (ls & st3 & E & _).
  destruct (Z.to_nat N) as [|k] eqn:EN; [lia|]. cbn [qdrift_entries] in E.
  apply bind_ok in E. destruct E as (i & st4 & _ & E). destruct (nth_error (h_terms h) i) as [x|]; [|discriminate].
  apply bind_ok in E. destruct E as (u & st2 & E1 & E). apply lift_ok in E1. destruct E1 as [_ E1].
  apply time_evolution_dim in E1. apply bind_ok in E. destruct E as (l & st5 & E & _). revert E. apply no_entry. rewrite E1. exact HD.
Qed.

Lemma no_primitive T is p : subset_primitive eps h T is <> Ok p.
Proof.
  unfold subset_primitive. destruct (pick_terms (h_terms h) is) as [ts|]; [|discriminate]. cbn [bind].
  destruct (pd_time_evolution eps (h_dim h) (sum_matrices ts) (- T) T (join_plus (map str_nat is))) as [pu|] eqn:E; [|discriminate].
  cbn [bind]. intros E1.
  destruct (proj1 (mk_primitive_iff _ _) (ex_intro _ _ E1) _ eq_refl (all_qubits h) (or_introl eq_refl)) as (N & _ & _ & D).
  apply (log2_power _ HD _ N). rewrite D. cbn [src_dim].
  unfold pd_time_evolution, assert in E. destruct (allclose _ _ _); [|discriminate]. destruct (Rleb _ _); [|discriminate]. cbn [bind] in E.
  destruct (mk_parameter _ _ _ _) as [q|]; [|discriminate]. cbn [bind] in E. unfold mk_punitary in E.
  repeat (match type of E with context [assert ?b] => destruct b end; cbn [assert bind] in E; try discriminate).
  injection E as <-. reflexivity.
Qed.

Lemma no_primitives T b ps : h_terms h <> [] -> stoq_primitives eps h T b <> Ok ps.
Proof.
  intros NE. unfold stoq_primitives. destruct (subset_indices (List.length (h_terms h)) b) as [|l ls] eqn:E.
  - exfalso. revert NE E. destruct (h_terms h) as [|x xs]; [congruence|]. intros _.
    destruct b; unfold subset_indices; simpl; [destruct (seq 1 (List.length xs))|]; discriminate.
  - cbn [mapM]. destruct (subset_primitive eps h T l) as [p|] eqn:Ep; [|discriminate]. exfalso. revert Ep. apply no_primitive.
Qed.

Lemma no_stoq time T thr b st st' r : h_terms h <> [] -> compile_stoq_sequence eps g h time T thr b st <> (st', Ok r).
Proof.
  intros NE E. unfold compile_stoq_sequence in E. apply bind_ok in E. destruct E as (u & st1 & _ & E).
  unfold compile_stoq_for in E. apply bind_ok in E. destruct E as (ps & st2 & E & _). apply lift_ok in E. destruct E as [_ E].
  revert E. now apply no_primitives.
Qed.
Lemma no_rav fuel time T thr b st st' r : h_terms h <> [] -> compile_rav_sequence eps g fuel h time T thr b st <> (st', Ok r).
Proof.
  intros NE E. unfold compile_rav_sequence in E. apply bind_ok in E. destruct E as (ps & st2 & E & _). apply lift_ok in E. destruct E as [_ E].
  revert E. now apply no_primitives.
Qed.
End NotPower.

Lemma C61_sequences_lemma : forall g eps ts h time N b (st st' : rstate) (s : nat),
  rng_ok g -> mk_hamiltonian ts = Ok h -> (forall n, (1 <= n)%nat -> h_dim h <> (2 ^ n)%nat) -> (1 <= N)%Z ->
  ideal_sequence eps h time N st <> (st', Ok s) /\
  trotter_sequence eps g h time N b st <> (st', Ok s) /\
  qdrift_sequence eps g h time N st <> (st', Ok s).
Proof.
  intros g eps ts h time N b st st' s G H HD HN.
  assert (NE : h_terms h <> []).
  { unfold mk_hamiltonian, assert in H. destruct ts as [|t0 ts]; [discriminate|]. destruct (forallb _ _); [|discriminate].
    injection H as <-. discriminate. }
  split; [now apply no_ideal|]. split; [now apply no_trotter|now apply no_qdrift].
Qed.
Lemma C61_compile_lemma : forall g eps ts h fuel time T thr b (st st' : rstate) (r : nat * list R),
  mk_hamiltonian ts = Ok h -> (forall n, (1 <= n)%nat -> h_dim h <> (2 ^ n)%nat) ->
  compile_stoq_sequence eps g h time T thr b st <> (st', Ok r) /\
  compile_rav_sequence eps g fuel h time T thr b st <> (st', Ok r).
Proof.
  intros g eps ts h fuel time T thr b st st' r H HD.
  assert (NE : h_terms h <> []).
  { unfold mk_hamiltonian, assert in H. destruct ts as [|t0 ts]; [discriminate|]. destruct (forallb _ _); [|discriminate].
    injection H as <-. discriminate. }
  split; [now apply no_stoq|now apply no_rav].
Qed.

(** * Matrices that are only nearly Hermitian *)
Lemma mk_term_close d M : (0 < d)%nat -> allclose d M (adj M) = true -> ~ meq d M mzero ->
  exists tm, mk_term (square d M) = Ok tm /\ t_dim tm = d /\ meq d (t_matrix tm) M.
Proof.
  intros D H NZ. unfold mk_term, square. cbn [nrows ncols elt]. rewrite Nat.eqb_refl. cbn [assert bind].
  rewrite H. cbn [assert bind].
  destruct (Nat.eqb_spec d 0) as [|_]; [lia|].
  destruct (Req_EM_T (max_singular d M) 0) as [E|E].
  { exfalso. apply NZ. now apply max_singular_0. }
  cbn [assert bind negb]. rewrite (proj2 (Rleb_spec 0 (max_singular d M))) by now apply max_singular_nonneg.
  assert (X : meq d M (t_matrix {| t_dim := d; t_coeff := max_singular d M; t_norm := mscale (RtoC (/ max_singular d M)) M |})).
  { intros i j _ _. unfold t_matrix, mscale. cbn [t_coeff t_norm].
    rewrite Cmult_assoc, <- RtoC_mult, Rinv_r, Cmult_1_l by exact E. reflexivity. }
  cbn [assert bind]. rewrite allclose_meq by exact X. eexists. split; [reflexivity|]. split; [reflexivity|]. now symmetry.
Qed.

Lemma mpow_scalar n (x : R) k : meq n (mpow n (mscale (RtoC x) mid) k) (mscale (RtoC (x ^ k)) mid).
Proof.
  rewrite mpow_mscale. assert (E : meq n (mpow n mid k) mid).
  { induction k as [|k IH]; cbn [mpow]; [reflexivity|]. rewrite IH. apply mmul_1_l. }
  now rewrite E.
Qed.

Lemma expm_scalar n (x : R) : meq n (expm n (mscale (RtoC x) mid)) (mscale (RtoC (exp x)) mid).
Proof.
  symmetry. apply expm_unique. intros i j Hi Hj.
  assert (S : cseries (fun k => RtoC (/ INR (fact k) * x ^ k)%R) (RtoC (exp x))).
  { split; cbn [fst snd RtoC].
    - eapply is_series_ext; [|apply (is_exp_Reals x)]. intros k. rewrite pow_n_pow. change (x ^ k * / INR (fact k) = / INR (fact k) * x ^ k)%R. ring.
    - exact (proj2 cseries_zero). }
  eapply cseries_ext; [|unfold mscale; rewrite Cmult_comm; apply (cseries_mult (mid i j) _ _ S)].
  intros k. cbv beta. unfold exp_term. unfold mscale at 1. rewrite (mpow_scalar n x k i j Hi Hj). unfold mscale. rewrite RtoC_mult. ring.
Qed.

(** The scalar matrix [i 10^-9] counts as Hermitian, but its exponential shrinks. *)
Definition tiny : R := (/ 1000000000)%R.
Definition tiny_mx : mat := mscale (Ci * RtoC tiny) mid.

Lemma C62_scalar_lemma : exists M tm h, mk_term (square 2 M) = Ok tm /\ mk_hamiltonian [tm] = Ok h /\
  forall eps, (0 <= eps <= 1 / 4)%R -> time_evolution_operator eps h 1000000000 = Raise AssertionError.
Proof.
  assert (T0 : (tiny * 1000000000 = 1)%R) by (unfold tiny; lra).
  assert (A : allclose 2 tiny_mx (adj tiny_mx) = true).
  { apply allclose_spec. intros i j _ _. unfold tiny_mx, adj, mscale, mid. rewrite (Nat.eqb_sym j i).
    destruct (Nat.eqb i j).
    - replace (Ci * RtoC tiny * 1 - Cconj (Ci * RtoC tiny * 1)) with (RtoC (2 * tiny) * Ci).
      2:{ unfold Ci, RtoC, Cconj, Cmult, Cminus, Cplus, Copp. simpl. f_equal; ring. }
      rewrite Cmod_mult. assert (E := Cmod_Ci).
      rewrite E, Cmod_R, Rabs_right by (unfold tiny; lra).
      assert (HC := Cmod_ge_0 (Cconj (Ci * RtoC tiny * 1))). unfold atol, rtol. lra.
    - replace (Ci * RtoC tiny * 0 - Cconj (Ci * RtoC tiny * 0)) with (RtoC 0).
      2:{ unfold Ci, RtoC, Cconj, Cmult, Cminus, Cplus, Copp. simpl. f_equal; ring. }
      rewrite Cmod_0. assert (HC := Cmod_ge_0 (Cconj (Ci * RtoC tiny * 0))). unfold atol, rtol. lra. }
  destruct (mk_term_close 2 tiny_mx ltac:(lia) A) as (tm & E & D & EM).
  { intros Z. specialize (Z 0%nat 0%nat ltac:(lia) ltac:(lia)). unfold tiny_mx, mscale, mid, mzero in Z. simpl in Z.
    apply (f_equal snd) in Z. simpl in Z. unfold tiny in Z. lra. }
  exists tiny_mx, tm, {| h_dim := 2; h_terms := [tm] |}. split; [exact E|]. split.
  { unfold mk_hamiltonian. cbn [forallb]. rewrite D. reflexivity. }
  intros eps He. unfold time_evolution_operator. cbn [h_dim h_terms sum_matrices fold_right].
  set (M := mplus (t_matrix tm) mzero).
  assert (EM' : meq 2 M tiny_mx).
  { intros i j Hi Hj. unfold M, mplus, mzero. rewrite (EM i j Hi Hj). ring. }
  unfold time_evolution.
  assert (A' : allclose 2 M (adj M) = true).
  { apply allclose_spec. intros i j Hi Hj. unfold adj. rewrite (EM' i j Hi Hj), (EM' j i Hj Hi).
    exact (proj1 (allclose_spec _ _ _) A i j Hi Hj). }
  rewrite A'. cbn [assert bind]. unfold mk_unitary, square. cbn [Nat.ltb Nat.leb assert bind nrows ncols elt Nat.eqb andb].
  assert (X : meq 2 (expm 2 (mscale (RtoC 1000000000) (mscale Ci M))) (mscale (RtoC (exp (-1))) mid)).
  { rewrite <- expm_scalar. apply expm_meq. intros i j Hi Hj. unfold mscale. rewrite (EM' i j Hi Hj). unfold tiny_mx, mscale.
    transitivity (Ci * Ci * RtoC (tiny * 1000000000) * mid i j). { rewrite RtoC_mult. ring. }
    rewrite T0. f_equal. unfold Ci, RtoC, Cmult. simpl. f_equal; ring. }
  assert (B1 : (1 / 3 <= exp (-1) <= 1 / 2)%R).
  { assert (P := exp_pos (-1)). assert (Q : (exp (-1) * exp 1 = 1)%R). { rewrite <- exp_plus. replace (-1 + 1)%R with 0%R by ring. apply exp_0. }
    assert (H2 : (2 <= exp 1)%R). { assert (Z := exp_ineq1_le 1). lra. }
    assert (H3 := exp_le_3). split; nra. }
  match goal with |- context [allclose 2 ?P mid] => assert (F : allclose 2 P mid = false) end.
  2:{ rewrite F. reflexivity. }
  apply not_true_iff_false. intros F. assert (F0 := proj1 (allclose_spec _ _ _) F 0%nat 0%nat ltac:(lia) ltac:(lia)). clear F.
  revert F0. unfold mmul, adj, csum, clean. rewrite !(X 0%nat _) by lia.
  unfold mscale, mid. cbn [Nat.eqb].
  assert (C1 : clean_C eps (RtoC (exp (-1)) * 1) = RtoC (exp (-1))).
  { rewrite Cmult_1_r. unfold clean_C, RtoC. cbn [fst snd]. rewrite !clean_R_id; auto.
    rewrite Rabs_right by lra. intros. lra. }
  assert (C0 : clean_C eps (RtoC (exp (-1)) * 0) = 0).
  { rewrite Cmult_0_r. unfold clean_C, RtoC. cbn [fst snd]. rewrite !clean_R_id; auto. }
  rewrite C1, C0.
  match goal with |- (Cmod ?z <= _)%R -> _ => replace z with (RtoC (exp (-1) * exp (-1) - 1)%R) end.
  2:{ unfold Cconj, RtoC, Cmult, Cplus, Cminus, Copp, Cplus, fst, snd. apply injective_projections; cbn [fst snd]; ring. }
  rewrite Cmod_R, Cmod_1, Rabs_left by nra. unfold atol, rtol. nra.
Qed.

(** Two terms that count as Hermitian because their large entries allow a large
    difference; the sum loses the large entries. *)
Definition mat2 (a b c d : C) : mat := fun i j =>
  match i, j with O, O => a | O, S O => b | S O, O => c | _, _ => d end.
Definition skew1 : mat := mat2 0 1 (RtoC (1 + 9 / 1000000)) 0.
Definition skew2 : mat := mat2 0 (RtoC (-1)) (RtoC (-1)) 0.

Lemma C62_sum_lemma : exists M1 M2 t1 t2 h, mk_term (square 2 M1) = Ok t1 /\ mk_term (square 2 M2) = Ok t2 /\
  mk_hamiltonian [t1; t2] = Ok h /\
  forall eps time, time_evolution_operator eps h time = Raise AssertionError.
Proof.
  assert (CR : forall x, Cconj (RtoC x) = RtoC x). { intros x. unfold Cconj, RtoC. simpl. f_equal. ring. }
  assert (K : forall b c : R, (Rabs (b - c) <= atol + rtol * Rabs c)%R -> (Rabs (c - b) <= atol + rtol * Rabs b)%R ->
    allclose 2 (mat2 0 (RtoC b) (RtoC c) 0) (adj (mat2 0 (RtoC b) (RtoC c) 0)) = true).
  { intros b c H1 H2. assert (Z : (0 <= atol + rtol * Rabs 0)%R). { rewrite Rabs_R0. unfold atol, rtol. lra. }
    apply allclose_spec. intros i j Hi Hj. unfold adj.
    destruct i as [|[|]], j as [|[|]]; try lia; simpl; rewrite CR, <- RtoC_minus, !Cmod_R; auto.
    all: rewrite Rminus_0_r, Rabs_R0 in *; lra. }
  assert (A1 : allclose 2 skew1 (adj skew1) = true).
  { apply (K 1 (1 + 9 / 1000000))%R; rewrite ?(Rabs_left1 (1 - _)), !Rabs_right by lra; unfold atol, rtol; lra. }
  assert (A2 : allclose 2 skew2 (adj skew2) = true).
  { apply (K (-1) (-1))%R; rewrite Rminus_diag_eq, Rabs_R0, Rabs_left by lra; unfold atol, rtol; lra. }
  assert (N : forall b c : R, b <> 0%R -> ~ meq 2 (mat2 0 (RtoC b) (RtoC c) 0) mzero).
  { intros b c Hb Z. specialize (Z 0%nat 1%nat ltac:(lia) ltac:(lia)). simpl in Z. apply (f_equal fst) in Z. simpl in Z. auto. }
  destruct (mk_term_close 2 skew1 ltac:(lia) A1) as (t1 & E1 & D1 & M1). { apply (N 1%R). lra. }
  destruct (mk_term_close 2 skew2 ltac:(lia) A2) as (t2 & E2 & D2 & M2). { apply (N (-1)%R). lra. }
  exists skew1, skew2, t1, t2, {| h_dim := 2; h_terms := [t1; t2] |}. split; [exact E1|]. split; [exact E2|]. split.
  { unfold mk_hamiltonian. cbn [forallb]. rewrite D1, D2. reflexivity. }
  intros eps time. unfold time_evolution_operator, time_evolution. cbn [h_dim h_terms sum_matrices fold_right].
  match goal with |- context [allclose 2 ?P _] => set (M := P) end.
  assert (F : allclose 2 M (adj M) = false); [|now rewrite F].
  apply not_true_iff_false. intros F. assert (F0 := proj1 (allclose_spec _ _ _) F 0%nat 1%nat ltac:(lia) ltac:(lia)).
  assert (X : M 0%nat 1%nat = RtoC 0 /\ M 1%nat 0%nat = RtoC (9 / 1000000)).
  { unfold M, mplus. rewrite !M1, !M2 by lia. simpl. unfold mzero. split; unfold RtoC, Cplus; simpl; f_equal; lra. }
  unfold adj in F0. destruct X as [X1 X2]. rewrite X1, X2, CR, <- RtoC_minus, !Cmod_R, Rabs_left, Rabs_right in F0 by lra.
  unfold atol, rtol in F0. lra.
Qed.
