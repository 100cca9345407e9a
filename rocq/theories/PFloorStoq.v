(** The chance that a STOQ compilation succeeds. *)
From Coq Require Import Reals List Arith Lia Lra Bool String ZArith Permutation Sorted ClassicalEpsilon.
From Coquelicot Require Import Coquelicot.
From Verif Require Import Base CMat CMatFacts Det DetFacts Norms CRoot Expm ExpmFacts ExpmBounds ModelUnitary ModelEntry ModelPrimitive
  ModelSequence ModelCompiler ModelVerification ModelGates ModelHamiltonian Spec SpecModel SpecCompiler SpecGates SpecHamiltonian
  PUnitary PUnitaryProps PDrift PEmbed PEntry PSeqHeap PSeqMeth PSeqNear PSeqWorld
  PSeqUndo PSeqInv PSeqHist PSeqProps PSeqCases PCompView PCompRun PCompEntry PCompLoop PCompTrace PCompTotal PCompProps PCompMore
  PCompCases PCompEx PReach PVerify PVerifyProps PGates PHam PHamTerm PHamSeq PHamRun PHamTrot PHamSub PHamStoq PDecimalOp
  SpecChain PChain PChainStep PChainRun PChainBal PChainHit SpecFloor PFloor PFloorMain PFloorLib.
Import ListNotations.
Open Scope R_scope.
Set Bullet Behavior "Strict Subproofs".

Lemma stores_phase_0 n u M : stores_phase 0 1 n (Ok u) M -> u_dim u = (2 ^ n)%nat /\ phase_eq (2 ^ n) (u_mat u) M.
Proof.
  intros (v & c & [= <-] & D & _ & Hc & F). split; auto. exists c. split; auto.
  assert (Z : fro (2 ^ n) (mminus (u_mat u) (mscale c M)) = 0).
  { apply Rle_antisym; [|apply fro_nonneg]. eapply Rle_trans; [exact F|]. unfold drift_bound. rewrite Rmult_0_r. lra. }
  apply fro_0 in Z. intros i j Hi Hj. specialize (Z i j Hi Hj). unfold mminus, mzero in Z.
  replace (u_mat u i j) with ((u_mat u i j - mscale c M i j) + mscale c M i j)%C by ring. rewrite Z. ring.
Qed.

Lemma ordered_lprod n us : meq (2 ^ n) (ordered n (map (on_all n) us)) (lprod (2 ^ n) (map u_mat us)).
Proof.
  induction us as [|u us IH]; [reflexivity|]. cbn [map lprod fold_right]. fold (lprod (2 ^ n) (map u_mat us)).
  rewrite ordered_cons, IH. cbn [on_all fst snd]. now rewrite embed_all.
Qed.

Lemma cost_phase n target A gts : phase_eq (2 ^ n) (ordered n gts) A -> cost_of n target gts = 1 - overlap (2 ^ n) (u_mat target) A.
Proof.
  intros (z & Hz & E). unfold cost_of. f_equal. rewrite (overlap_proper _ _ _ (meq_refl _ _) _ _ E). now apply overlap_phase_r.
Qed.

Section Stoq.
Variables (n : nat) (Ms : list mat) (h : hamiltonian) (T : R) (b : bool).
Hypothesis n1 : (1 <= n)%nat.
Hypothesis HH : hamiltonian_of (2 ^ n) Ms h.
Hypothesis T0 : 0 <= T.
Notation L := (List.length Ms).
Notation d := (2 ^ n)%nat.
Notation SP := (subset_prim 0 n Ms T).

Lemma subset_continuous l p : (forall i, In i l -> (i < L)%nat) -> subset_primitive 0 h T l = Ok p -> continuous_source (p_source p).
Proof.
  intros Hl. destruct (ham_facts _ _ _ HH) as (DP & D & _ & F). destruct (pick_terms_ok _ _ _ F l Hl) as (sub & Es & FS).
  assert (ES := sum_total _ _ _ FS). assert (HT := total_hermitian _ _ _ FS).
  assert (HS : hermitian_mx d (sum_matrices sub)) by (eapply hermitian_meq; [symmetry; exact ES|exact HT]).
  unfold subset_primitive. rewrite Es. cbn [bind]. rewrite D.
  destruct (pd_time_evolution 0 d (sum_matrices sub) (- T) T (join_plus (map str_nat l))) as [pu|e] eqn:Epu; [|discriminate]. cbn [bind]. intros MP.
  assert (CF : continuous_family pu) by (apply (evolution_continuous d (sum_matrices sub) (- T) T _ pu DP HS ltac:(lra) Epu)).
  unfold mk_primitive in MP. destruct (forallb nodupb_Z _); cbn [assert bind] in MP; [|discriminate].
  destruct (forallb _ [all_qubits h]); cbn [assert bind] in MP; [|discriminate].
  destruct (existsb _ _); [discriminate|]. destruct (forallb (forallb _) _); cbn [assert bind] in MP; [|discriminate].
  injection MP as <-. exact CF.
Qed.

Lemma stoq_setup : exists ls ps c, stoq_primitives 0 h T b = Ok ps /\ term_subsets L b ls /\
  Forall2 (fun l p => SP l p /\ continuous_source (p_source p)) ls ps /\
  mk_compiler (h_dim h) false ps None (1 / 2) (1 / 10) = Ok c /\ c_prims c = ps /\ c_probs c = None /\ c_array c = false /\
  good_compiler 0 n c /\ c_append c = 1 / 2 /\ c_rate c = 1 / 10 /\ 0 <= c_max_beta c /\ c_beta c = 0.
Proof.
  assert (SD := small_drift_0 n 1). destruct (ham_facts _ _ _ HH) as (_ & D & _ & F). assert (LT := F2_length _ _ _ F).
  set (ls := subset_indices L b). assert (TS : term_subsets L b ls) by apply subset_indices_spec.
  destruct (mapM_ok (subset_primitive 0 h T) (fun l p => SP l p /\ continuous_source (p_source p)) ls) as (ps & Eps & FP).
  { intros l Hl. assert (HB : forall i, In i l -> (i < L)%nat) by (intros i; now apply (term_subsets_bound L b ls)).
    destruct (subset_primitive_ok 0 n Ms h T l n1 SD HH T0 HB) as (p & Ep & X). exists p. split; [exact Ep|]. split; [exact X|].
    now apply (subset_continuous l). }
  assert (E : stoq_primitives 0 h T b = Ok ps) by (unfold stoq_primitives; rewrite <- LT; exact Eps).
  destruct (stoq_compiler {| g_unif := fun _ => 0; g_int := fun _ _ => 0%nat; g_perm := fun _ k => seq 0 k |} 0 n Ms h T b n1 SD HH ps E) as (c & EC & Cd & Ca & Cp & GC & _).
  exists ls, ps, c. split; [exact E|]. split; [exact TS|]. split; [exact FP|]. split; [exact EC|]. split; [exact Cp|].
  destruct (mk_compiler_ok _ _ _ _ _ _ _ EC) as (_ & _ & _ & _ & Cq & Cap). split; [exact Cq|]. split; [exact Ca|]. split; [exact GC|]. split; [exact Cap|].
  unfold mk_compiler, assert in EC. destruct (Nat.ltb _ _); [|discriminate]. cbn [bind] in EC. destruct (forallb _ _); [|discriminate]. injection EC as <-.
  cbn [c_rate c_max_beta c_beta]. split; [reflexivity|]. split; [|reflexivity].
  assert (X : 0 <= 2 ^ h_dim h) by (apply pow_le; lra). apply Rmult_le_pos; [exact X|]. apply Rmult_le_pos; lra.
Qed.

Lemma offer ls ps c l t : Forall2 (fun l p => SP l p /\ continuous_source (p_source p)) ls ps -> c_prims c = ps -> c_probs c = None -> In l ls -> - T <= t <= T ->
  exists u, on_offer n c (on_all n u) /\ phase_eq d (u_mat u) (ev d (part_of Ms l) t).
Proof.
  intros F Cp Cq Hl Ht. assert (X : exists p, In p ps /\ SP l p).
  { clear - F Hl. induction F as [|l' p ls ps [H _] F IH]; [destruct Hl|]. destruct Hl as [<-|Hl]; [exists p; simpl; auto|].
    destruct (IH Hl) as (q & H1 & H2). exists q. simpl. auto. }
  destruct X as (p & Hp & S). destruct (prim_at_ok 0 n Ms h T HH l p t S Ht) as (u & Eu & MU & Du & (_ & SG & _)). exists u.
  destruct S as ((PA & pu & PS & D & _) & _ & pu' & PS' & PP). assert (pu' = pu) by congruence. subst pu'. split.
  - exists p. split.
    + assert (X : In p (filter has_place (c_prims c))).
      { apply filter_In. rewrite Cp. split; auto. unfold has_place. rewrite PA. reflexivity. }
      apply In_nth_error in X. destruct X as (i & Hi). exists i. split; auto. rewrite Cq. discriminate.
    + split; [|split; [|split; [|split; [|split]]]]; cbn [on_all fst snd].
      * unfold instance. rewrite PS. exists [t]. unfold primitive_at in Eu. rewrite PS in Eu. split; [|exact Eu]. rewrite PP.
        constructor; [exact Ht|constructor].
      * intros ls' Hls. assert (ls' = [seq 0 n]) by congruence. subst. now left.
      * apply seq_NoDup.
      * destruct n; [lia|discriminate].
      * now rewrite seq_length, Du.
      * intros q Hq. apply in_seq in Hq. apply Nat.pow_le_mono_r; lia.
  - apply (stores_phase_0 n u). apply SG. apply ev_evolution.
Qed.

(** A word of evolutions that the compiler can draw. *)
Lemma stoq_word ls ps c (w : list (list nat * R)) : Forall2 (fun l p => SP l p /\ continuous_source (p_source p)) ls ps -> c_prims c = ps -> c_probs c = None ->
  (forall lt, In lt w -> In (fst lt) ls /\ - T <= snd lt <= T) -> exists gts, List.length gts = List.length w /\
  (forall g, In g gts -> on_offer n c g) /\ phase_eq d (ordered n gts) (lprod d (map (fun lt => ev d (part_of Ms (fst lt)) (snd lt)) w)).
Proof.
  intros F Cp Cq H.
  assert (X : exists us, List.length us = List.length w /\ (forall u, In u us -> on_offer n c (on_all n u)) /\
    Forall2 (phased d) (map u_mat us) (map (fun lt => ev d (part_of Ms (fst lt)) (snd lt)) w)).
  { induction w as [|[l t] w IH].
    - exists []. split; [reflexivity|]. split; [intros ? []|constructor].
    - destruct IH as (us & U1 & U2 & U3); [intros; apply H; now right|]. destruct (H (l, t) (or_introl eq_refl)) as [H1 H2]. cbn [fst snd] in H1, H2.
      destruct (offer ls ps c l t F Cp Cq H1 H2) as (u & O & P). exists (u :: us). split; [cbn; lia|]. split.
      + intros v [<-|Hv]; auto.
      + cbn [map]. constructor; [exact P|exact U3]. }
  destruct X as (us & U1 & U2 & U3). exists (map (on_all n) us). split; [now rewrite map_length|]. split.
  - intros g Hg. apply in_map_iff in Hg. destruct Hg as (u & <- & Hu). auto.
  - destruct (lprod_phase d _ _ U3) as (z & Hz & E). exists z. split; auto. rewrite ordered_lprod. exact E.
Qed.

Definition stoq_step (lt : list nat * R) : Prop :=
  fst lt <> [] /\ ascending_below L (fst lt) /\ (b = false -> List.length (fst lt) = 1%nat) /\ - T <= snd lt <= T.

Lemma step_in ls lt : term_subsets L b ls -> stoq_step lt -> In (fst lt) ls /\ - T <= snd lt <= T.
Proof.
  intros TS (H1 & H2 & H3 & H4). split; [|exact H4]. unfold term_subsets in TS. destruct b.
  - apply (proj2 TS). split; auto.
  - specialize (H3 eq_refl). destruct (fst lt) as [|i [|j r]]; try discriminate. rewrite TS. apply in_map_iff. exists i. split; auto.
    apply in_seq. destruct H2 as [_ H2]. specialize (H2 i (or_introl eq_refl)). lia.
Qed.

Lemma steps_of gts : List.Forall (stoq_gate 0 n Ms T b) gts -> exists w, List.length w = List.length gts /\
  (forall lt, In lt w -> stoq_step lt) /\ phase_eq d (ordered n gts) (lprod d (map (fun lt => ev d (part_of Ms (fst lt)) (snd lt)) w)).
Proof.
  intros F. induction F as [|g gts (l & t & H1 & H2 & H3 & H4 & (Q & SG & _)) F (w & W1 & W2 & (z & Hz & W3))].
  - exists []. split; [reflexivity|]. split; [intros ? []|]. apply phase_refl. reflexivity.
  - exists ((l, t) :: w). split; [cbn; lia|]. split.
    + intros lt [<-|Hlt]; auto. split; [exact H1|]. split; auto.
    + destruct (stores_phase_0 n (fst g) _ (SG _ (ev_evolution d (part_of Ms l) t))) as (_ & (y & Hy & P)).
      exists (z * y)%C. split; [rewrite Cmod_mult, Hz, Hy; ring|]. cbn [map lprod fold_right fst snd].
      rewrite ordered_cons, W3, Q, embed_all, P. fold (lprod d (map (fun lt => ev d (part_of Ms (fst lt)) (snd lt)) w)).
      now rewrite mmul_mscale_l, mmul_mscale_r, mscale_mscale.
Qed.

Notation word w := (lprod d (map (fun lt => ev d (part_of Ms (fst lt)) (snd lt)) w)).

Lemma set_beta_0 c : c_beta c = 0 -> set_beta c 0 = c.
Proof. destruct c. cbn. now intros ->. Qed.

Lemma chance_event r (E E' : rng -> Prop) p : (forall g, rng_ok g -> E g -> E' g) -> chance_at_least r E p -> chance_at_least r E' p.
Proof.
  intros I (f & m & H1 & H2 & H3). exists f, m. split; [|split; auto]. intros g G. eapply Rle_trans; [exact (H1 g G)|].
  destruct (excluded_middle_informative (E g)) as [X|X].
  - rewrite (ind_true (E g)), (ind_true (E' g)); auto. lra.
  - rewrite (ind_false (E g)) by auto. apply ind_range.
Qed.

Lemma word_within target thr w : thr <= 1 -> built 0 target -> u_dim target = d ->
  (forall lt, In lt w -> stoq_step lt) -> 1 - overlap d (u_mat target) (word w) < 1 - thr -> (Z.of_nat (List.length w) <= 10000)%Z ->
  exists rho, 0 < rho <= 1 /\ forall st, exact_world (r_world st) ->
    chance_at_least (r_draws st) (fun g => exists st' s costs, compile_stoq_for 0 g h target T thr b st = (st', Ok (s, costs)) /\
      cost_of n target (contents (r_world st') s) <= 1 - thr) rho.
Proof.
  intros Ht HT HD HW HC HL. destruct stoq_setup as (ls & ps & c & E & TS & F & EC & Cp & Cq & Ca & GC & Cap & Cr & Cm & Cb).
  destruct (stoq_word ls ps c w F Cp Cq) as (gts & G1 & G2 & G3).
  { intros lt Hlt. apply step_in; auto. }
  destruct (C98_within_lemma n c target (Some thr) gts GC (or_introl Ca)) as (rho & R1 & R2); auto; try lra.
  { intros p Hp. rewrite Cp in Hp. clear - F Hp. induction F as [|l q ls ps [_ K] F IH]; [destruct Hp|]. destruct Hp as [<-|Hp]; auto. }
  { rewrite (cost_phase n target _ gts G3). exact HC. }
  exists rho. split; [exact R1|]. intros st HX. assert (X := R2 st 0 10000%Z HX (Rle_refl 0)). rewrite G1, (set_beta_0 c Cb) in X.
  eapply chance_event; [|exact (X HL)]. intros g G (gs & costs & Hc & Hle). unfold compiled in Hc.
  destruct (stoq_compiler g 0 n Ms h T b n1 (small_drift_0 n 1) HH ps E) as (c' & EC' & _ & _ & _ & _ & R).
  assert (c' = c) by congruence. subst c'. specialize (R target thr st).
  destruct (compile g 0 target (Some thr) 10000 (st, c)) as [[st' c'] [[s costs']|x]]; [|discriminate]. injection Hc as <- <-.
  exists st', s, costs'. split; [exact R|exact Hle].
Qed.

Lemma word_limit target thr w delta : thr <= 1 -> built 0 target -> u_dim target = d ->
  (forall lt, In lt w -> stoq_step lt) -> 1 - overlap d (u_mat target) (word w) < 1 - thr -> 0 < delta ->
  exists ps c N, stoq_primitives 0 h T b = Ok ps /\ mk_compiler (h_dim h) false ps None (1 / 2) (1 / 10) = Ok c /\
    forall st max, exact_world (r_world st) -> (N <= max)%Z ->
    chance_at_least (r_draws st) (fun g => exists gs costs, compiled st c target (Some thr) max g = Some (gs, costs) /\
      cost_of n target gs <= 1 - thr) (1 - delta).
Proof.
  intros Ht HT HD HW HC HL. destruct stoq_setup as (ls & ps & c & E & TS & F & EC & Cp & Cq & Ca & GC & Cap & Cr & Cm & Cb).
  destruct (stoq_word ls ps c w F Cp Cq) as (gts & G1 & G2 & G3).
  { intros lt Hlt. apply step_in; auto. }
  destruct (C98_limit_lemma n c target (Some thr) gts delta GC (or_introl Ca)) as (N & HN); auto; try lra.
  { intros p Hp. rewrite Cp in Hp. clear - F Hp. induction F as [|l q ls ps [_ K] F IH]; [destruct Hp|]. destruct Hp as [<-|Hp]; auto. }
  { rewrite (cost_phase n target _ gts G3). exact HC. }
  exists ps, c, N. split; [exact E|]. split; [exact EC|]. intros st max HX Hm. assert (X := HN st 0 max HX (Rle_refl 0) Hm). rewrite (set_beta_0 c Cb) in X. exact X.
Qed.

(** * Words for the evolution of the whole *)
Lemma target_is t : exists u, time_evolution_operator 0 h t = Ok u /\ built 0 u /\ u_dim u = d /\ phase_eq d (u_mat u) (ev d (total Ms) t).
Proof.
  destruct (ham_facts _ _ _ HH) as (DP & D & _ & F). assert (ES := sum_total _ _ _ F). assert (HT := total_hermitian _ _ _ F).
  assert (HS : hermitian_mx d (sum_matrices (h_terms h))) by (eapply hermitian_meq; [symmetry; exact ES|exact HT]).
  destruct (teo_made 0 n Ms h t (small_drift_0 n 1) HH) as (v & Ev & MV & DV). exists v. split; [exact Ev|]. split; [now apply made_built0|]. split; [exact DV|].
  destruct (te_exact d _ t "" DP HS) as (u & c & Eu & _ & Hc & _ & M). unfold time_evolution_operator in Ev. rewrite D, Eu in Ev. injection Ev as <-.
  exists c. split; auto. rewrite M. now rewrite (ev_meq d _ _ t ES).
Qed.

Lemma total_herm : hermitian_mx d (total Ms).
Proof. destruct (ham_facts _ _ _ HH) as (_ & _ & _ & F). now apply total_hermitian in F. Qed.

Lemma target_overlap t u A : unitary_mx d A -> phase_eq d (u_mat u) (ev d (total Ms) t) ->
  sqrt (INR d) * (1 - overlap d (u_mat u) A) <= fro d (mminus A (ev d (total Ms) t)).
Proof.
  intros UA (z & Hz & P). assert (DP : (0 < d)%nat) by (destruct (ham_facts _ _ _ HH); auto).
  rewrite (overlap_proper d _ _ P _ _ (meq_refl _ _)), overlap_phase_l by auto.
  assert (UE := ev_unitary d (total Ms) t total_herm). assert (X := overlap_gap d _ A (ev d (total Ms) t) DP UE).
  replace (overlap d (ev d (total Ms) t) (ev d (total Ms) t)) with 1 in X by (symmetry; apply (overlap_1_iff d _ _ DP UE UE); apply phase_refl; reflexivity).
  eapply Rle_trans; [|exact X]. apply Rmult_le_compat_l; [apply sqrt_pos|]. rewrite Rabs_minus_sym. apply Rle_abs.
Qed.
End Stoq.
