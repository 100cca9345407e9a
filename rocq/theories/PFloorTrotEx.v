(** Cases for C99 and a time that is out of reach. *)
From Coq Require Import Reals List Arith Lia Lra Bool String ZArith Permutation Sorted ClassicalEpsilon.
From Coquelicot Require Import Coquelicot.
From Verif Require Import Base CMat CMatFacts Det DetFacts Norms CRoot Expm ExpmFacts ExpmBounds ModelUnitary ModelEntry ModelPrimitive
  ModelSequence ModelCompiler ModelVerification ModelGates ModelHamiltonian Spec SpecModel SpecCompiler SpecGates SpecHamiltonian
  PUnitary PUnitaryProps PDrift PEmbed PEntry PSeqHeap PSeqMeth PSeqNear PSeqWorld
  PSeqUndo PSeqInv PSeqHist PSeqProps PSeqCases PCompView PCompRun PCompEntry PCompLoop PCompTrace PCompTotal PCompProps PCompMore
  PCompCases PCompEx PReach PVerify PVerifyProps PGates PHam PHamTerm PHamSeq PHamRun PHamTrot PHamSub PHamStoq PDecimalOp
  SpecChain PChain PChainStep PChainRun PChainBal PChainHit SpecFloor PFloor PFloorMain PFloorLib PFloorStoq PFloorTrot ModelRound ModelRoundComp SpecRound SpecRoundComp SpecAgree PAgree PAgree2 PAgreeEx PHamEx.
Import ListNotations.
Open Scope R_scope.
Set Bullet Behavior "Strict Subproofs".


(** * A run adds at most one gate in each step *)
Lemma annealed_grows c (cost : list (unitary * list nat) -> R) B close es steps es' costs :
  annealed cost B close es steps es' costs -> (forall pr, In pr steps -> drawn_change 0 c (rp_change pr)) ->
  (List.length es' <= List.length es + List.length costs)%nat.
Proof.
  induction 1 as [es steps x H1 H2|es x H1 H2|es s t es' costs x cur prop H1 H2 H3 H4 acc H IH]; intros D; [lia|lia|].
  assert (IH' := IH (fun pr Hp => D pr (or_intror Hp))). assert (Ds := D s (or_introl eq_refl)). cbn [List.length].
  assert (X : (List.length (changed (rp_change s) es) <= S (List.length es))%nat).
  { destruct (rp_change s) as [gs|gs|k|k]; cbn [drawn_change changed] in *.
    - destruct Ds as (gt & p & -> & _). cbn. lia.
    - destruct Ds as (gt & p & -> & _). rewrite app_length. cbn. lia.
    - rewrite skipn_length. lia.
    - rewrite firstn_length. lia. }
  destruct acc; lia.
Qed.
Lemma compile_length g n target thr K st c st' c' s costs : rng_ok g -> reachable 0 (r_world st) -> c_dim c = (2 ^ n)%nat ->
  (forall p, In p (c_prims c) -> good_source 0 (p_source p)) -> made 0 target -> u_dim target = (2 ^ n)%nat ->
  compile g 0 target thr K (st, c) = ((st', c'), Ok (s, costs)) -> (List.length (contents (r_world st') s) <= List.length costs)%nat.
Proof.
  intros G RE Cd GS MT DT E. destruct (compile_anneals g 0 n target thr K st c st' c' s costs G RE Cd GS MT DT E) as (steps & L & D & A).
  { unfold small_round, round_bound. rewrite !Rmult_0_r, ?Rplus_0_l, ?Rmult_0_r. repeat split; lra. }
  apply (annealed_grows c) in A; [cbn in A; lia|]. intros pr Hp. apply In_nth_error in Hp. destruct Hp as (k & Hk). now apply (D k pr Hk).
Qed.

(** * One term for too short a time *)
Lemma z_square : meq 2 (mmul 2 pauli_z pauli_z) mid.
Proof. cases2; unfold mmul, pauli_z, mat22, mid; simpl; apply C_eq; simpl; ring. Qed.
Lemma z_overlap t s : overlap 2 (ev 2 pauli_z t) (ev 2 pauli_z s) = Rabs (cos (s - t)).
Proof.
  assert (HZ : meq 2 (mmul 2 (adj (ev 2 pauli_z t)) (ev 2 pauli_z s)) (ev 2 pauli_z (s - t))).
  { rewrite <- ev_neg by exact herm_z. rewrite <- ev_add. replace (- t + s) with (s - t) by ring. reflexivity. }
  unfold overlap. rewrite (mtrace_proper 2 _ _ HZ). set (x := s - t).
  assert (E := evolution_ev 2 pauli_z x _ (C39_involution_lemma 2 pauli_z x z_square)).
  rewrite <- (mtrace_proper 2 _ _ E). unfold mtrace. cbn [csum]. unfold mid, pauli_z, mat22. simpl.
  match goal with |- Cmod ?a / _ = _ => replace a with (RtoC (2 * cos x)) end.
  - rewrite Cmod_R, Rabs_mult, (Rabs_pos_eq 2) by lra. field.
  - apply C_eq; simpl; ring.
Qed.
Lemma z_word T b w : (forall lt, In lt w -> stoq_step [pauli_z] T b lt) -> exists s, Rabs s <= INR (List.length w) * T /\
  meq 2 (lprod 2 (map (fun lt => ev 2 (part_of [pauli_z] (fst lt)) (snd lt)) w)) (ev 2 pauli_z s).
Proof.
  induction w as [|[l t] w IH]; intros H.
  - exists 0. split; [rewrite Rabs_R0; cbn; lra|]. cbn [map lprod fold_right]. now rewrite ev_0.
  - destruct IH as (s & S1 & S2); [intros; apply H; now right|]. destruct (H (l, t) (or_introl eq_refl)) as (H1 & [H2 H2'] & _ & H4). cbn [fst snd] in *.
    assert (El : l = [0%nat]).
    { destruct l as [|i [|j r]]; [congruence| |].
      - f_equal. specialize (H2' i (or_introl eq_refl)). cbn in H2'. lia.
      - exfalso. assert (I := H2' i (or_introl eq_refl)). assert (J := H2' j (or_intror (or_introl eq_refl))). cbn in I, J.
        apply StronglySorted_inv in H2. destruct H2 as [_ H2]. apply Forall_inv in H2. lia. }
    subst l. exists (s + t). split.
    + eapply Rle_trans; [apply Rabs_triang|]. cbn [List.length]. rewrite S_INR. assert (Rabs t <= T) by (apply Rabs_le_between; exact H4). lra.
    + cbn [map lprod fold_right fst snd]. fold (lprod 2 (map (fun lt => ev 2 (part_of [pauli_z] (fst lt)) (snd lt)) w)).
      rewrite S2, ev_add. assert (X := ev_meq 2 _ _ t (part_one 2 [pauli_z] 0 ltac:(cbn; lia))). rewrite X. reflexivity.
Qed.
Lemma C99_time_refuted_lemma : exists h t T thr st, hamiltonian_of (2 ^ 1) [pauli_z] h /\ 0 < T /\ thr < 1 /\ exact_world (r_world st) /\
  forall g simultaneous st' s costs target, rng_ok g -> time_evolution_operator 0 h t = Ok target ->
    compile_stoq_sequence 0 g h t T thr simultaneous st = (st', Ok (s, costs)) -> 1 - thr < cost_of 1 target (contents (r_world st') s).
Proof.
  destruct (ham_exists (2 ^ 1) [pauli_z]) as (h & HH); [simpl; lia|discriminate|intros M [<-|[]]; split; [exact herm_z|exact nz_z]|].
  exists h, (PI / 2), (1 / 100000), (1 / 2), start. split; [exact HH|]. split; [lra|]. split; [lra|]. split; [exact empty_exact|].
  intros g b st' s costs target G Et E. assert (SD := small_drift_0 1 1). assert (RE := start_reachable 0).
  destruct (C44_compile_lemma g 0 1 _ h _ _ _ b _ _ _ _ G ltac:(lia) SD HH RE E) as (_ & L & F & _).
  destruct (target_is 1 _ h HH (PI / 2)) as (u & Eu & BU & DU & (z & Hz & PU)). assert (u = target) by congruence. subst u.
  destruct (teo_made 0 1 _ h (PI / 2) SD HH) as (v & Ev & MV & DV). assert (v = target) by congruence. subst v.
  unfold compile_stoq_sequence in E. unfold se_bind at 1, se_lift in E. rewrite Et in E.
  destruct (stoq_for_inv g 0 1 _ h _ b ltac:(lia) SD HH _ _ _ _ _ E) as (ps & c & c' & _ & Cd & _ & _ & (_ & _ & GP & _) & EC).
  assert (LC := compile_length g 1 target _ _ _ c _ c' s costs G RE Cd (fun p Hp => proj1 (GP p Hp)) MV DV EC).
  destruct (steps_of 1 _ _ b ltac:(lia) _ F) as (w & W1 & W2 & W3). destruct (z_word _ b w W2) as (x & X1 & X2).
  rewrite (cost_phase 1 target _ _ W3). change (2 ^ 1)%nat with 2%nat in *.
  rewrite (overlap_proper 2 _ _ PU _ _ X2), overlap_phase_l by auto.
  assert (ZT : meq 2 (ev 2 (total [pauli_z]) (PI / 2)) (ev 2 pauli_z (PI / 2))).
  { apply ev_meq. intros i j _ _. unfold total. cbn [fold_right]. apply Cplus_0_r. }
  rewrite (overlap_proper 2 _ _ ZT _ _ (meq_refl _ _)), z_overlap. replace (x - PI / 2) with (- (PI / 2 - x)) by ring. rewrite cos_neg, cos_shift.
  assert (LI : INR (List.length w) <= 10000).
  { rewrite W1. eapply Rle_trans; [apply le_INR; exact LC|]. rewrite INR_IZR_INZ. apply IZR_le. exact L. }
  assert (XB : Rabs x <= 1 / 10). { eapply Rle_trans; [exact X1|]. lra. }
  assert (SX : Rabs (sin x) <= Rabs x).
  { destruct (Rle_lt_dec 0 x) as [P|P].
    - rewrite (Rabs_pos_eq x P). destruct (Rle_lt_or_eq_dec _ _ P) as [Q|Q].
      + rewrite Rabs_pos_eq in XB by lra. assert (S1 := sin_lt_x x Q). apply Rabs_le_between. split; [|lra].
        assert (0 <= sin x). { apply sin_ge_0; [lra|]. assert (PB := PI2_1). lra. } lra.
      + rewrite <- Q, sin_0, Rabs_R0. lra.
    - rewrite (Rabs_left x P) in XB |- *. assert (S1 := sin_lt_x (- x) ltac:(lra)). rewrite sin_neg in S1. apply Rabs_le_between. split; [|].
      + lra.
      + assert (0 <= sin (- x)). { apply sin_ge_0; [lra|]. assert (PB := PI2_1). lra. } rewrite sin_neg in H. lra. }
  lra.
Qed.

(** * Cases *)
Lemma fro_x : fro 2 pauli_x = sqrt 2.
Proof.
  unfold fro. f_equal. cbn. unfold pauli_x, mat22. cbn [nth]. rewrite ?Cmod_0, ?Cmod_1. simpl. ring.
Qed.
Lemma fro_z : fro 2 pauli_z = sqrt 2.
Proof.
  assert (E : Cmod (RtoC (-1)) = 1) by (rewrite Cmod_R, Rabs_left by lra; ring).
  unfold fro. f_equal. cbn. unfold pauli_z, mat22. rewrite ?E, ?Cmod_0, ?Cmod_1. simpl. ring.
Qed.
Lemma ex_C99_trotter_lemma : exists h st, hamiltonian_of (2 ^ 1) [pauli_x; pauli_z] h /\ exact_world (r_world st) /\
  Rabs 1 <= INR (Z.to_nat 1000) * (1 / 10) /\
  trotter_bound (total_size (2 ^ 1) [pauli_x; pauli_z] 1) (Z.to_nat 1000) < sqrt (INR (2 ^ 1)) * (1 - 95 / 100) /\
  (Z.of_nat (Z.to_nat 1000 * List.length [pauli_x; pauli_z]) <= 10000)%Z.
Proof.
  destruct ex_ham as (h & H). exists h, start. split; [exact H|]. split; [exact empty_exact|].
  assert (E : INR (Z.to_nat 1000) = 1000) by (rewrite INR_IZR_INZ, Z2Nat.id by lia; reflexivity).
  assert (S2 : sqrt 2 * sqrt 2 = 2) by (apply sqrt_sqrt; lra). assert (Sp := sqrt_lt_R0 2 ltac:(lra)).
  assert (Sb : 14 / 10 <= sqrt 2). { rewrite <- (sqrt_square (14 / 10)) by lra. apply sqrt_le_1_alt. lra. }
  split; [rewrite E, Rabs_R1; lra|]. split; [|cbn [List.length]; lia].
  unfold total_size. change (2 ^ 1)%nat with 2%nat. cbn [fold_right]. rewrite fro_x, fro_z, Rabs_R1, Rplus_0_r, Rmult_1_l. unfold trotter_bound. rewrite E.
  replace ((sqrt 2 + sqrt 2) ^ 2) with 8 by (cbn [pow]; lra). change (INR 2) with 2.
  assert (X : exp ((sqrt 2 + sqrt 2) / 1000) <= 3).
  { eapply Rle_trans; [|exact exp_le_3]. apply Rlt_le, exp_increasing. assert (sqrt 2 <= 2) by (rewrite <- (sqrt_square 2) at 2 by lra; apply sqrt_le_1_alt; lra). lra. }
  lra.
Qed.
Lemma ex_C99_commuting_lemma : exists h st, hamiltonian_of (2 ^ 1) [pauli_z; mid] h /\ commuting (2 ^ 1) [pauli_z; mid] /\ exact_world (r_world st) /\
  Rabs 1 <= INR 10 * (1 / 10) /\ (Z.of_nat (10 * List.length [pauli_z; mid]) <= 10000)%Z.
Proof.
  destruct ex_commuting_lemma as (h & H & C & _). exists h, start. split; [exact H|]. split; [exact C|]. split; [exact empty_exact|].
  split; [rewrite Rabs_R1; cbn; lra|cbn [List.length]; lia].
Qed.
Lemma gate_of n Ms h T b l t : (1 <= n)%nat -> hamiltonian_of (2 ^ n) Ms h -> 0 <= T -> - T <= t <= T -> l <> [] -> ascending_below (List.length Ms) l ->
  (b = false -> List.length l = 1%nat) -> exists u, built 0 u /\ u_dim u = (2 ^ n)%nat /\ stoq_gate 0 n Ms T b (on_all n u) /\
    phase_eq (2 ^ n) (u_mat u) (ev (2 ^ n) (part_of Ms l) t).
Proof.
  intros N1 HH T0 Ht L1 L2 L3. destruct (subset_primitive_ok 0 n Ms h T l N1 (small_drift_0 n 1) HH T0 (proj2 L2)) as (p & _ & S).
  destruct (prim_at_ok 0 n Ms h T HH l p t S Ht) as (u & _ & MU & Du & SG). exists u. split; [now apply made_built0|]. split; [exact Du|]. split.
  - exists l, t. auto 10.
  - apply (stores_phase_0 n u). apply SG. apply ev_evolution.
Qed.
Lemma ex_C99_word_lemma : exists h st target target' gts, hamiltonian_of (2 ^ 1) [pauli_z] h /\ exact_world (r_world st) /\
  built 0 target /\ u_dim target = (2 ^ 1)%nat /\ built 0 target' /\ u_dim target' = (2 ^ 1)%nat /\
  List.Forall (stoq_gate 0 1 [pauli_z] 2 false) gts /\ List.length gts = 1%nat /\ cost_of 1 target gts < 1 - 95 / 100 /\
  phase_eq (2 ^ 1) (u_mat target') (adj (ordered 1 gts)) /\ 1 - 95 / 100 < cost_of 1 target [] /\ 1 - 95 / 100 < cost_of 1 target' [].
Proof.
  destruct (ham_exists (2 ^ 1) [pauli_z]) as (h & HH); [simpl; lia|discriminate|intros M [<-|[]]; split; [exact herm_z|exact nz_z]|].
  assert (PB := PI_4). assert (PP := PI_RGT_0).
  assert (AB : ascending_below (List.length [pauli_z]) [0%nat]). { split; [constructor; constructor|]. intros i [<-|[]]. cbn. lia. }
  destruct (gate_of 1 _ h 2 false [0%nat] (PI / 2) ltac:(lia) HH ltac:(lra) ltac:(lra) ltac:(discriminate) AB ltac:(reflexivity)) as (u & B & D & SG & P).
  destruct (gate_of 1 _ h 2 false [0%nat] (- (PI / 2)) ltac:(lia) HH ltac:(lra) ltac:(lra) ltac:(discriminate) AB ltac:(reflexivity)) as (v & B' & D' & _ & P').
  exists h, start, u, v, [on_all 1 u]. split; [exact HH|]. split; [exact empty_exact|]. split; [exact B|]. split; [exact D|]. split; [exact B'|]. split; [exact D'|].
  split; [constructor; [exact SG|constructor]|]. split; [reflexivity|]. change (2 ^ 1)%nat with 2%nat in *.
  assert (PE : forall t, meq 2 (ev 2 (part_of [pauli_z] [0%nat]) t) (ev 2 pauli_z t)) by (intros t; apply ev_meq, (part_one 2 [pauli_z] 0); cbn; lia).
  assert (O : meq 2 (ordered 1 [on_all 1 u]) (u_mat u)). { rewrite (ordered_lprod 1 [u]). cbn [map lprod fold_right]. apply mmul_1_l. }
  assert (UU : unitary_mx 2 (u_mat u)) by (rewrite <- D; apply (built_wf 0); exact B).
  assert (CZ : forall w t, phase_eq 2 (u_mat w) (ev 2 (part_of [pauli_z] [0%nat]) t) -> cost_of 1 w [] = 1 - Rabs (cos t)).
  { intros w t (z & Hz & E). unfold cost_of. f_equal. change (2 ^ 1)%nat with 2%nat. change (ordered 1 []) with mid. rewrite PE in E.
    rewrite (overlap_proper 2 _ _ E _ _ (meq_refl _ _)), overlap_phase_l by auto.
    rewrite (overlap_proper 2 _ _ (meq_refl _ _) _ _ (meq_sym _ _ _ (ev_0 2 pauli_z))), z_overlap. replace (0 - t) with (- t) by ring. now rewrite cos_neg. }
  split; [|split; [|split]].
  - unfold cost_of. change (2 ^ 1)%nat with 2%nat. rewrite (overlap_proper 2 _ _ (meq_refl _ _) _ _ O).
    rewrite (proj2 (overlap_1_iff 2 (u_mat u) (u_mat u) ltac:(lia) UU UU)); [lra|]. apply phase_refl. reflexivity.
  - destruct P as (y & Hy & E). destruct P' as (z & Hz & E'). exists (z * y)%C. split; [rewrite Cmod_mult, Hy, Hz; ring|].
    rewrite O, E', E, !PE, adj_mscale, mscale_mscale. replace (z * y * Cconj y)%C with (z * (Cconj y * y))%C by ring. rewrite Cmod_one_conj', Cmult_1_r by auto.
    now rewrite ev_neg by exact herm_z.
  - rewrite (CZ u _ P), cos_PI2, Rabs_R0. lra.
  - rewrite (CZ v _ P'), cos_neg, cos_PI2, Rabs_R0. lra.
Qed.
