(** STOQ compilation of an evolution: C99. *)
From Coq Require Import Reals List Arith Lia Lra Bool String ZArith Permutation Sorted ClassicalEpsilon.
From Coquelicot Require Import Coquelicot.
From Verif Require Import Base CMat CMatFacts Det DetFacts Norms CRoot Expm ExpmFacts ExpmBounds ModelUnitary ModelEntry ModelPrimitive
  ModelSequence ModelCompiler ModelVerification ModelGates ModelHamiltonian Spec SpecModel SpecCompiler SpecGates SpecHamiltonian
  PUnitary PUnitaryProps PDrift PEmbed PEntry PSeqHeap PSeqMeth PSeqNear PSeqWorld
  PSeqUndo PSeqInv PSeqHist PSeqProps PSeqCases PCompView PCompRun PCompEntry PCompLoop PCompTrace PCompTotal PCompProps PCompMore
  PCompCases PCompEx PReach PVerify PVerifyProps PGates PHam PHamTerm PHamSeq PHamRun PHamTrot PHamSub PHamStoq PDecimalOp
  SpecChain PChain PChainStep PChainRun PChainBal PChainHit SpecFloor PFloor PFloorMain PFloorLib PFloorStoq.
Import ListNotations.
Open Scope R_scope.
Set Bullet Behavior "Strict Subproofs".


Lemma part_one d Ms i : (i < List.length Ms)%nat -> meq d (part_of Ms [i]) (nth i Ms mzero).
Proof. intros _ a b _ _. unfold part_of, total. cbn [map fold_right]. apply Cplus_0_r. Qed.
Lemma map_nth_seq {A B} (f : A -> B) (l : list A) x : map (fun i => f (nth i l x)) (seq 0 (List.length l)) = map f l.
Proof.
  induction l as [|a l IH]; [reflexivity|]. cbn [List.length seq map nth]. f_equal. rewrite <- seq_shift, map_map. exact IH.
Qed.
Lemma part_all Ms : part_of Ms (seq 0 (List.length Ms)) = total Ms.
Proof. unfold part_of. rewrite (map_nth_seq (fun M => M)). now rewrite map_id. Qed.

(** N rounds of all terms. *)
Definition rounds (Ms : list mat) (dt : R) (N : nat) : list (list nat * R) :=
  List.concat (repeat (map (fun i => ([i], dt)) (seq 0 (List.length Ms))) N).

Lemma rounds_length Ms dt N : List.length (rounds Ms dt N) = (N * List.length Ms)%nat.
Proof.
  unfold rounds. induction N as [|N IH]; [reflexivity|]. cbn [repeat List.concat]. rewrite app_length, IH, map_length, seq_length. lia.
Qed.
Lemma rounds_step Ms T b dt N : - T <= dt <= T -> forall lt, In lt (rounds Ms dt N) -> stoq_step Ms T b lt.
Proof.
  intros Ht lt H. unfold rounds in H. apply in_concat in H. destruct H as (x & Hx & H). apply repeat_spec in Hx. subst x.
  apply in_map_iff in H. destruct H as (i & <- & Hi). apply in_seq in Hi. cbn [fst snd]. split; [discriminate|]. split; [|split; auto].
  - split; [constructor; constructor|]. intros j [<-|[]]. lia.
Qed.
Lemma lprod_meq d As Bs : Forall2 (meq d) As Bs -> meq d (lprod d As) (lprod d Bs).
Proof.
  induction 1 as [|A B As Bs H _ IH]; [reflexivity|]. cbn [lprod fold_right]. fold (lprod d As). fold (lprod d Bs). now rewrite IH, H.
Qed.

Lemma rounds_prod d Ms dt N : meq d (lprod d (map (fun lt => ev d (part_of Ms (fst lt)) (snd lt)) (rounds Ms dt N)))
  (lprod d (repeat (lprod d (map (fun M => ev d M dt) Ms)) N)).
Proof.
  unfold rounds. induction N as [|N IH]; [reflexivity|]. cbn [repeat List.concat]. rewrite map_app, lprod_app, IH. cbn [lprod fold_right].
  fold (lprod d (repeat (lprod d (map (fun M => ev d M dt) Ms)) N)).
  assert (X : meq d (lprod d (map (fun lt : list nat * R => ev d (part_of Ms (fst lt)) (snd lt)) (map (fun i => ([i], dt)) (seq 0 (List.length Ms)))))
    (lprod d (map (fun M => ev d M dt) Ms))); [|now rewrite X].
  rewrite map_map, <- (map_nth_seq (fun M => ev d M dt) Ms mzero). apply lprod_meq. cbn [fst snd].
  assert (Y : forall i, In i (seq 0 (List.length Ms)) -> (i < List.length Ms)%nat) by (intros i Hi; apply in_seq in Hi; lia).
  clear IH. induction (seq 0 (List.length Ms)) as [|i l IHl]; cbn [map]; constructor.
  - apply ev_meq, part_one, Y. now left.
  - apply IHl. intros j Hj. apply Y. now right.
Qed.

Lemma rounds_close d Ms t N e : (forall M, In M Ms -> hermitian_mx d M) -> hermitian_mx d (total Ms) -> (1 <= N)%nat -> 0 <= e ->
  fro d (mminus (lprod d (map (fun M => ev d M (t / INR N)) Ms)) (ev d (total Ms) (t / INR N))) <= e ->
  unitary_mx d (lprod d (map (fun lt => ev d (part_of Ms (fst lt)) (snd lt)) (rounds Ms (t / INR N) N))) /\
  fro d (mminus (lprod d (map (fun lt => ev d (part_of Ms (fst lt)) (snd lt)) (rounds Ms (t / INR N) N))) (ev d (total Ms) t)) <= INR N * e.
Proof.
  intros HM HT NN He HB. set (dt := t / INR N) in *. destruct (block_close d Ms dt _ HM (Permutation_refl _)) as [U _].
  assert (R := rounds_prod d Ms dt N). split.
  - rewrite R. apply lprod_unitary. intros V HV. apply repeat_spec in HV. now subst V.
  - assert (Q := lprod_close d (repeat (lprod d (map (fun M => ev d M dt) Ms)) N) (repeat (ev d (total Ms) dt) N) e He). rewrite repeat_length in Q.
    eapply Rle_trans; [|apply Q].
    + right. apply fro_proper. rewrite R, lprod_repeat_ev. unfold dt. replace (INR N * (t / INR N)) with t by (field; apply not_0_INR; lia). reflexivity.
    + apply F2_repeat. split; [exact U|]. split; [now apply ev_unitary|exact HB].
Qed.

Lemma block_bound d Ms t N : (forall M, In M Ms -> hermitian_mx d M) -> (1 <= N)%nat -> exists e, 0 <= e /\
  fro d (mminus (lprod d (map (fun M => ev d M (t / INR N)) Ms)) (ev d (total Ms) (t / INR N))) <= e /\ INR N * e = trotter_bound (total_size d Ms t) N.
Proof.
  intros HM NN. set (S := total_size d Ms t). assert (S0 : 0 <= S) by apply total_size_nonneg.
  assert (NP : 0 < INR N) by (apply lt_0_INR; lia). assert (SN : 0 <= S / INR N) by (apply Rmult_le_pos; [exact S0|apply Rlt_le, Rinv_0_lt_compat, NP]).
  assert (DS := exp_defect_sq _ SN). exists (2 * ((S / INR N) ^ 2 * exp (S / INR N))). split; [|split].
  - apply Rmult_le_pos; [lra|]. apply Rmult_le_pos; [apply pow2_ge_0|apply Rlt_le, exp_pos].
  - destruct (block_close d Ms (t / INR N) _ HM (Permutation_refl _)) as [_ BC]. eapply Rle_trans; [exact BC|].
    rewrite gens_size by exact NN. fold S. lra.
  - unfold trotter_bound. field. lra.
Qed.

Lemma step_range T t N : (1 <= N)%nat -> Rabs t <= INR N * T -> - T <= t / INR N <= T.
Proof.
  intros NN H. assert (NP : 0 < INR N) by (apply lt_0_INR; lia). apply Rabs_le_between in H.
  split; [apply Rle_div_r|apply Rle_div_l]; lra.
Qed.
Lemma size_pos n : 0 < sqrt (INR (2 ^ n)).
Proof. apply sqrt_lt_R0, lt_0_INR. assert (X := Nat.pow_nonzero 2 n). lia. Qed.

(** * C99 *)
Lemma C99_word_lemma : forall n Ms h T thr simultaneous target gts, (1 <= n)%nat -> hamiltonian_of (2 ^ n) Ms h -> 0 <= T -> thr <= 1 ->
  built 0 target -> u_dim target = (2 ^ n)%nat -> List.Forall (stoq_gate 0 n Ms T simultaneous) gts -> cost_of n target gts < 1 - thr ->
  (Z.of_nat (List.length gts) <= 10000)%Z -> exists rho, 0 < rho <= 1 /\ forall st, exact_world (r_world st) ->
    chance_at_least (r_draws st) (fun g => exists st' s costs, compile_stoq_for 0 g h target T thr simultaneous st = (st', Ok (s, costs)) /\
      cost_of n target (contents (r_world st') s) <= 1 - thr) rho.
Proof.
  intros n Ms h T thr b target gts N1 HH T0 Ht HT HD HF HC HL. destruct (steps_of n Ms T b N1 gts HF) as (w & W1 & W2 & W3).
  apply (word_within n Ms h T b N1 HH T0 target thr w Ht HT HD W2); [|now rewrite W1]. now rewrite <- (cost_phase n target _ gts W3).
Qed.

(** The evolutions backwards. *)
Lemma back_word n Ms h T b w : hamiltonian_of (2 ^ n) Ms h -> (forall lt, In lt w -> stoq_step Ms T b lt) -> exists w', List.length w' = List.length w /\
  (forall lt, In lt w' -> stoq_step Ms T b lt) /\
  meq (2 ^ n) (lprod (2 ^ n) (map (fun lt => ev (2 ^ n) (part_of Ms (fst lt)) (snd lt)) w'))
    (adj (lprod (2 ^ n) (map (fun lt => ev (2 ^ n) (part_of Ms (fst lt)) (snd lt)) w))).
Proof.
  intros HH H. induction w as [|[l t] w IH].
  - exists []. split; [reflexivity|]. split; [intros ? []|]. cbn. symmetry. apply adj_mid.
  - destruct IH as (w' & W1 & W2 & W3); [intros; apply H; now right|]. exists (w' ++ [(l, - t)]). split; [rewrite app_length; cbn; lia|].
    destruct (H (l, t) (or_introl eq_refl)) as (H1 & H2 & H3 & H4). cbn [fst snd] in *. split.
    + intros lt Hlt. apply in_app_or in Hlt. destruct Hlt as [Hlt|[<-|[]]]; auto. split; [exact H1|]. split; auto. split; auto. cbn [snd]. lra.
    + rewrite map_app, lprod_app, W3. cbn [map lprod fold_right fst snd]. rewrite mmul_1_l, adj_mmul.
      rewrite ev_neg by (apply part_hermitian; eapply ham_hermitian; eauto). reflexivity.
Qed.

Lemma C99_inverse_lemma : forall n Ms h T thr simultaneous target gts, (1 <= n)%nat -> hamiltonian_of (2 ^ n) Ms h -> 0 <= T -> thr < 1 ->
  built 0 target -> u_dim target = (2 ^ n)%nat -> List.Forall (stoq_gate 0 n Ms T simultaneous) gts ->
  phase_eq (2 ^ n) (u_mat target) (adj (ordered n gts)) ->
  (Z.of_nat (List.length gts) <= 10000)%Z -> exists rho, 0 < rho <= 1 /\ forall st, exact_world (r_world st) ->
    chance_at_least (r_draws st) (fun g => exists st' s costs, compile_stoq_for 0 g h target T thr simultaneous st = (st', Ok (s, costs)) /\
      cost_of n target (contents (r_world st') s) <= 1 - thr) rho.
Proof.
  intros n Ms h T thr b target gts N1 HH T0 Ht HT HD HF HC HL. destruct (steps_of n Ms T b N1 gts HF) as (w & W1 & W2 & (z & Hz & W3)).
  destruct (back_word n Ms h T b w HH W2) as (w' & X1 & X2 & X3).
  apply (word_within n Ms h T b N1 HH T0 target thr w' ltac:(lra) HT HD X2); [|now rewrite X1, W1].
  assert (DP : (0 < 2 ^ n)%nat) by (destruct (ham_facts _ _ _ HH); auto).
  assert (UT : unitary_mx (2 ^ n) (u_mat target)) by (rewrite <- HD; apply (built_wf 0); exact HT).
  replace (overlap _ _ _) with 1; [lra|]. symmetry. apply overlap_1_iff; auto.
  - apply lprod_unitary. intros V HV. apply in_map_iff in HV. destruct HV as (lt & <- & _). apply ev_unitary, part_hermitian. eapply ham_hermitian; eauto.
  - destruct HC as (y & Hy & E). rewrite W3, adj_mscale in E. rewrite <- X3 in E.
    exists (Cconj y * z)%C. split; [rewrite Cmod_mult, Cmod_conj, Hy, Hz; ring|]. rewrite E, !mscale_mscale.
    match goal with |- context [mscale ?k (lprod _ _)] => replace k with ((Cconj y * y) * (Cconj z * z))%C by ring end.
    rewrite !Cmod_one_conj' by auto.
    rewrite Cmult_1_l. intros i j _ _. unfold mscale. now rewrite Cmult_1_l.
Qed.

Lemma evolution_within n Ms h T thr b t w : (1 <= n)%nat -> hamiltonian_of (2 ^ n) Ms h -> 0 <= T -> thr <= 1 -> (forall lt, In lt w -> stoq_step Ms T b lt) ->
  fro (2 ^ n) (mminus (lprod (2 ^ n) (map (fun lt => ev (2 ^ n) (part_of Ms (fst lt)) (snd lt)) w)) (ev (2 ^ n) (total Ms) t)) < sqrt (INR (2 ^ n)) * (1 - thr) ->
  (Z.of_nat (List.length w) <= 10000)%Z -> exists target rho, time_evolution_operator 0 h t = Ok target /\ 0 < rho <= 1 /\ forall st, exact_world (r_world st) ->
    chance_at_least (r_draws st) (fun g => exists st' s costs, compile_stoq_sequence 0 g h t T thr b st = (st', Ok (s, costs)) /\
      cost_of n target (contents (r_world st') s) <= 1 - thr) rho.
Proof.
  intros N1 HH T0 Ht HW HC HL. destruct (target_is n Ms h HH t) as (u & Eu & BU & DU & PU).
  assert (UA : unitary_mx (2 ^ n) (lprod (2 ^ n) (map (fun lt => ev (2 ^ n) (part_of Ms (fst lt)) (snd lt)) w))).
  { apply lprod_unitary. intros V HV. apply in_map_iff in HV. destruct HV as (lt & <- & _). apply ev_unitary, part_hermitian. eapply ham_hermitian; eauto. }
  assert (X := target_overlap n Ms h HH t u _ UA PU). assert (SP := size_pos n).
  destruct (word_within n Ms h T b N1 HH T0 u thr w Ht BU DU HW) as (rho & R1 & R2); auto.
  { apply (Rmult_lt_reg_l (sqrt (INR (2 ^ n)))); lra. }
  exists u, rho. split; [exact Eu|]. split; [exact R1|]. intros st HX. eapply chance_event; [|exact (R2 st HX)].
  intros g _ (st' & s & costs & E & Hc). exists st', s, costs. split; [|exact Hc]. unfold compile_stoq_sequence, se_bind at 1, se_lift. rewrite Eu. exact E.
Qed.

Lemma C99_trotter_lemma : forall n Ms h t T thr simultaneous N, (1 <= n)%nat -> hamiltonian_of (2 ^ n) Ms h -> 0 <= T -> thr <= 1 -> (1 <= N)%nat ->
  Rabs t <= INR N * T -> trotter_bound (total_size (2 ^ n) Ms t) N < sqrt (INR (2 ^ n)) * (1 - thr) -> (Z.of_nat (N * List.length Ms) <= 10000)%Z ->
  exists target rho, time_evolution_operator 0 h t = Ok target /\ 0 < rho <= 1 /\ forall st, exact_world (r_world st) ->
    chance_at_least (r_draws st) (fun g => exists st' s costs, compile_stoq_sequence 0 g h t T thr simultaneous st = (st', Ok (s, costs)) /\
      cost_of n target (contents (r_world st') s) <= 1 - thr) rho.
Proof.
  intros n Ms h t T thr b N N1 HH T0 Ht NN HR HB HL. assert (HM := ham_hermitian _ _ _ HH).
  destruct (block_bound (2 ^ n) Ms t N HM NN) as (e & E0 & EB & EE).
  destruct (rounds_close (2 ^ n) Ms t N e HM (total_herm n Ms h HH) NN E0 EB) as [_ X].
  apply (evolution_within n Ms h T thr b t (rounds Ms (t / INR N) N)); auto.
  - apply rounds_step. now apply step_range.
  - lra.
  - now rewrite rounds_length.
Qed.
Lemma C99_commuting_lemma : forall n Ms h t T thr simultaneous N, (1 <= n)%nat -> hamiltonian_of (2 ^ n) Ms h -> 0 <= T -> thr < 1 -> (1 <= N)%nat ->
  Rabs t <= INR N * T -> commuting (2 ^ n) Ms -> (Z.of_nat (N * List.length Ms) <= 10000)%Z ->
  exists target rho, time_evolution_operator 0 h t = Ok target /\ 0 < rho <= 1 /\ forall st, exact_world (r_world st) ->
    chance_at_least (r_draws st) (fun g => exists st' s costs, compile_stoq_sequence 0 g h t T thr simultaneous st = (st', Ok (s, costs)) /\
      cost_of n target (contents (r_world st') s) <= 1 - thr) rho.
Proof.
  intros n Ms h t T thr b N N1 HH T0 Ht NN HR HB HL. assert (HM := ham_hermitian _ _ _ HH).
  destruct (rounds_close (2 ^ n) Ms t N 0 HM (total_herm n Ms h HH) NN (Rle_refl 0)) as [_ X].
  { rewrite fro_minus_self; [lra|]. apply block_commute; auto. }
  apply (evolution_within n Ms h T thr b t (rounds Ms (t / INR N) N)); auto; try lra.
  - apply rounds_step. now apply step_range.
  - rewrite Rmult_0_r in X. eapply Rle_lt_trans; [exact X|]. apply Rmult_lt_0_compat; [apply size_pos|lra].
  - now rewrite rounds_length.
Qed.
Lemma C99_simultaneous_lemma : forall n Ms h t T thr N, (1 <= n)%nat -> hamiltonian_of (2 ^ n) Ms h -> 0 <= T -> thr < 1 -> (1 <= N)%nat ->
  Rabs t <= INR N * T -> (Z.of_nat N <= 10000)%Z ->
  exists target rho, time_evolution_operator 0 h t = Ok target /\ 0 < rho <= 1 /\ forall st, exact_world (r_world st) ->
    chance_at_least (r_draws st) (fun g => exists st' s costs, compile_stoq_sequence 0 g h t T thr true st = (st', Ok (s, costs)) /\
      cost_of n target (contents (r_world st') s) <= 1 - thr) rho.
Proof.
  intros n Ms h t T thr N N1 HH T0 Ht NN HR HL.
  apply (evolution_within n Ms h T thr true t (repeat (seq 0 (List.length Ms), t / INR N) N)); auto; try lra.
  - intros lt Hlt. apply repeat_spec in Hlt. subst lt. destruct (ham_facts _ _ _ HH) as (_ & _ & NE & _). cbn [fst snd].
    split; [destruct Ms; [congruence|discriminate]|]. split; [|split; [discriminate|now apply step_range]].
    split; [|intros i Hi; apply in_seq in Hi; lia].
    cbn [fst]. clear. generalize 0%nat. induction (List.length Ms) as [|k IH]; intros a; cbn [seq]; constructor; [apply IH|].
    apply List.Forall_forall. intros i Hi. apply in_seq in Hi. lia.
  - rewrite map_repeat'. cbn [fst snd]. rewrite part_all, fro_minus_self.
    + apply Rmult_lt_0_compat; [apply size_pos|lra].
    + rewrite lprod_repeat_ev. replace (INR N * (t / INR N)) with t by (field; apply not_0_INR; lia). reflexivity.
  - now rewrite repeat_length.
Qed.

Lemma C99_limit_lemma : forall n Ms h t T thr simultaneous delta, (1 <= n)%nat -> hamiltonian_of (2 ^ n) Ms h -> 0 < T -> thr < 1 -> 0 < delta ->
  exists ps c target N, stoq_primitives 0 h T simultaneous = Ok ps /\ mk_compiler (h_dim h) false ps None (1 / 2) (1 / 10) = Ok c /\
    time_evolution_operator 0 h t = Ok target /\
    forall st max, exact_world (r_world st) -> (N <= max)%Z ->
    chance_at_least (r_draws st) (fun g => exists gs costs, compiled st c target (Some thr) max g = Some (gs, costs) /\
      cost_of n target gs <= 1 - thr) (1 - delta).
Proof.
  intros n Ms h t T thr b delta N1 HH T0 Ht Hd. assert (HM := ham_hermitian _ _ _ HH). assert (SP := size_pos n).
  set (S := total_size (2 ^ n) Ms t). assert (S0 : 0 <= S) by apply total_size_nonneg.
  set (tol := sqrt (INR (2 ^ n)) * (1 - thr)). assert (TP : 0 < tol) by (apply Rmult_lt_0_compat; lra).
  destruct (nat_above (2 * S ^ 2 * exp S / tol)) as [K1 HK1]. destruct (nat_above (Rabs t / T)) as [K2 HK2]. set (N := (K1 + K2 + 1)%nat).
  assert (NN : (1 <= N)%nat) by (unfold N; lia).
  assert (L1 : INR K1 <= INR N) by (apply le_INR; unfold N; lia). assert (L2 : INR K2 <= INR N) by (apply le_INR; unfold N; lia).
  assert (HB : trotter_bound S N < tol) by (apply trotter_bound_small; auto; lra).
  assert (HR : Rabs t <= INR N * T). { apply Rlt_le, (Rlt_div_l (Rabs t) (INR N) T); [exact T0|]. lra. }
  destruct (block_bound (2 ^ n) Ms t N HM NN) as (e & E0 & EB & EE). fold S in EE.
  destruct (rounds_close (2 ^ n) Ms t N e HM (total_herm n Ms h HH) NN E0 EB) as [UA X].
  destruct (target_is n Ms h HH t) as (u & Eu & BU & DU & PU). assert (Y := target_overlap n Ms h HH t u _ UA PU).
  destruct (word_limit n Ms h T b N1 HH (Rlt_le _ _ T0) u thr (rounds Ms (t / INR N) N) delta) as (ps & c & M & W1 & W2 & W3); auto; try lra.
  - apply rounds_step. now apply step_range.
  - apply (Rmult_lt_reg_l (sqrt (INR (2 ^ n)))); [exact SP|]. fold tol. lra.
  - exists ps, c, u, M. auto.
Qed.
