(** A case of C103, and the failure of the claim for every sequence of draws. *)
From Coq Require Import Reals List Arith Bool String ZArith Lra Lia.
From Coquelicot Require Import Coquelicot.
From Verif Require Import Base CMat CMatFacts Det DetFacts Norms CRoot Expm ExpmFacts ExpmBounds ModelUnitary ModelEntry
  ModelPrimitive ModelSequence ModelCompiler ModelVerification ModelGates ModelHamiltonian Spec SpecModel
  SpecCompiler SpecGates SpecHamiltonian SpecChannel SpecChain SpecFloor PUnitary PDrift PEntry PSeqNear
  PCompRun PCompCases PGates PGatesEx PHam PHamTerm PHamSeq PHamRun PHamTrot PHamQd PHamEx PDecimalOp PChannel PHamChan PQdTail.
Import ListNotations.
Set Bullet Behavior "Strict Subproofs".
Open Scope R_scope.
Open Scope C_scope.

Lemma ex_C103_lemma : exists h E, hamiltonian_of (2 ^ 1) [pauli_x; pauli_z] h /\
  Forall2 (operator_norm (2 ^ 1)) [pauli_x; pauli_z] [1; 1]%R /\ evolution (2 ^ 1) (total [pauli_x; pauli_z]) 1 E /\
  small_drift eps_code 1 (2 * 20) /\ reachable eps_code (r_world start) /\
  (1 - (fold_right Rplus 0 [1; 1] * 1) ^ 2 / (INR 20 * (1 / 2)) = 3 / 5)%R.
Proof.
  destruct ex_mean_lemma as (g & h & E & _ & H & _ & _ & F & R & HE). exists h, E.
  split; [exact H|]. split; [exact F|]. split; [exact HE|]. split; [exact eps_code_40|]. split; [exact R|]. simpl. field.
Qed.

Lemma ev_scaled d M a s : meq d (ev d (mscale (RtoC a) M) s) (ev d M (a * s)).
Proof. rewrite !ev_expm. apply expm_meq. intros i j _ _. unfold mscale. rewrite RtoC_mult. ring. Qed.

Lemma same_draws d cs (A : nat -> mat) x : forall N r,
  meq d (rprod d cs A (map (fun _ => x) (seq r N))) (ev d (A (sel cs x)) (INR N)).
Proof.
  unfold rprod. induction N as [|N IH]; intros r.
  - cbn [seq map lprod fold_right INR]. now rewrite ev_0.
  - cbn [seq map]. rewrite S_INR. unfold lprod in *. cbn [fold_right].
    rewrite (IH (S r)). try rewrite <- ev_add; try rewrite (ev_add d _ (INR N) 1). try reflexivity.
Qed.

Lemma id_square d : meq d (mmul d mid mid) mid.
Proof. apply mmul_1_l. Qed.

Lemma total_zi : meq 2 (total [pauli_z; mid]) (mplus pauli_z mid).
Proof. intros i j _ _. unfold total, mplus. cbn [fold_right]. ring. Qed.

Lemma ev_zi : meq 2 (ev 2 (total [pauli_z; mid]) (PI / 2)) (mscale (RtoC (-1)) pauli_z).
Proof.
  rewrite (ev_meq 2 _ _ _ total_zi). unfold ev.
  assert (E : mscale Ci (mplus pauli_z mid) = mplus (mscale Ci pauli_z) (mscale Ci mid)).
  { apply FunctionalExtensionality.functional_extensionality. intros i. apply FunctionalExtensionality.functional_extensionality. intros j.
    unfold mscale, mplus. ring. }
  rewrite E, epath_plus.
  - fold (ev 2 pauli_z (PI / 2)) (ev 2 mid (PI / 2)).
    rewrite <- (evolution_ev 2 pauli_z (PI / 2) _ (C39_involution_lemma 2 pauli_z (PI / 2) sq_z)).
    rewrite <- (evolution_ev 2 mid (PI / 2) _ (C39_involution_lemma 2 mid (PI / 2) (id_square 2))).
    rewrite cos_PI2, sin_PI2. cases2; unfold mmul, pauli_z, mat22, mid, mscale; simpl; apply C_eq; simpl; ring.
  - now rewrite !mmul_mscale_l, !mmul_mscale_r, mmul_1_l, mmul_1_r.
Qed.

Lemma ev_z_pi : meq 2 (ev 2 pauli_z PI) (mscale (RtoC (-1)) mid).
Proof.
  rewrite <- (evolution_ev 2 pauli_z PI _ (C39_involution_lemma 2 pauli_z PI sq_z)).
  rewrite cos_PI, sin_PI. intros i j _ _. unfold mscale. ring.
Qed.

Lemma C103_always_lemma : exists Ms h t E, hamiltonian_of (2 ^ 1) Ms h /\ evolution (2 ^ 1) (total Ms) t E /\
  forall N, (1 <= N)%nat -> exists g, rng_ok g /\
    forall st, reachable 0 (r_world st) ->
    exists st' s p, qdrift_sequence 0 g h t (Z.of_nat N) st = (st', Ok s) /\ answers 0 (r_world st') s p /\
      overlap (2 ^ 1) E (u_mat p) = 0%R.
Proof.
  destruct ex_commuting_lemma as (h & H & _).
  set (Ms := [pauli_z; mid]) in *. set (E := ev (2 ^ 1) (total Ms) (PI / 2)).
  assert (HE : evolution (2 ^ 1) (total Ms) (PI / 2) E) by apply ev_evolution.
  exists Ms, h, (PI / 2)%R, E. split; [exact H|]. split; [exact HE|].
  intros N HN. exists (const_rng 0 0). assert (G : rng_ok (const_rng 0 0)) by (apply const_rng_ok; lra). split; [exact G|].
  intros st RE.
  assert (FC : Forall2 (operator_norm (2 ^ 1)) Ms [1; 1]%R).
  { constructor; [|constructor; [|constructor]].
    - apply (involution_norm 2); [lia|exact herm_z|exact sq_z].
    - apply (involution_norm 2); [lia|apply herm_id|apply id_square]. }
  destruct (qd_facts 1 Ms _ h (PI / 2) N E ltac:(lia) HN H FC HE) as (CN & CP & EC & _).
  destruct (qdrift_product (const_rng 0 0) 0 1 Ms _ h (PI / 2) N st G ltac:(lia) HN (PHamStoq.small_drift_0 _ _) H EC RE)
    as (st' & s & p & c & Es & An & Hc & Hp).
  exists st', s, p. split; [exact Es|]. split; [exact An|].
  rewrite (proj2 (PFamilies.drift_0 1 (2 * N))) in Hp.
  assert (NP : (0 < INR N)%R) by (apply lt_0_INR; lia).
  assert (EU : meq (2 ^ 1) (u_mat p) (mscale c (mscale (RtoC (-1)) mid))).
  { assert (Z := fro_0 _ _ (Rle_antisym _ _ Hp (fro_nonneg _ _))).
    match type of Z with meq _ (mminus _ ?B) _ => transitivity B end.
    { intros i j Hi Hj. assert (K := Z i j Hi Hj). unfold mminus, mzero in K. clear - K.
      match type of K with ?x - ?y = _ => replace x with (x - y + y) by ring; rewrite K; apply Cplus_0_l end. } apply mscale_proper.
    change (map (g_unif (const_rng 0 0)) (seq (r_draws st) N)) with (map (fun _ : nat => 0%R) (seq (r_draws st) N)).
    rewrite same_draws.
    replace (sel [1; 1]%R 0) with O.
    2:{ symmetry. apply sel_selected; auto. split; [simpl; lia|]. unfold weight_below. simpl. lra. }
    cbn [nth]. rewrite ev_scaled.
    replace (fold_right Rplus 0 [1; 1] * (PI / 2) / INR N / 1 * INR N)%R with PI by (simpl; field; lra).
    apply ev_z_pi. }
  unfold overlap.
  assert (T : mtrace (2 ^ 1) (mmul (2 ^ 1) (adj E) (u_mat p)) = 0).
  { rewrite (mtrace_proper _ _ (mmul (2 ^ 1) (adj (mscale (RtoC (-1)) pauli_z)) (mscale c (mscale (RtoC (-1)) mid)))).
    - unfold mtrace, mmul, adj, mscale, pauli_z, mat22, mid. simpl. apply C_eq; simpl; ring.
    - apply mmul_proper; [apply adj_meq; exact ev_zi|exact EU]. }
  rewrite T, Cmod_0. unfold Rdiv. ring.
Qed.
