(** Without listed qubits a run is not renumbered: the limit of C115. *)
From Coq Require Import Reals List Arith Lia Lra Bool String ZArith.
From Coquelicot Require Import Complex.
From Verif Require Import Base CMat CMatFacts Det DetFacts ModelUnitary ModelEntry ModelPrimitive ModelSequence ModelCompiler ModelRound
  Spec SpecModel SpecCompiler SpecAgree SpecRepro SpecTurn SpecRelabel PUnitary PUnitaryProps PEmbed PEntry PSeqHeap PSeqMeth PSeqNear PSeqWorld
  PSeqUndo PSeqInv PSeqHist PSeqProps PSeqCases PCompView PCompRun PCompEntry PCompLoop PCompTrace PCompTotal PCompProps PCompMore
  PCompCases PSeqEx PCompEx PLongRun PReproEx PReachEx PTurn PTurn2 PRelabel PRelabel2 PRelabelEx.
Import ListNotations.
Open Scope R_scope.

Definition free_compiler (u : unitary) : compiler :=
  {| c_dim := 4; c_array := false; c_prims := [rot_primitive u]; c_probs := None; c_max_beta := ((2 ^ 4) ^ 2)%R; c_beta := 0; c_rate := 1;
     c_append := (1 / 2)%R |}.

(** The random choice gives qubit 0, whatever the target is. *)
Lemma free_run u t : built 0 u -> u_dim u = 2%nat -> built 0 t -> u_dim t = 4%nat ->
  exists st' c' s costs, compile (const_rng 0 0) 0 t (Some 2%R) 1 (start, free_compiler u) = ((st', c'), Ok (s, costs)) /\
    contents (r_world st') s = [(u, [0%nat])].
Proof.
  intros B D Bt Dt. set (g := const_rng 0 0). assert (G : rng_ok g) by (apply const_rng_ok; lra).
  set (c := free_compiler u).
  assert (GC : good_compiler 0 2 c).
  { split; [reflexivity|]. split; [simpl; lra|]. split; [intros p [<-|[]]; now apply rot_good2|].
    exists (rot_primitive u). split; [now left|discriminate]. }
  destruct (C28_lemma g start c t (Some 2%R) 1 2 G empty_exact GC (or_introl eq_refl) Bt Dt) as (st' & c' & s & costs & E).
  exists st', c', s, costs. split; [exact E|]. rewrite compile_eq in E by (simpl; auto; discriminate).
  assert (HS : Forall (safe_primitive 0 (safe_gate 0 true)) (c_prims c)).
  { constructor; [|constructor]. intros v X. cbn in X. subst v. now apply safe_built0. }
  apply (one_step g _ _ c 1 t start st' c' s costs 2 (fun cs => cs = [(u, [0%nat])]) G (fun _ => eq_refl)
      (change_single g 0 G c)); auto.
  - intros s0. apply single_traced; auto.
  - exact empty_exact.
  - eapply built_wf; eauto.
  - intros st0 st0' b s0 pv pv' cs' S Ech S'.
    unfold make_random_change in Ech.
    apply bind_ok in Ech. destruct Ech as (cc & stc & H0 & Ech). unfold c_self in H0. injection H0 as <- <-.
    cbn [snd] in Ech. apply bind_ok in Ech. destruct Ech as (a & [st1 c1] & H1 & Ech).
    apply c_run_inv in H1. destruct H1 as [H1 ->].
    rewrite choose_action_at in H1 by (auto; simpl; lra). rewrite action_zero in H1 by (simpl; lra).
    injection H1 as E1 <-.
    apply bind_ok in Ech. destruct Ech as (l & [st2 c2] & H2 & Ech). apply c_run_inv in H2. destruct H2 as [H2 ->].
    apply bind_ok in Ech. destruct Ech as (v & [st3 c3] & H3 & Ech). apply c_run_inv in H3. destruct H3 as [H3 ->].
    apply ret_ok in Ech. destruct Ech as [Ech _]. injection Ech as ->.
    apply call_ok in H3. destruct H3 as [H3 _].
    assert (S1 : sees 0 (r_world st1) s0 (c_dim c) [] pv) by now rewrite <- E1.
    unfold create_random_sequence_entry in H2.
    apply bind_ok in H2. destruct H2 as (i & st4 & H4 & H2). unfold choice_unif in H4. cbn in H4. injection H4 as E4 <-.
    cbn [nth_error filter usable rot_primitive p_allowed c_prims set_beta c free_compiler p_source] in H2.
    apply bind_ok in H2. destruct H2 as (v1 & st5 & H5 & H2). apply ret_ok in H5. destruct H5 as [-> ->].
    apply bind_ok in H2. destruct H2 as (qs & st6 & H6 & H2).
    rewrite D in H6. unfold choice_distinct in H6. cbn in H6. injection H6 as E7 <-. cbn [map] in H2.
    apply call_entry_ok in H2. destruct H2 as [H2 _].
    destruct (new_entry_view 0 _ _ _ _ _ H2) as (l' & El & HG & _). injection El as <-.
    assert (S2 : sees 0 (r_world st2) s0 (c_dim c) [] pv).
    { replace (r_world st2) with (fst (step 0 (NewEntry u [Z.of_nat 0]) (r_world st6))) by now rewrite H2.
      apply sees_other; auto. rewrite <- E7. cbn [r_world]. rewrite <- E4. exact S1. }
    destruct (append_first_view 0 _ _ _ _ _ _ _ _ _ _ S2 HG H3) as (S3 & _).
    apply sees_contents in S3. apply sees_contents in S'. rewrite <- S', S3. reflexivity.
Qed.

Lemma unlisted_lemma : exists g t1 t2 c st, rng_ok g /\ reachable 0 (r_world st) /\ relabelling 2 exchange /\
  relabelled_unitary 2 exchange t1 t2 /\ (forall p, In p (c_prims c) -> p_allowed p = None) /\ c_dim c = (2 ^ 2)%nat /\
  ~ relabelled_compilation exchange (r_draws st) (r_draws st) (compile g 0 t1 (Some 2%R) 1 (st, c)) (compile g 0 t2 (Some 2%R) 1 (st, c)).
Proof.
  destruct (rot345_built 0 ltac:(lra)) as (u & B & D & _).
  destruct two_targets as (t & t2 & _ & _ & _ & _ & E2 & Bt & Dt & RT & NT).
  assert (B2 : built 0 t2).
  { exists 4%nat, (embed 2 [1%nat] rot345), None, [], false, []. split; [|split; [apply eps_clean_0|exact E2]].
    apply (embed_unitary 2 [1%nat] (placement_one 1 ltac:(lia))). apply rot345_unitary. }
  destruct (free_run u t B D Bt Dt) as (st1 & c1 & s1 & k1 & R1 & C1).
  destruct (free_run u t2 B D B2 (proj1 (proj2 RT))) as (st2 & c2 & s2 & k2 & R2 & C2).
  exists (const_rng 0 0), t, t2, (free_compiler u), start. split; [apply const_rng_ok; lra|]. split; [now exists []|].
  split; [exact exchange_ok|]. split; [exact RT|]. split; [intros p [<-|[]]; reflexivity|]. split; [reflexivity|].
  rewrite R1, R2. unfold relabelled_compilation. cbn [fst snd]. intros (_ & _ & _ & X). rewrite C1, C2 in X. discriminate.
Qed.
