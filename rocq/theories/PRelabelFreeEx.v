(** A concrete case for primitives whose qubits are not listed: C115. *)
From Coq Require Import Reals List Arith Lia Lra Bool String ZArith Permutation.
From Coquelicot Require Import Complex.
From Verif Require Import Base CMat CMatFacts ModelUnitary ModelEntry ModelPrimitive ModelSequence ModelCompiler ModelRound
  Spec SpecModel SpecCompiler SpecRepro SpecRelabel PUnitary PSeqCases PCompCases PCompEx PReproEx PReachEx PRelabelEx PRelabelNone PRelabelFree.
Import ListNotations.
Open Scope R_scope.

(** The generator of constant answers, which draws two qubits in the order 1, 0. *)
Definition turned_rng : rng :=
  {| g_unif := fun _ => 0; g_int := fun _ n => Nat.min 0 (n - 1);
     g_perm := fun _ n => if Nat.eqb n 2 then [1%nat; 0%nat] else seq 0 n |}.
Lemma turned_rng_ok : rng_ok turned_rng.
Proof.
  split; [intros; cbn; lra|]. split; [intros k n Hn; cbn; lia|]. intros k n. cbn. destruct (Nat.eqb_spec n 2) as [->|_]; [apply perm_swap|apply Permutation_refl].
Qed.

Lemma ex_C115_unlisted_lemma : exists g1 g2 u c d t t2 st1 st2 st1' st2' c' d' s1 s2 costs,
  rng_ok g1 /\ rng_ok g2 /\ renumbered_answers 2 exchange g1 (r_draws st1) g2 (r_draws st2) /\
  reachable 0 (r_world st1) /\ reachable 0 (r_world st2) /\
  relabelling 2 exchange /\ relabelled_unitary 2 exchange t t2 /\ ~ meq 4 (u_mat t2) (u_mat t) /\
  map p_allowed (c_prims c) = [None] /\ renumbered_compiler 2 exchange c d /\ c_dim c = (2 ^ 2)%nat /\
  compile g1 0 t (Some 2%R) 1 (st1, c) = ((st1', c'), Ok (s1, costs)) /\
  compile g2 0 t2 (Some 2%R) 1 (st2, d) = ((st2', d'), Ok (s2, costs)) /\
  contents (r_world st1') s1 = [(u, [0%nat])] /\ contents (r_world st2') s2 = [(u, [1%nat])].
Proof.
  destruct (rot345_built 0 ltac:(lra)) as (u & B & D & _). destruct two_targets as (t & t2 & _ & _ & _ & _ & _ & Bt & Dt & RT & NT).
  destruct (free_run u t B D Bt Dt) as (st1 & c1 & s1 & k1 & R1 & C1).
  assert (HR : reachable 0 (r_world start)) by now exists [].
  assert (G : rng_ok (const_rng 0 0)) by (apply const_rng_ok; lra).
  assert (RA : renumbered_answers 2 exchange (const_rng 0 0) (r_draws start) turned_rng (r_draws start)) by (intros k; cbn; auto).
  assert (RC : renumbered_compiler 2 exchange (free_compiler u) (free_compiler u)).
  { split; [|reflexivity]. apply List.Forall2_cons; [split; reflexivity|apply List.Forall2_nil]. }
  assert (X := compile_free (const_rng 0 0) turned_rng 0 2 exchange t t2 (Some 2%R) 1 _ _ start start ltac:(lia) exchange_ok RT G RA HR HR RC eq_refl).
  rewrite R1 in X. destruct (compile turned_rng 0 t2 (Some 2%R) 1 (start, free_compiler u)) as [[st2 d'] [[s2 costs2]|e]] eqn:F;
    unfold relabelled_compilation in X; cbn [fst snd] in X; [|contradiction].
  destruct X as (<- & _ & _ & HC). rewrite C1 in HC.
  exists (const_rng 0 0), turned_rng, u, (free_compiler u), (free_compiler u), t, t2, start, start, st1, st2, c1, d', s1, s2, k1.
  split; [exact G|]. split; [exact turned_rng_ok|]. split; [exact RA|]. split; [exact HR|]. split; [exact HR|]. split; [exact exchange_ok|].
  split; [exact RT|]. split; [exact NT|]. split; [reflexivity|]. split; [exact RC|]. split; [reflexivity|]. split; [exact R1|]. auto.
Qed.
