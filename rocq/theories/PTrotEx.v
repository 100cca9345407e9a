(** A case of C104. *)
From Coq Require Import Reals List Arith Bool String ZArith Lra Lia.
From Coquelicot Require Import Coquelicot.
From Verif Require Import Base CMat CMatFacts Norms Expm ExpmFacts ModelUnitary ModelSequence ModelCompiler ModelHamiltonian Spec SpecModel
  SpecCompiler SpecGates SpecHamiltonian SpecTrotter PCompCases PGates PGatesEx PHam PHamEx PTrotComm.
Import ListNotations.
Set Bullet Behavior "Strict Subproofs".
Open Scope R_scope.

Lemma commutators_xz : (commutators (2 ^ 1) [pauli_x; pauli_z] ^ 2 = 8)%R.
Proof.
  cbn [commutators fold_right]. rewrite Rplus_0_r, fro_sqr.
  unfold fro2, vnorm2. change (2 ^ 1)%nat with 2%nat. cbn [rsum]. rewrite !Cmod2.
  unfold commutator, mminus, mmul, pauli_x, pauli_z, mat22. simpl. ring.
Qed.

Lemma ex_C104_lemma : exists g h E, rng_ok g /\ hamiltonian_of (2 ^ 1) [pauli_x; pauli_z] h /\ (1 <= 10)%nat /\
  small_drift eps_code 1 (2 * (10 * List.length [pauli_x; pauli_z])) /\ reachable eps_code (r_world start) /\
  evolution (2 ^ 1) (total [pauli_x; pauli_z]) 1 E /\
  ((1 ^ 2 / (2 * INR 10) * commutators (2 ^ 1) [pauli_x; pauli_z]) ^ 2 / (2 * INR (2 ^ 1)) = 1 / 200)%R.
Proof.
  destruct ex_sequences_lemma as (g & h & G & H & _ & _ & S & _ & R).
  exists g, h, (ev (2 ^ 1) (total [pauli_x; pauli_z]) 1). split; [exact G|]. split; [exact H|]. split; [lia|].
  split; [exact S|]. split; [exact R|]. split; [apply ev_evolution|].
  rewrite Rpow_mult_distr, commutators_xz. simpl. field.
Qed.
