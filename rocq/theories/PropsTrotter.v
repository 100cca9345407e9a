(** The error of Trotter sequences in terms of the commutators of the terms: C104. *)
From Coq Require Import Reals List Arith Bool String ZArith.
From Coquelicot Require Import Complex.
From Verif Require Import Base CMat Norms ModelUnitary ModelSequence ModelCompiler ModelGates ModelHamiltonian Spec SpecModel
  SpecCompiler SpecGates SpecHamiltonian SpecTrotter PCompCases PGatesEx PTrotComm PTrotEx.
Import ListNotations.
Open Scope R_scope.

(** C104: whatever the order of the terms in each step, the product of a Trotter sequence differs from the exact
    evolution, up to a phase, by at most time^2/(2N) times the norms of the commutators of all pairs of terms, plus
    the drift of the clean-up; the infidelity is at most the drift plus that bound squared over twice the dimension. *)
Theorem C104_commutator_error : forall g eps n Ms h t N randomize st E, rng_ok g -> (1 <= n)%nat -> (1 <= N)%nat ->
  small_drift eps n (2 * (N * List.length Ms)) -> hamiltonian_of (2 ^ n) Ms h -> reachable eps (r_world st) ->
  evolution (2 ^ n) (total Ms) t E ->
  let delta := (t ^ 2 / (2 * INR N) * commutators (2 ^ n) Ms)%R in
  let drift := drift_bound eps n (2 * (N * List.length Ms)) in
  exists st' s v p x c, trotter_sequence eps g h t (Z.of_nat N) randomize st = (st', Ok s) /\
    time_evolution_operator eps h t = Ok v /\ answers eps (r_world st') s p /\
    u_distance_from eps p v = Ok x /\ (Rabs x <= drift + delta)%R /\
    Cmod c = 1%R /\ (fro (2 ^ n) (mminus (u_mat p) (mscale c E)) <= drift + delta)%R /\
    (1 - overlap (2 ^ n) E (u_mat p) <= drift + delta ^ 2 / (2 * INR (2 ^ n)))%R.
Proof. exact C104_lemma. Qed.
Print Assumptions C104_commutator_error.

(** C104: the bound is 0 exactly when the terms commute. *)
Theorem C104_zero_iff_commuting : forall d Ms, commutators d Ms = 0%R <-> commuting d Ms.
Proof. exact C104_zero_lemma. Qed.
Print Assumptions C104_zero_iff_commuting.

(** Pauli X and Z with the time 1 and 10 steps: the infidelity is at most 1/200 plus the drift. *)
Example C104_case : exists g h E, rng_ok g /\ hamiltonian_of (2 ^ 1) [pauli_x; pauli_z] h /\ (1 <= 10)%nat /\
  small_drift eps_code 1 (2 * (10 * List.length [pauli_x; pauli_z])) /\ reachable eps_code (r_world start) /\
  evolution (2 ^ 1) (total [pauli_x; pauli_z]) 1 E /\
  ((1 ^ 2 / (2 * INR 10) * commutators (2 ^ 1) [pauli_x; pauli_z]) ^ 2 / (2 * INR (2 ^ 1)) = 1 / 200)%R.
Proof. exact ex_C104_lemma. Qed.

