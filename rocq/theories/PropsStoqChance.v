(** The chance that STOQ compilation succeeds: C99.

    [hamiltonian_of d Ms h] says that [h] is the Hamiltonian object with the terms [Ms], and
    [stoq_gate 0 n Ms T b g] that [g] is the evolution of a subset of the terms ([b] = false:
    of one term) for a time between [-T] and [T] (SpecHamiltonian.v).  [chance_at_least]
    is defined in SpecFloor.v, [cost_of] and [compiled] in SpecChain.v.
    compile_stoq_sequence() makes at most 10000 steps (hamiltonian/hamiltonian.py:238), so
    the theorems about it say that the chance is positive when a sequence that is short
    enough exists. *)
From Coq Require Import Reals List Arith Bool ZArith String.
From Coquelicot Require Import Complex.
From Verif Require Import Base CMat ModelUnitary ModelPrimitive ModelGates ModelHamiltonian ModelSequence ModelCompiler
  Spec SpecModel SpecCompiler SpecGates SpecHamiltonian SpecChain SpecFloor PSeqNear PSeqCases PFloorTrot PFloorTrotEx.
Import ListNotations.
Open Scope R_scope.

(** C99: the compiler that STOQ makes for any Hamiltonian finds the evolution for any time, with
    and without simultaneous terms, within every tolerance and for every longest time of a
    gate, with a chance as close to 1 as desired, when it is given enough steps. *)
Theorem C99_limit : forall n Ms h t T thr simultaneous delta, (1 <= n)%nat -> hamiltonian_of (2 ^ n) Ms h -> 0 < T -> thr < 1 -> 0 < delta ->
  exists ps c target N, stoq_primitives 0 h T simultaneous = Ok ps /\ mk_compiler (h_dim h) false ps None (1 / 2) (1 / 10) = Ok c /\
    time_evolution_operator 0 h t = Ok target /\
    forall st max, exact_world (r_world st) -> (N <= max)%Z ->
    chance_at_least (r_draws st) (fun g => exists gs costs, compiled st c target (Some thr) max g = Some (gs, costs) /\
      cost_of n target gs <= 1 - thr) (1 - delta).
Proof. exact C99_limit_lemma. Qed.
Print Assumptions C99_limit.

(** C99: compile_stoq_sequence() itself has a positive chance to come within the threshold, if [N]
    rounds of all terms come that close, take no longer than [T] for a gate and have
    10000 gates or fewer. *)
Theorem C99_trotter : forall n Ms h t T thr simultaneous N, (1 <= n)%nat -> hamiltonian_of (2 ^ n) Ms h -> 0 <= T -> thr <= 1 -> (1 <= N)%nat ->
  Rabs t <= INR N * T -> trotter_bound (total_size (2 ^ n) Ms t) N < sqrt (INR (2 ^ n)) * (1 - thr) -> (Z.of_nat (N * List.length Ms) <= 10000)%Z ->
  exists target rho, time_evolution_operator 0 h t = Ok target /\ 0 < rho <= 1 /\ forall st, exact_world (r_world st) ->
    chance_at_least (r_draws st) (fun g => exists st' s costs, compile_stoq_sequence 0 g h t T thr simultaneous st = (st', Ok (s, costs)) /\
      cost_of n target (contents (r_world st') s) <= 1 - thr) rho.
Proof. exact C99_trotter_lemma. Qed.
Print Assumptions C99_trotter.

(** X + Z for the time 1 with gates of 1/10 and threshold 0.95, by 1000 rounds; the Hamiltonian
    and the state also meet the hypotheses of [C99_limit] and [C99_simultaneous]. *)
Example C99_trotter_case : exists h st, hamiltonian_of (2 ^ 1) [pauli_x; pauli_z] h /\ exact_world (r_world st) /\
  Rabs 1 <= INR (Z.to_nat 1000) * (1 / 10) /\
  trotter_bound (total_size (2 ^ 1) [pauli_x; pauli_z] 1) (Z.to_nat 1000) < sqrt (INR (2 ^ 1)) * (1 - 95 / 100) /\
  (Z.of_nat (Z.to_nat 1000 * List.length [pauli_x; pauli_z]) <= 10000)%Z.
Proof. exact ex_C99_trotter_lemma. Qed.

(** C99: if the terms commute any [N] rounds will do, and any threshold below 1. *)
Theorem C99_commuting : forall n Ms h t T thr simultaneous N, (1 <= n)%nat -> hamiltonian_of (2 ^ n) Ms h -> 0 <= T -> thr < 1 -> (1 <= N)%nat ->
  Rabs t <= INR N * T -> commuting (2 ^ n) Ms -> (Z.of_nat (N * List.length Ms) <= 10000)%Z ->
  exists target rho, time_evolution_operator 0 h t = Ok target /\ 0 < rho <= 1 /\ forall st, exact_world (r_world st) ->
    chance_at_least (r_draws st) (fun g => exists st' s costs, compile_stoq_sequence 0 g h t T thr simultaneous st = (st', Ok (s, costs)) /\
      cost_of n target (contents (r_world st') s) <= 1 - thr) rho.
Proof. exact C99_commuting_lemma. Qed.
Print Assumptions C99_commuting.

(** Z + I for the time 1 with ten rounds of 1/10. *)
Example C99_commuting_case : exists h st, hamiltonian_of (2 ^ 1) [pauli_z; mid] h /\ commuting (2 ^ 1) [pauli_z; mid] /\ exact_world (r_world st) /\
  Rabs 1 <= INR 10 * (1 / 10) /\ (Z.of_nat (10 * List.length [pauli_z; mid]) <= 10000)%Z.
Proof. exact ex_C99_commuting_lemma. Qed.

(** C99: with simultaneous terms the time must not be longer than 10000 gates can take, and any
    threshold below 1 will do. *)
Theorem C99_simultaneous : forall n Ms h t T thr N, (1 <= n)%nat -> hamiltonian_of (2 ^ n) Ms h -> 0 <= T -> thr < 1 -> (1 <= N)%nat ->
  Rabs t <= INR N * T -> (Z.of_nat N <= 10000)%Z ->
  exists target rho, time_evolution_operator 0 h t = Ok target /\ 0 < rho <= 1 /\ forall st, exact_world (r_world st) ->
    chance_at_least (r_draws st) (fun g => exists st' s costs, compile_stoq_sequence 0 g h t T thr true st = (st', Ok (s, costs)) /\
      cost_of n target (contents (r_world st') s) <= 1 - thr) rho.
Proof. exact C99_simultaneous_lemma. Qed.
Print Assumptions C99_simultaneous.

(** C99: without that condition it is not so: Z for the time pi/2 with gates of at most 1/100000 is
    never found within the threshold 1/2, whatever the random numbers are. *)
Theorem C99_time_refuted : exists h t T thr st, hamiltonian_of (2 ^ 1) [pauli_z] h /\ 0 < T /\ thr < 1 /\ exact_world (r_world st) /\
  forall g simultaneous st' s costs target, rng_ok g -> time_evolution_operator 0 h t = Ok target ->
    compile_stoq_sequence 0 g h t T thr simultaneous st = (st', Ok (s, costs)) -> 1 - thr < cost_of 1 target (contents (r_world st') s).
Proof. exact C99_time_refuted_lemma. Qed.
Print Assumptions C99_time_refuted.

(** C99: for any target, as in the second half of compile_rav_sequence(): a positive chance if some
    sequence of 10000 gates or fewer comes within the threshold. *)
Theorem C99_word : forall n Ms h T thr simultaneous target gts, (1 <= n)%nat -> hamiltonian_of (2 ^ n) Ms h -> 0 <= T -> thr <= 1 ->
  built 0 target -> u_dim target = (2 ^ n)%nat -> List.Forall (stoq_gate 0 n Ms T simultaneous) gts -> cost_of n target gts < 1 - thr ->
  (Z.of_nat (List.length gts) <= 10000)%Z -> exists rho, 0 < rho <= 1 /\ forall st, exact_world (r_world st) ->
    chance_at_least (r_draws st) (fun g => exists st' s costs, compile_stoq_for 0 g h target T thr simultaneous st = (st', Ok (s, costs)) /\
      cost_of n target (contents (r_world st') s) <= 1 - thr) rho.
Proof. exact C99_word_lemma. Qed.
Print Assumptions C99_word.

(** The evolution of Z for pi/2 and its inverse; neither is close to the empty sequence. *)
Example C99_word_case : exists h st target target' gts, hamiltonian_of (2 ^ 1) [pauli_z] h /\ exact_world (r_world st) /\
  built 0 target /\ u_dim target = (2 ^ 1)%nat /\ built 0 target' /\ u_dim target' = (2 ^ 1)%nat /\
  List.Forall (stoq_gate 0 1 [pauli_z] 2 false) gts /\ List.length gts = 1%nat /\ cost_of 1 target gts < 1 - 95 / 100 /\
  phase_eq (2 ^ 1) (u_mat target') (adj (ordered 1 gts)) /\ 1 - 95 / 100 < cost_of 1 target [] /\ 1 - 95 / 100 < cost_of 1 target' [].
Proof. exact ex_C99_word_lemma. Qed.

(** C99: the target of compile_rav_sequence(), the inverse of a sequence of such gates, is found
    within any threshold below 1 with a positive chance, if it has 10000 gates or fewer. *)
Theorem C99_inverse : forall n Ms h T thr simultaneous target gts, (1 <= n)%nat -> hamiltonian_of (2 ^ n) Ms h -> 0 <= T -> thr < 1 ->
  built 0 target -> u_dim target = (2 ^ n)%nat -> List.Forall (stoq_gate 0 n Ms T simultaneous) gts ->
  phase_eq (2 ^ n) (u_mat target) (adj (ordered n gts)) ->
  (Z.of_nat (List.length gts) <= 10000)%Z -> exists rho, 0 < rho <= 1 /\ forall st, exact_world (r_world st) ->
    chance_at_least (r_draws st) (fun g => exists st' s costs, compile_stoq_for 0 g h target T thr simultaneous st = (st', Ok (s, costs)) /\
      cost_of n target (contents (r_world st') s) <= 1 - thr) rho.
Proof. exact C99_inverse_lemma. Qed.
Print Assumptions C99_inverse.

