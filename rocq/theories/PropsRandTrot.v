(** Trotter sequences with random orders of the terms: C106.

    [average_turned d r P X Y]: [Y] is the mean, over all answers of the random generator from its [r]-th question on,
    of what the operators [P g] make of the matrix [X] (SpecRandTrot.v). *)
From Coq Require Import Reals List Arith Bool String ZArith.
From Coquelicot Require Import Complex.
From Verif Require Import Base CMat Norms ModelUnitary ModelSequence ModelCompiler ModelGates ModelHamiltonian Spec SpecModel
  SpecCompiler SpecGates SpecHamiltonian SpecChannel SpecChain SpecRandTrot PCompCases PGatesEx PRandTrotRun PRandTrotEx.
Import ListNotations.
Open Scope R_scope.

(** C106: the product of a Trotter sequence with random orders is a function of the orders drawn; what it makes of any
    matrix X (a density matrix, for instance) is, in the mean over the orders, what the exact evolution makes of it, up to
    8/3 (sum of norms * time)^3 / N^2 times the size of X: the second order of a single sequence cancels. *)
Theorem C106_random_orders : forall n Ms cs h t N E, (1 <= n)%nat -> (1 <= N)%nat ->
  hamiltonian_of (2 ^ n) Ms h -> Forall2 (operator_norm (2 ^ n)) Ms cs -> evolution (2 ^ n) (total Ms) t E ->
  exists P : rng -> nat -> mat,
    (forall g eps st, rng_ok g -> small_drift eps n (2 * (N * List.length Ms)) -> reachable eps (r_world st) ->
       exists st' s p c, trotter_sequence eps g h t (Z.of_nat N) true st = (st', Ok s) /\
         answers eps (r_world st') s p /\ Cmod c = 1%R /\
         (fro (2 ^ n) (mminus (u_mat p) (mscale c (P g (r_draws st)))) <= drift_bound eps n (2 * (N * List.length Ms)))%R) /\
    (forall r X, exists Y, average_turned (2 ^ n) r (fun g => P g r) X Y /\
       (fro (2 ^ n) (mminus Y (turned (2 ^ n) E X))
          <= 8 / 3 * (fold_right Rplus 0 cs * Rabs t) ^ 3 / INR N ^ 2 * fro (2 ^ n) X)%R).
Proof. exact C106_lemma. Qed.
Print Assumptions C106_random_orders.

(** C106: the mean is unique. *)
Theorem C106_mean_is_determined : forall d r P X Y Y', average_turned d r P X Y -> average_turned d r P X Y' -> meq d Y Y'.
Proof. exact average_turned_unique. Qed.
Print Assumptions C106_mean_is_determined.

(** Pauli X and Z, time 1/4, ten steps at the threshold of the code: the mean is exact up to 1/300. *)
Example C106_case : exists g h E, rng_ok g /\ hamiltonian_of (2 ^ 1) [pauli_x; pauli_z] h /\ (1 <= 10)%nat /\
  small_drift eps_code 1 (2 * (10 * List.length [pauli_x; pauli_z])) /\
  Forall2 (operator_norm (2 ^ 1)) [pauli_x; pauli_z] [1; 1]%R /\ reachable eps_code (r_world start) /\
  evolution (2 ^ 1) (total [pauli_x; pauli_z]) (1 / 4) E /\
  (8 / 3 * (fold_right Rplus 0 [1; 1] * Rabs (1 / 4)) ^ 3 / INR 10 ^ 2 = 1 / 300)%R.
Proof. exact ex_C106_lemma. Qed.

(** C106: without random orders no bound of the third order holds, whatever its constant: with X and Z and short times, one
    step in the given order errs by more. *)
Theorem C106_fixed_order_refuted : exists h, hamiltonian_of (2 ^ 1) [pauli_x; pauli_z] h /\ Forall2 (operator_norm (2 ^ 1)) [pauli_x; pauli_z] [1; 1]%R /\
  forall K, exists t E, (0 < t)%R /\ evolution (2 ^ 1) (total [pauli_x; pauli_z]) t E /\
  forall g st, rng_ok g -> reachable 0 (r_world st) ->
  exists st' s p, trotter_sequence 0 g h t 1 false st = (st', Ok s) /\ answers 0 (r_world st') s p /\
    (K * (fold_right Rplus 0 [1; 1] * Rabs t) ^ 3 / INR 1 ^ 2 * fro (2 ^ 1) pauli_x
       < fro (2 ^ 1) (mminus (turned (2 ^ 1) (u_mat p) pauli_x) (turned (2 ^ 1) E pauli_x)))%R.
Proof. exact C106_fixed_lemma. Qed.
Print Assumptions C106_fixed_order_refuted.

