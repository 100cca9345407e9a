(** QDRIFT sequences are close to the exact evolution with a chance that tends to 1: C103. *)
From Coq Require Import Reals List Arith Bool String ZArith.
From Coquelicot Require Import Complex.
From Verif Require Import Base CMat Norms ModelUnitary ModelSequence ModelCompiler ModelGates ModelHamiltonian Spec SpecModel
  SpecCompiler SpecGates SpecHamiltonian SpecChannel SpecChain SpecFloor PCompCases PGatesEx PQdTail PQdEx.
Import ListNotations.
Open Scope R_scope.

(** C103: the product of a QDRIFT sequence is, up to a phase and the clean-up, a matrix that depends on
    the draws only, and its mean distance (1 - overlap) from the exact evolution exists and is at most
    (sum of the norms times the time) squared over the number of steps. *)
Theorem C103_mean : forall n Ms cs h t N E, (1 <= n)%nat -> (1 <= N)%nat ->
  hamiltonian_of (2 ^ n) Ms h -> Forall2 (operator_norm (2 ^ n)) Ms cs -> evolution (2 ^ n) (total Ms) t E ->
  exists P : list R -> mat,
    (forall g eps st, rng_ok g -> small_drift eps n (2 * N) -> reachable eps (r_world st) ->
       exists st' s p c, qdrift_sequence eps g h t (Z.of_nat N) st = (st', Ok s) /\
         answers eps (r_world st') s p /\ Cmod c = 1%R /\
         (fro (2 ^ n) (mminus (u_mat p) (mscale c (P (map (g_unif g) (seq (r_draws st) N)))))
            <= drift_bound eps n (2 * N))%R) /\
    exists m, mean N (fun xs => (1 - overlap (2 ^ n) E (P xs))%R) m /\
      (0 <= m <= (fold_right Rplus 0 cs * t) ^ 2 / INR N)%R.
Proof. exact C103_mean_lemma. Qed.
Print Assumptions C103_mean.

(** C103: so a single sequence is within [delta] of the exact evolution with the chance given. *)
Theorem C103_chance : forall n Ms cs h t N E eps st delta, (1 <= n)%nat -> (1 <= N)%nat ->
  hamiltonian_of (2 ^ n) Ms h -> Forall2 (operator_norm (2 ^ n)) Ms cs -> evolution (2 ^ n) (total Ms) t E ->
  small_drift eps n (2 * N) -> reachable eps (r_world st) -> (0 < delta)%R ->
  chance_at_least (r_draws st)
    (fun g => exists st' s p, qdrift_sequence eps g h t (Z.of_nat N) st = (st', Ok s) /\ answers eps (r_world st') s p /\
       (1 - overlap (2 ^ n) E (u_mat p) <= delta + drift_bound eps n (2 * N))%R)
    (1 - (fold_right Rplus 0 cs * t) ^ 2 / (INR N * delta))%R.
Proof. exact C103_chance_lemma. Qed.
Print Assumptions C103_chance.

(** C103: without clean-up the chance tends to 1 as the number of steps grows, for every [delta]. *)
Theorem C103_limit : forall n Ms h t E delta q, (1 <= n)%nat ->
  hamiltonian_of (2 ^ n) Ms h -> evolution (2 ^ n) (total Ms) t E -> (0 < delta)%R -> (q < 1)%R ->
  exists N0, forall N st, (N0 <= N)%nat -> reachable 0 (r_world st) ->
  chance_at_least (r_draws st)
    (fun g => exists st' s p, qdrift_sequence 0 g h t (Z.of_nat N) st = (st', Ok s) /\ answers 0 (r_world st') s p /\
       (1 - overlap (2 ^ n) E (u_mat p) <= delta)%R) q.
Proof. exact C103_limit_lemma. Qed.
Print Assumptions C103_limit.

(** Pauli X and Z with the time 1 and 20 steps: within 1/2 with chance at least 3/5. *)
Example C103_case : exists h E, hamiltonian_of (2 ^ 1) [pauli_x; pauli_z] h /\
  Forall2 (operator_norm (2 ^ 1)) [pauli_x; pauli_z] [1; 1]%R /\ evolution (2 ^ 1) (total [pauli_x; pauli_z]) 1 E /\
  small_drift eps_code 1 (2 * 20) /\ reachable eps_code (r_world start) /\
  (1 - (fold_right Rplus 0 [1; 1] * 1) ^ 2 / (INR 20 * (1 / 2)) = 3 / 5)%R.
Proof. exact ex_C103_lemma. Qed.

(** C103: no number of steps is enough for every run: with Z and the identity there are draws for which
    the sequence is as far from the exact evolution as can be. *)
Theorem C103_always_refuted : exists Ms h t E, hamiltonian_of (2 ^ 1) Ms h /\ evolution (2 ^ 1) (total Ms) t E /\
  forall N, (1 <= N)%nat -> exists g, rng_ok g /\
    forall st, reachable 0 (r_world st) ->
    exists st' s p, qdrift_sequence 0 g h t (Z.of_nat N) st = (st', Ok s) /\ answers 0 (r_world st') s p /\
      overlap (2 ^ 1) E (u_mat p) = 0%R.
Proof. exact C103_always_lemma. Qed.
Print Assumptions C103_always_refuted.

