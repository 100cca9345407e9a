(** compile_rav_sequence() of a Hamiltonian ends and can succeed: C101.

    [rav_time g T r j] is the signed time of step [j] of the random part when the call starts
    with the [r]-th draw, [rav_elapsed g T r k] the sum of the absolute values in the first
    [k] steps (SpecHamiltonian.v).  [average] and [chance_at_least] are in SpecChain.v and
    SpecFloor.v.  [fuel] bounds the rounds of the loop that are looked at; when it does not
    suffice the model gives [Raise OutOfFuel], which is not a result. *)
From Coq Require Import Reals List Arith Bool ZArith String.
From Coquelicot Require Import Complex.
From Verif Require Import Base CMat ModelUnitary ModelPrimitive ModelGates ModelHamiltonian ModelSequence ModelCompiler
  Spec SpecModel SpecCompiler SpecGates SpecHamiltonian SpecChain SpecFloor PSeqNear PSeqCases PRavTime PRavHit.
Import ListNotations.
Open Scope R_scope.

(** C101: the mean time spent in [k] steps is k T / 2. *)
Theorem C101_elapsed_mean : forall T k r, 0 <= T -> average r (fun g => rav_elapsed g T r k) [] (INR k * T / 2).
Proof. exact C101_elapsed_mean_lemma. Qed.
Print Assumptions C101_elapsed_mean.

(** C101: the mean net time of [k] steps is 0.3 k T: the random part is "mostly forward in time". *)
Theorem C101_forward_mean : forall T k r, 0 <= T ->
  average r (fun g => fold_right Rplus 0 (map (rav_time g T r) (seq 0 k))) [] (3 / 10 * (INR k * T)).
Proof. exact C101_forward_mean_lemma. Qed.
Print Assumptions C101_forward_mean.

(** C101: the loop needs at most [k] rounds, and then the call returns a sequence with a random part
    of at most [k] gates, with a chance of at least 1 - k T^2/12 / (k T/2 - time)^2. *)
Theorem C101_returns : forall n Ms h time T thr simultaneous fuel k st,
  (1 <= n)%nat -> hamiltonian_of (2 ^ n) Ms h -> exact_world (r_world st) -> 0 < T -> (k <= fuel)%nat -> time < INR k * (T / 2) ->
  chance_at_least (r_draws st) (fun g => exists st' s costs ls rand comp,
      compile_rav_sequence 0 g fuel h time T thr simultaneous st = (st', Ok (s, costs)) /\
      contents (r_world st') s = rand ++ comp /\ term_subsets (List.length Ms) simultaneous ls /\
      Forall2 (fun j gt => subset_gate 0 n Ms (rav_subset g ls (r_draws st) j) (rav_time g T (r_draws st) j) gt) (seq 0 (List.length rand)) rand /\
      List.Forall (stoq_gate 0 n Ms T simultaneous) comp /\ time <= INR (List.length rand) * T /\ (List.length rand <= k)%nat)
    (1 - INR k * (T * T / 12) / ((INR k * (T / 2) - time) * (INR k * (T / 2) - time))).
Proof. exact C101_returns_lemma. Qed.
Print Assumptions C101_returns.

(** C101: so the call returns with a chance as close to 1 as desired when enough rounds are allowed. *)
Theorem C101_limit : forall n Ms h time T thr simultaneous delta,
  (1 <= n)%nat -> hamiltonian_of (2 ^ n) Ms h -> 0 < T -> 0 < delta -> exists N, forall fuel st, (N <= fuel)%nat -> exact_world (r_world st) ->
  chance_at_least (r_draws st) (fun g => exists st' s costs, compile_rav_sequence 0 g fuel h time T thr simultaneous st = (st', Ok (s, costs))) (1 - delta).
Proof. exact C101_limit_lemma. Qed.
Print Assumptions C101_limit.

(** X + Z for the time 1 with steps of at most 1/10: a hundred rounds suffice with a chance of 0.99. *)
Example C101_case : exists h st, hamiltonian_of (2 ^ 1) [pauli_x; pauli_z] h /\ exact_world (r_world st) /\
  1 < INR (10 * 10) * (1 / 10 / 2) /\
  99 / 100 <= 1 - INR (10 * 10) * (1 / 10 * (1 / 10) / 12) / ((INR (10 * 10) * (1 / 10 / 2) - 1) * (INR (10 * 10) * (1 / 10 / 2) - 1)).
Proof. exact ex_C101_lemma. Qed.

(** C101: it does not always return: if all draws are 0 it never does. *)
Theorem C101_always_refuted : forall n Ms h time T thr simultaneous st,
  (1 <= n)%nat -> hamiltonian_of (2 ^ n) Ms h -> exact_world (r_world st) -> 0 <= T -> 0 < time ->
  exists g, rng_ok g /\ forall fuel, exists st', compile_rav_sequence 0 g fuel h time T thr simultaneous st = (st', Raise OutOfFuel).
Proof. exact C101_always_refuted_lemma. Qed.
Print Assumptions C101_always_refuted.

(** C101: the net time of [k] steps is at least [x] with a chance of at least
    1 - (73/300) k T^2 / (0.3 k T - x)^2. *)
Theorem C101_forward : forall T k r x, 0 <= T -> x < 3 / 10 * (INR k * T) ->
  chance_at_least r (fun g => x <= fold_right Rplus 0 (map (rav_time g T r) (seq 0 k)))
    (1 - INR k * (73 / 300 * (T * T)) / ((3 / 10 * (INR k * T) - x) * (3 / 10 * (INR k * T) - x))).
Proof. exact C101_forward_lemma. Qed.
Print Assumptions C101_forward.

(** C101: for every time and every threshold below 1 there is a positive chance that the sequence
    returned is within the threshold of the identity, though STOQ makes at most 10000 steps. *)
Theorem C101_possible : forall n Ms h time T thr simultaneous, (1 <= n)%nat -> hamiltonian_of (2 ^ n) Ms h -> 0 < T -> thr < 1 ->
  exists fuel0 rho, 0 < rho <= 1 /\ forall fuel st, (fuel0 <= fuel)%nat -> exact_world (r_world st) ->
  chance_at_least (r_draws st) (fun g => exists st' s costs, compile_rav_sequence 0 g fuel h time T thr simultaneous st = (st', Ok (s, costs)) /\
    thr <= overlap (2 ^ n) mid (ordered n (contents (r_world st') s))) rho.
Proof. exact C101_possible_lemma. Qed.
Print Assumptions C101_possible.

