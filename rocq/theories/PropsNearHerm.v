(** Terms that are Hermitian only within the tolerance have an evolution for short times: C112, the positive side of C62.

    [nearly_hermitian]: numpy's closeness of a matrix to its adjoint.  [hermitian_part A] is (A + A^dagger) / 2,
    [accepted_as d Ms h]: the constructors took the matrices [Ms] as the terms of [h] (SpecNearHerm.v). *)
From Coq Require Import Reals List Arith Bool String.
From Coquelicot Require Import Complex.
From Verif Require Import Base CMat Norms Expm ModelUnitary ModelHamiltonian Spec SpecModel SpecHamiltonian SpecNearHerm
  PNearHerm PNearHermEx.
Import ListNotations.
Open Scope R_scope.
Open Scope C_scope.

(** C112: accepted terms whose sum is close to its adjoint have a time evolution as long as exp(delta t / 2) - 1, with delta the
    Frobenius norm of the difference, stays (with the clean-up) below the tolerance of the constructor; the result is then
    the evolution under the Hermitian part, up to a phase and a bound. *)
Theorem C112_sum : forall eps d Ms h t delta E, (0 <= eps)%R -> accepted_as d Ms h ->
  nearly_hermitian d (total Ms) -> (fro d (mminus (total Ms) (adj (total Ms))) <= delta)%R ->
  evolution d (hermitian_part (total Ms)) t E ->
  let e := (exp (delta * Rabs t / 2) - 1 + sqrt 2 * INR d * eps)%R in
  (e <= 45 / 10 ^ 10)%R -> (INR d * e <= / 200)%R ->
  exists u c, time_evolution_operator eps h t = Ok u /\ u_dim u = d /\ Cmod c = 1%R /\
    (fro d (mminus (u_mat u) (mscale c E)) <= 22 / 10 * sqrt (INR d) * e)%R.
Proof. exact accepted_evolution. Qed.
Print Assumptions C112_sum.

(** C112: one accepted term needs no further check. *)
Theorem C112_term : forall eps d M tm h t delta E, (0 <= eps)%R -> mk_term (square d M) = Ok tm -> mk_hamiltonian [tm] = Ok h ->
  (fro d (mminus M (adj M)) <= delta)%R -> evolution d (hermitian_part M) t E ->
  let e := (exp (delta * Rabs t / 2) - 1 + sqrt 2 * INR d * eps)%R in
  (e <= 45 / 10 ^ 10)%R -> (INR d * e <= / 200)%R ->
  exists u c, time_evolution_operator eps h t = Ok u /\ u_dim u = d /\ Cmod c = 1%R /\
    (fro d (mminus (u_mat u) (mscale c E)) <= 22 / 10 * sqrt (INR d) * e)%R.
Proof. exact accepted_term. Qed.
Print Assumptions C112_term.

(** C112: how long an accepted term can be evolved for certain, in terms of its largest entry: compare C62_scalar_refuted. *)
Theorem C112_time : forall eps d M tm h t m, (0 <= eps)%R -> mk_term (square d M) = Ok tm -> mk_hamiltonian [tm] = Ok h ->
  (forall i j, (i < d)%nat -> (j < d)%nat -> (Cmod (M i j) <= m)%R) ->
  (INR d * (/ 10 ^ 8 + / 10 ^ 5 * m) * Rabs t <= 8 / 10 ^ 9)%R -> (sqrt 2 * INR d * eps <= 4 / 10 ^ 10)%R -> (INR d <= 10 ^ 6)%R ->
  exists u, time_evolution_operator eps h t = Ok u.
Proof. exact accepted_time. Qed.
Print Assumptions C112_time.

(** Two terms, i 10^-9 times the identity and the identity, for time 2 at the threshold of the code. *)
Example C112_sum_case : exists Ms h t delta, accepted_as 2 Ms h /\ List.length Ms = 2%nat /\ nearly_hermitian 2 (total Ms) /\
  ~ hermitian_mx 2 (total Ms) /\ (fro 2 (mminus (total Ms) (adj (total Ms))) <= delta)%R /\ t = 2%R /\
  (exp (delta * Rabs t / 2) - 1 + sqrt 2 * INR 2 * eps_code <= 45 / 10 ^ 10)%R /\
  (INR 2 * (exp (delta * Rabs t / 2) - 1 + sqrt 2 * INR 2 * eps_code) <= / 200)%R.
Proof. exact ex_C112_sum_lemma. Qed.

(** The first of these terms alone. *)
Example C112_term_case : exists M tm h t delta, mk_term (square 2 M) = Ok tm /\ mk_hamiltonian [tm] = Ok h /\ ~ hermitian_mx 2 M /\
  (fro 2 (mminus M (adj M)) <= delta)%R /\ t = 2%R /\
  (exp (delta * Rabs t / 2) - 1 + sqrt 2 * INR 2 * eps_code <= 45 / 10 ^ 10)%R /\
  (INR 2 * (exp (delta * Rabs t / 2) - 1 + sqrt 2 * INR 2 * eps_code) <= / 200)%R.
Proof. exact ex_C112_term_lemma. Qed.

(** The same term for a quarter of a unit of time. *)
Example C112_time_case : exists M tm h t m, mk_term (square 2 M) = Ok tm /\ mk_hamiltonian [tm] = Ok h /\ ~ hermitian_mx 2 M /\
  (0 < t)%R /\ (forall i j, (i < 2)%nat -> (j < 2)%nat -> (Cmod (M i j) <= m)%R) /\
  (INR 2 * (/ 10 ^ 8 + / 10 ^ 5 * m) * Rabs t <= 8 / 10 ^ 9)%R /\ (sqrt 2 * INR 2 * eps_code <= 4 / 10 ^ 10)%R /\ (INR 2 <= 10 ^ 6)%R.
Proof. exact ex_C112_time_lemma. Qed.

