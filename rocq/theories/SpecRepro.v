(** What it means that two runs give the same result. *)
From Coq Require Import Reals List Arith.
From Verif Require Import Base CMat ModelUnitary ModelSequence ModelCompiler ModelRound Spec SpecModel SpecAgree.
Import ListNotations.

(** From question number [d1] on, [g1] answers as [g2] does from question number [d2] on: both were given the same seed
    there. *)
Definition same_answers (g1 : rng) (d1 : nat) (g2 : rng) (d2 : nat) : Prop :=
  forall k, g_unif g1 (d1 + k) = g_unif g2 (d2 + k) /\ (forall n, g_int g1 (d1 + k) n = g_int g2 (d2 + k) n) /\
    (forall n, g_perm g1 (d1 + k) n = g_perm g2 (d2 + k) n).

(** The sequences number [s1] of [w1] and [s2] of [w2] hold the same gates and are in the same state (kept product, saved
    state for undo). *)
Definition same_sequence (w1 : world) (s1 : nat) (w2 : world) (s2 : nat) : Prop :=
  contents w1 s1 = contents w2 s2 /\ exists q, plain_view w1 s1 = Some q /\ plain_view w2 s2 = Some q.

(** Two calls of the compiler, begun at questions [d1] and [d2], end alike: with the same recorded costs, the same
    annealing state, as many questions and the same sequence, or with the same exception. *)
Definition same_compilation (d1 d2 : nat) (x y : (rstate * compiler) * res (nat * list R)) : Prop :=
  match snd x, snd y with
  | Ok (s1, costs1), Ok (s2, costs2) =>
      costs1 = costs2 /\ snd (fst x) = snd (fst y) /\
      (exists k, r_draws (fst (fst x)) = (d1 + k)%nat /\ r_draws (fst (fst y)) = (d2 + k)%nat) /\
      same_sequence (r_world (fst (fst x))) s1 (r_world (fst (fst y))) s2
  | Raise e1, Raise e2 => e1 = e2
  | _, _ => False
  end.

(** The same for a call that makes a sequence. *)
Definition same_made (d1 d2 : nat) (x y : rstate * res nat) : Prop :=
  match snd x, snd y with
  | Ok s1, Ok s2 =>
      (exists k, r_draws (fst x) = (d1 + k)%nat /\ r_draws (fst y) = (d2 + k)%nat) /\
      same_sequence (r_world (fst x)) s1 (r_world (fst y)) s2
  | Raise e1, Raise e2 => e1 = e2
  | _, _ => False
  end.

(** The same for a call that makes a sequence and records costs. *)
Definition same_run (d1 d2 : nat) (x y : rstate * res (nat * list R)) : Prop :=
  match snd x, snd y with
  | Ok (s1, costs1), Ok (s2, costs2) =>
      costs1 = costs2 /\
      (exists k, r_draws (fst x) = (d1 + k)%nat /\ r_draws (fst y) = (d2 + k)%nat) /\
      same_sequence (r_world (fst x)) s1 (r_world (fst y)) s2
  | Raise e1, Raise e2 => e1 = e2
  | _, _ => False
  end.

(** The constructor of [Unitary] gave [u]. *)
Definition constructed (eps : R) (u : unitary) : Prop :=
  exists d a nm ps iv ap, mk_unitary eps d a nm ps iv ap = Ok u.

(** Two targets that differ by a global phase only, of whose matrices the clean-up changes nothing; or two such targets on
    one or two qubits, whatever the clean-up does. *)
Definition phase_twins (eps : R) (t1 t2 : unitary) : Prop :=
  u_dim t2 = u_dim t1 /\ phase_eq (u_dim t1) (u_mat t2) (u_mat t1) /\
  ((eps_clean eps (u_dim t1) (u_mat t1) /\ eps_clean eps (u_dim t1) (u_mat t2)) \/
   (constructed eps t1 /\ constructed eps t2 /\ (u_dim t1 = 2%nat \/ u_dim t1 = 4%nat))).
