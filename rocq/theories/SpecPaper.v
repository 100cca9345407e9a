(** Vocabulary for statements about estimators: probabilities of the outcomes of a
    measurement, and means over independent shots. *)
From Coq Require Import Reals List Arith.
From Verif Require Import Base CMat.
Import ListNotations.
Open Scope R_scope.

(** [p] gives the probabilities of [d] outcomes. *)
Definition distribution (d : nat) (p : nat -> R) : Prop :=
  (forall k, (k < d)%nat -> 0 <= p k) /\ rsum d p = 1.

(** The outcomes of [K] shots. *)
Definition shots_of (d K : nat) (l : list nat) : Prop :=
  List.length l = K /\ forall s, In s l -> (s < d)%nat.

(** The mean of [F] over [K] independent shots, where outcome [k] has probability [q k]. *)
Fixpoint shots_mean (d : nat) (q : nat -> R) (K : nat) (F : list nat -> R) : R :=
  match K with
  | O => F []
  | S K' => rsum d (fun k => q k * shots_mean d q K' (fun l => F (k :: l)))
  end.
(** The mean square of the deviation from the mean. *)
Definition shots_var (d : nat) (q : nat -> R) (K : nat) (F : list nat -> R) : R :=
  shots_mean d q K (fun l => (F l - shots_mean d q K F) ^ 2).

(** One outcome is certain. *)
Definition certain (d : nat) (p : nat -> R) : Prop := exists k, (k < d)%nat /\ p k = 1.

(** The mean of [F] over independent draws, one from each of the distributions [qs]. *)
Fixpoint draws_mean (d : nat) (qs : list (nat -> R)) (F : list nat -> R) : R :=
  match qs with
  | [] => F []
  | q :: t => rsum d (fun k => q k * draws_mean d t (fun l => F (k :: l)))
  end.
(** The mean and the variance of [g] for the distribution [q]. *)
Definition mean_of (d : nat) (g q : nat -> R) : R := rsum d (fun k => q k * g k).
Definition variance_of (d : nat) (g q : nat -> R) : R := rsum d (fun k => q k * (g k - mean_of d g q) ^ 2).
(** Sums and averages of lists. *)
Definition total (l : list R) : R := fold_right Rplus 0 l.
Definition average (l : list R) : R := total l / INR (List.length l).
(** The sum of the squares of the deviations from the average. *)
Definition spread (l : list R) : R := total (map (fun x => (x - average l) ^ 2) l).
