(** Results, exceptions and small list helpers shared by the whole model. *)
From Coq Require Import List Arith Lia Bool ZArith.
Import ListNotations.

(** The Python exceptions the modelled code can raise.  [NonFinite] is not a
    Python exception: it marks the one place (division by a zero determinant)
    where numpy would go on with inf/nan values, which the model does not have.
    [OutOfFuel] marks a loop that has not finished within the fuel given to the
    model; it is excluded by the statements that mention it. *)
Inductive exn : Type :=
  | AssertionError | ValueError | IndexError | AttributeError | TypeError
  | ZeroDivisionError | NonFinite | OutOfFuel.

Inductive res (A : Type) : Type :=
  | Ok (a : A)
  | Raise (e : exn).
Arguments Ok {A} a.
Arguments Raise {A} e.

Definition bind {A B : Type} (x : res A) (f : A -> res B) : res B :=
  match x with Ok a => f a | Raise e => Raise e end.

(** Python's [assert b]. *)
Definition assert (b : bool) : res unit :=
  if b then Ok tt else Raise AssertionError.

Declare Scope res_scope.
Delimit Scope res_scope with res.
Notation "'do' x <- a ; b" := (bind a (fun x => b))
  (at level 200, x name, a at level 100, b at level 200) : res_scope.
Notation "'do_' a ; b" := (bind a (fun _ => b))
  (at level 200, a at level 100, b at level 200) : res_scope.

(** State-and-exception computations: the state survives an exception, as in
    Python, where assignments made before a [raise] stay made. *)
Definition SE (S A : Type) : Type := S -> S * res A.
Definition se_ret {S A} (a : A) : SE S A := fun s => (s, Ok a).
Definition se_raise {S A} (e : exn) : SE S A := fun s => (s, Raise e).
Definition se_bind {S A B} (m : SE S A) (f : A -> SE S B) : SE S B :=
  fun s => match m s with
           | (s', Ok a) => f a s'
           | (s', Raise e) => (s', Raise e)
           end.
Definition se_lift {S A} (r : res A) : SE S A := fun s => (s, r).
Definition se_assert {S} (b : bool) : SE S unit := se_lift (assert b).
Definition se_get {S} : SE S S := fun s => (s, Ok s).
Definition se_put {S} (s' : S) : SE S unit := fun _ => (s', Ok tt).

Declare Scope se_scope.
Delimit Scope se_scope with se.
Notation "x <-- a ;; b" := (se_bind a (fun x => b))
  (at level 61, a at next level, right associativity) : se_scope.
Notation "a ;;; b" := (se_bind a (fun _ => b))
  (at level 61, right associativity) : se_scope.

(** [forallb_lt n p] : [p i] for all [i < n] (numpy's [np.all] over an axis). *)
Definition forallb_lt (n : nat) (p : nat -> bool) : bool := forallb p (seq 0 n).

Lemma forallb_lt_spec n p :
  forallb_lt n p = true <-> forall i, i < n -> p i = true.
Proof.
  unfold forallb_lt. rewrite forallb_forall. split; intros H i Hi.
  - apply H. apply in_seq. lia.
  - apply in_seq in Hi. apply H. lia.
Qed.

(** Replace position [i] of a list (no effect when out of range). *)
Fixpoint list_set {A} (l : list A) (i : nat) (x : A) : list A :=
  match l, i with
  | [], _ => []
  | _ :: t, O => x :: t
  | y :: t, S k => y :: list_set t k x
  end.

Lemma list_set_length {A} (l : list A) i x : length (list_set l i x) = length l.
Proof. revert i; induction l as [|y t IH]; intros [|i]; simpl; congruence. Qed.

Lemma nth_list_set_same {A} (l : list A) i x d :
  i < length l -> nth i (list_set l i x) d = x.
Proof.
  revert i; induction l as [|y t IH]; intros [|i] H; simpl in *; try lia; auto.
  apply IH. lia.
Qed.

Lemma nth_list_set_other {A} (l : list A) i j x d :
  i <> j -> nth j (list_set l i x) d = nth j l d.
Proof.
  revert i j; induction l as [|y t IH]; intros [|i] [|j] H; simpl; auto; try lia.
Qed.

Lemma nth_list_set {A} (l : list A) i j x d :
  i < length l ->
  nth j (list_set l i x) d = if Nat.eqb i j then x else nth j l d.
Proof.
  intros H. destruct (Nat.eqb_spec i j) as [->|Hn].
  - now apply nth_list_set_same.
  - now apply nth_list_set_other.
Qed.

(** Is the list free of repetitions (Python: [len(l) == len(set(l))])? *)
Fixpoint nodupb_Z (l : list Z) : bool :=
  match l with
  | [] => true
  | x :: t => negb (existsb (Z.eqb x) t) && nodupb_Z t
  end.

Lemma nodupb_Z_spec l : nodupb_Z l = true <-> NoDup l.
Proof.
  induction l as [|x t IH]; simpl.
  - split; auto using NoDup_nil.
  - rewrite andb_true_iff, negb_true_iff, IH. split.
    + intros [H1 H2]. constructor; auto. intros Hin.
      assert (existsb (Z.eqb x) t = true); [|congruence].
      apply existsb_exists. exists x. split; auto. apply Z.eqb_refl.
    + intros H. inversion_clear H as [|? ? Hn Ht]. split; auto.
      apply not_true_is_false. intros He. apply existsb_exists in He.
      destruct He as [y [Hy Hxy]]. apply Z.eqb_eq in Hxy. subst. auto.
Qed.
