(** What the statements of PropsWide.v speak of. *)
From Coq Require Import Reals List Arith ZArith.
From Verif Require Import Base CMat ModelUnitary ModelEntry ModelSequence ModelWide.
Import ListNotations.

(** A call that names no qubit above 61. *)
Definition names_low_qubits (o : op) : Prop :=
  match o with
  | NewEntry _ qs => Forall (fun q => (q <= 61)%Z) qs
  | _ => True
  end.

(** An entry with a qubit that a system of dimension [d] does not have. *)
Definition outside (d : nat) (e : entry) : Prop :=
  exists q, In q (e_apply e) /\ (Nat.log2 d <= q)%nat.

(** The qubit whose number makes the 64-bit power wrap around. *)
Definition has_wide_qubit (e : entry) : Prop :=
  exists q, In q (e_apply e) /\ (62 <= q)%nat.

(** An entry that puts the one-qubit gate [u] on qubit [q], an empty sequence of
    dimension 2, and its product. *)
Definition wide_program (u : unitary) (q : Z) : list op :=
  [NewEntry u [q]; NewSequence 2 false []; Product 0].
