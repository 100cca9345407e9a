(** When an inexact matrix arithmetic is accurate, and the error bound claimed for it. *)
From Coq Require Import Reals List Arith Bool String.
From Coquelicot Require Import Complex.
From Verif Require Import Base CMat Det CRoot Norms ModelUnitary ModelEntry ModelRound Spec SpecModel.
Import ListNotations.
Open Scope R_scope.
Open Scope C_scope.

(** Every entry of the [d] by [d] matrix [A] has modulus at most 2. *)
Definition bounded2 (d : nat) (A : mat) : Prop :=
  forall i j, (i < d)%nat -> (j < d)%nat -> (Cmod (A i j) <= 2)%R.

(** Entry by entry, [A] is within [mu] of [B]. *)
Definition within (mu : R) (d : nat) (A B : mat) : Prop :=
  forall i j, (i < d)%nat -> (j < d)%nat -> (Cmod (A i j - B i j) <= mu)%R.

(** In dimension [d] every rounded operation is within [mu] of the exact one, on the
    operands the library gives it.  Nothing is said about determinants of matrices far
    from unitary, about roots of numbers far from modulus 1, nor about which root is
    taken unless the number is near 1; [np.allclose] may err by 1 per cent in its
    tolerance. *)
Record accurate (ar : arith) (mu : R) (d : nat) : Prop := {
  acc_mul : forall A B, bounded2 d A -> bounded2 d B -> within mu d (a_mul ar d A B) (mmul d A B);
  acc_kron : forall a k A B, (0 < a)%nat -> (0 < k)%nat -> (a * k)%nat = d ->
    bounded2 a A -> bounded2 k B -> within mu d (a_kron ar k A B) (kron k A B);
  acc_close : forall A B : mat,
    (forall i j, (i < d)%nat -> (j < d)%nat ->
       (Cmod (A i j - B i j) <= 99 / 100 * (/ 10 ^ 8 + / 10 ^ 5 * Cmod (B i j)))%R) ->
    a_close ar d A B = true;
  acc_det : forall A P, unitary_mx d P -> (INR d * fro d (mminus A P) <= / 100)%R ->
    (Cmod (a_det ar d A - det d A) <= mu)%R;
  acc_root : forall z : C, (Rabs (Cmod z - 1) <= / 50)%R ->
    exists r, cpow r d = / z /\ (Cmod (a_root ar d z - r) <= mu)%R;
  acc_root_1 : forall z : C, (Cmod (z - 1)%C <= / 50)%R ->
    (Cmod (a_root ar d z - croot d (/ z))%C <= mu)%R;
  acc_scale : forall c A, (Cmod c <= 2)%R -> bounded2 d A ->
    within mu d (a_scale ar c A) (mscale c A);
  acc_dist : forall A : mat, bounded2 d A ->
    (Rabs (a_dist ar d A - (1 - Cmod (mtrace d A) / INR d)) <= mu)%R }.

(** A gate that came out of the rounded constructor, called on a matrix whose entries
    are within [mu] of those of an exactly unitary matrix. *)
Definition r_from (ar : arith) (eps mu : R) (u : unitary) : Prop :=
  exists d A M nm ps iv ap,
    unitary_mx d M /\ within mu d A M /\
    r_unitary ar eps d (Some (square d A)) nm ps iv ap = Ok u.

(** A gate: as above, or made by a second constructor call from the matrix of such a
    gate or from its conjugate transpose (as [inverse] does). *)
Definition r_gate (ar : arith) (eps mu : R) (u : unitary) : Prop :=
  r_from ar eps mu u \/
  exists v nm ps iv ap, r_from ar eps mu v /\
    (r_unitary ar eps (u_dim v) (Some (square (u_dim v) (u_mat v))) nm ps iv ap = Ok u \/
     r_unitary ar eps (u_dim v) (Some (square (u_dim v) (adj (u_mat v)))) nm ps iv ap = Ok u).

(** The gates an operation brings in. *)
Definition brings (o : rop) : list (unitary * list nat) :=
  match o with RFirst g _ | RLast g _ => [g] | _ => [] end.

(** A list of method calls on a sequence for [n] qubits: every gate is one of the above,
    of the right size and placed on distinct qubits of the system. *)
Definition r_ops_ok (ar : arith) (eps mu : R) (n : nat) (ops : list rop) : Prop :=
  forall o g, In o ops -> In g (brings o) ->
    r_gate ar eps mu (fst g) /\ placement n (snd g) /\
    (2 ^ List.length (snd g))%nat = u_dim (fst g).

(** What a sequence must hold after a list of method calls, in terms of plain lists:
    [es] the gates now, [pv] those before the last call that saved its state. [None] when
    [undo] is called with nothing saved. *)
Fixpoint holds_after (es : list (unitary * list nat)) (pv : option (list (unitary * list nat)))
    (ops : list rop) : option (list (unitary * list nat)) :=
  match ops with
  | [] => Some es
  | RFirst g s :: t => holds_after (g :: es) (if s then Some es else pv) t
  | RLast g s :: t => holds_after (es ++ [g]) (if s then Some es else pv) t
  | RPopFirst s :: t =>
      match es with
      | [] => holds_after es pv t
      | _ :: es' => holds_after es' (if s then Some es else pv) t
      end
  | RPopLast s :: t =>
      match es with
      | [] => holds_after es pv t
      | _ :: _ => holds_after (removelast es) (if s then Some es else pv) t
      end
  | RUndo :: t => match pv with Some es' => holds_after es' None t | None => None end
  | RProduct :: t => holds_after es pv t
  end.

(** The claimed bound after [K] method calls. *)
Definition round_bound (eps mu : R) (n K : nat) : R :=
  (16 * INR (K + 1) * INR (2 ^ n) * (sqrt (INR (2 ^ n)) + 1) * (eps + 9 * mu))%R.

(** The bound is small enough for the assertion of the constructor. *)
Definition small_round (eps mu : R) (n K : nat) : Prop :=
  (0 <= eps)%R /\ (0 <= mu)%R /\ (round_bound eps mu n K <= 45 / 10 ^ 10)%R /\
  (INR (2 ^ n) * round_bound eps mu n K <= / 100)%R.

(** The accuracy of double precision for matrices of up to [n] qubits: [128 * 4^n] units
    of [2^-53]. *)
Definition mu64 (n : nat) : R := (128 * (INR (2 ^ n) * INR (2 ^ n)) * / 2 ^ 53)%R.
