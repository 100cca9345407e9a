(** Vocabulary of the property statements about the gate library: the textbook
    operators.  Nothing here refers to the way the code writes them down. *)
From Coq Require Import Reals List Arith Bool String ZArith.
From Coquelicot Require Import Complex.
From Verif Require Import Base CMat Det ModelUnitary Norms Spec SpecModel SpecCompiler.
Import ListNotations.
Open Scope R_scope.
Open Scope C_scope.

(** The Pauli matrices. *)
Definition pauli_x : mat := mat22 0 1 1 0.
Definition pauli_z : mat := mat22 1 0 0 (-1).

(** The rotation by [t] about the axis [(x, y, z)] of the Bloch sphere:
    [cos(t/2) - i sin(t/2) (x X + y Y + z Z)]. *)
Definition rotation (x y z t : R) : mat := fun i j =>
  RtoC (cos (t / 2)) * mid i j
  - Ci * RtoC (sin (t / 2))
    * (RtoC x * pauli_x i j + RtoC y * pauli_y i j + RtoC z * pauli_z i j).

(** The Ising coupling [cos t - i sin t (X (x) X)]. *)
Definition xx_coupling (t : R) : mat := fun i j =>
  RtoC (cos t) * mid i j - Ci * RtoC (sin t) * kron 2 pauli_x pauli_x i j.

(** The Hadamard matrix, and the phase gate diag(1, e^{it}). *)
Definition hadamard : mat :=
  mscale (RtoC (/ sqrt 2)) (mat22 1 1 1 (-1)).
Definition phase_gate (t : R) : mat := mat22 1 0 0 (cis t).

(** The not of the last of [k + 1] qubits when the first [k] are all 1. *)
Definition flip_last (k i : nat) : nat :=
  if Nat.eqb (i / 2) (2 ^ k - 1) then (2 * (i / 2) + (1 - i mod 2))%nat else i.
Definition controlled_not (k : nat) : mat := fun i j =>
  if Nat.eqb i (flip_last k j) then 1 else 0.

(** The call answers a [Unitary] on [n] qubits whose matrix is [M]: exactly, if no
    component of [M] is in (0, eps), and in any case within the error of [K]
    clean-ups. *)
Definition stores (eps : R) (K n : nat) (r : res unitary) (M : mat) : Prop :=
  exists u, r = Ok u /\ u_dim u = (2 ^ n)%nat /\ det (2 ^ n) (u_mat u) = 1 /\
    (fro (2 ^ n) (mminus (u_mat u) M) <= drift_bound eps n K)%R /\
    (eps_clean eps (2 ^ n) M -> meq (2 ^ n) (u_mat u) M).

(** The same up to a global phase, without the exact part. *)
Definition stores_phase (eps : R) (K n : nat) (r : res unitary) (M : mat) : Prop :=
  exists u c, r = Ok u /\ u_dim u = (2 ^ n)%nat /\ det (2 ^ n) (u_mat u) = 1 /\ Cmod c = 1%R /\
    (fro (2 ^ n) (mminus (u_mat u) (mscale c M)) <= drift_bound eps n K)%R.

(** Exact storage up to a global phase. *)
Definition stores_exactly (n : nat) (r : res unitary) (M : mat) : Prop :=
  exists u, r = Ok u /\ u_dim u = n /\ det n (u_mat u) = 1 /\ phase_eq n (u_mat u) M.

(** One member of the single-qubit family [gate] after another is the member at the
    sum of the angles. *)
Definition adds (eps : R) (gate : R -> res unitary) (M : R -> mat) : Prop :=
  forall a b, exists u v w, gate a = Ok u /\ gate b = Ok v /\ u_left_multiply eps u v = Ok w /\
    u_dim w = 2%nat /\ (fro 2 (mminus (u_mat w) (M (a + b)%R)) <= drift_bound eps 1 1)%R.

(** Name and parameters of the answer. *)
Definition labelled (r : res unitary) (name : string) (ps : param_dict) : Prop :=
  exists u, r = Ok u /\ u_name u = name /\ u_params u = ps /\ u_inv u = false /\ u_apply u = [].

(** The product of [XX] couplings over all pairs of [n] qubits. *)
Definition all_pairs (n : nat) : list (nat * nat) :=
  filter (fun p => Nat.ltb (fst p) (snd p)) (list_prod (seq 0 n) (seq 0 n)).
Definition global_coupling (n : nat) (t : R) : mat :=
  fold_right (fun p P => mmul (2 ^ n) (embed n [fst p; snd p] (xx_coupling t)) P) mid (all_pairs n).

(** Matrix times vector. *)
Definition mapply (n : nat) (A : mat) (v : nat -> C) : nat -> C :=
  fun i => csum n (fun k => A i k * v k).

(** The logical state [a |0> + b |1>] encoded as [a |+++> + b |--->], and a phase
    flip of one of the three qubits ([None]: no error). *)
Definition sign (b : bool) : C := if b then RtoC (-1) else RtoC 1.
Definition encoded (a b : C) : nat -> C := fun i =>
  RtoC (/ sqrt 8) *
  (a + b * sign (xorb (Nat.eqb (bit 3 i 0) 1) (xorb (Nat.eqb (bit 3 i 1) 1) (Nat.eqb (bit 3 i 2) 1)))).
Definition phase_flip (q : option nat) (v : nat -> C) : nat -> C := fun i =>
  match q with
  | None => v i
  | Some q => sign (Nat.eqb (bit 3 i q) 1) * v i
  end.

(** The textbook circuit that undoes a phase flip: Hadamards, controlled nots from
    the last qubit to the two others, and a Toffoli gate back. *)
Definition phase_flip_circuit : mat :=
  mmul 8 (controlled_not 2)
    (mmul 8 (mmul 8 (embed 3 [2; 0]%nat (controlled_not 1)) (embed 3 [2; 1]%nat (controlled_not 1)))
       (kron 4 hadamard (kron 2 hadamard hadamard))).

(** The state [a |0> + b |1>] of the last of three qubits, the first two being in
    the basis state [s]. *)
Definition decoded (s : nat) (a b : C) : nat -> C := fun i =>
  if Nat.eqb i (2 * s) then a else if Nat.eqb i (2 * s + 1) then b else 0.
(** The syndrome of each error. *)
Definition syndrome (q : option nat) : nat :=
  match q with None => 0 | Some 0 => 2 | Some 1 => 1 | Some _ => 3 end%nat.
