(** Vocabulary for statements about noisy gates. *)
From Coq Require Import Reals List Arith Bool String.
From Coquelicot Require Import Complex.
From Verif Require Import Base CMat Spec SpecModel SpecGates SpecChannel ModelUnitary ModelNoise.
Import ListNotations.
Open Scope R_scope.
Open Scope C_scope.

(** What the process matrix [M] makes of the matrix [X], with respect to the operator
    basis [P]: the coefficients [tr(P_j X)] are multiplied by [M]. *)
Definition of_process (d : nat) (P : nat -> mat) (M X : mat) : mat := fun a b =>
  / RtoC (INR d) * csum (d * d) (fun i =>
    csum (d * d) (fun j => M i j * mtrace d (mmul d (P j) X)) * P i a b).

(** The matrix whose only entry is a 1 at [(k, l)]. *)
Definition unit_mx (k l : nat) : mat := fun i j =>
  if Nat.eqb i k && Nat.eqb j l then 1 else 0.

(** The (linear) operation [F] applied to the qubits [qs] of [n]. *)
Definition on_qubits (n : nat) (qs : list nat) (F : mat -> mat) (X : mat) : mat := fun i j =>
  csum (2 ^ n) (fun k => csum (2 ^ n) (fun l =>
    if agree_off n qs i k && agree_off n qs j l
    then F (unit_mx (subindex n qs k) (subindex n qs l)) (subindex n qs i) (subindex n qs j) * X k l
    else 0)).

(** The depolarising channel of one qubit. *)
Definition depolarise (t : R) (X : mat) : mat := fun a b =>
  RtoC t * X a b + RtoC (1 - t) * (mtrace 2 X / 2) * mid a b.

(** [t] is the fraction [(1 - depolarization) ^ duration] that survives. *)
Definition survives (e : noise) (duration t : R) : Prop :=
  ((depolarization e < 1)%R /\ t = Rpower (1 - depolarization e) duration) \/
  (depolarization e = 1%R /\ duration <> 0%R /\ t = 0%R) \/ (duration = 0%R /\ t = 1%R).

(** [b] is the angle [a] over-rotated by [x], in the direction of the rotation. *)
Definition overrotated (x a b : R) : Prop :=
  ((0 < a)%R -> b = (a + x)%R) /\ ((a < 0)%R -> b = (a - x)%R) /\ (a = 0%R -> b = 0%R).

(** The operator of the Moelmer-Soerensen interaction for the axis at angle [f]. *)
Definition ms_coupling (f t : R) : mat := fun i j =>
  let a : mat := fun i j => RtoC (cos f) * pauli_x i j + RtoC (sin f) * pauli_y i j in
  RtoC (cos (t / 2)) * mid i j - Ci * RtoC (sin (t / 2)) * kron 2 a a i j.

(** The rotation by [t] about the axis at angle [f] in the equatorial plane. *)
Definition equatorial (f t : R) : mat := rotation (cos f) (sin f) 0 t.

(** A density matrix: Hermitian, positive, of trace 1. *)
Definition density (d : nat) (X : mat) : Prop :=
  meq d (adj X) X /\ mtrace d X = 1 /\
  forall x : nat -> C,
    (0 <= Re (csum d (fun i => csum d (fun j => Cconj (x i) * X i j * x j)%C)))%R.

(** ** Circuits on several qubits *)

Inductive nop : Type :=
| NR (q : nat) (axis angle : R)
| NMS (q0 q1 : nat) (axis angle : R)
| NRz (q : nat) (angle : R)
| NIdle (q : nat) (duration : R).

Definition nop_qubits (o : nop) : list nat :=
  match o with NR q _ _ | NRz q _ | NIdle q _ => [q] | NMS q0 q1 _ _ => [q0; q1] end.

(** What the emulator does for an operation: its process matrix is applied to the qubits
    of the operation. *)
Definition nop_run (e : noise) (n : nat) (o : nop) (X : mat) : mat :=
  match o with
  | NR q f a => on_qubits n [q] (of_process 2 pauli (gate_R e f a)) X
  | NMS q0 q1 f a => on_qubits n [q0; q1] (of_process 4 pauli2 (gate_MS e f a)) X
  | NRz q a => on_qubits n [q] (of_process 2 pauli (gate_Rz a)) X
  | NIdle q t => on_qubits n [q] (of_process 2 pauli (idle e t)) X
  end.

(** The first operation of the list comes first. *)
Definition emulate (e : noise) (n : nat) (c : list nop) (X : mat) : mat :=
  fold_left (fun Y o => nop_run e n o Y) c X.

(** Operations on qubits of the system; idle times that are not negative. *)
Definition circuit_ok (n : nat) (c : list nop) : Prop :=
  forall o, In o c -> placement n (nop_qubits o) /\
    match o with NIdle _ t => (0 <= t)%R | _ => True end.

(** The same gate with the opposite angle, and a circuit run backwards with opposite
    angles. *)
Definition nop_back (o : nop) : nop :=
  match o with
  | NR q f a => NR q f (- a) | NMS q0 q1 f a => NMS q0 q1 f (- a) | NRz q a => NRz q (- a)
  | NIdle q t => NIdle q t
  end.
Definition mirror (c : list nop) : list nop := rev (map nop_back c).

(** The time during which the qubits of a circuit are driven or idle, in units of a
    pi/2 pulse. *)
Definition nop_duration (o : nop) : R :=
  match o with
  | NR _ _ a => (Rabs a / (PI / 2))%R | NMS _ _ _ a => (10 * (Rabs a / (PI / 2)))%R
  | NRz _ _ => 0%R | NIdle _ t => t
  end.
Definition total_duration (c : list nop) : R := fold_right (fun o s => (nop_duration o + s)%R) 0%R c.

(** The same errors without the depolarisation. *)
Definition coherent (e : noise) : noise :=
  {| depolarization := 0; r_rotation_error := r_rotation_error e; r_phase_error := r_phase_error e;
     ms_rotation_error := ms_rotation_error e; ms_phase_error := ms_phase_error e |}.

(** ** Reading lines of JAQAL as native gates *)
(** The process matrix of the native gate with the given name and values, for the gates
    that the emulator knows; the R and MS gates take the axis first. *)
Definition native (e : noise) (name : string) (vals : list R) : option mat :=
  match vals with
  | [f; a] => if String.eqb name "R" then Some (gate_R e f a)
              else if String.eqb name "MS" then Some (gate_MS e f a) else None
  | [a] => if String.eqb name "Rx" then Some (gate_Rx e a)
           else if String.eqb name "Ry" then Some (gate_Ry e a)
           else if String.eqb name "Rz" then Some (gate_Rz a) else None
  | [] => if String.eqb name "Px" then Some (gate_Px e)
          else if String.eqb name "Py" then Some (gate_Py e)
          else if String.eqb name "Pz" then Some gate_Pz
          else if String.eqb name "Sx" then Some (gate_Sx e)
          else if String.eqb name "Sy" then Some (gate_Sy e)
          else if String.eqb name "Sz" then Some gate_Sz
          else if String.eqb name "Sxd" then Some (gate_Sxd e)
          else if String.eqb name "Syd" then Some (gate_Syd e)
          else if String.eqb name "Szd" then Some gate_Szd
          else if String.eqb name "Sxx" then Some (gate_Sxx e) else None
  | _ => None
  end.
(** The values that the line of a gate lists, in the order of its parameters. *)
Definition listed (u : unitary) : list R := map (fun kv => fst (snd kv)) (u_params u).
