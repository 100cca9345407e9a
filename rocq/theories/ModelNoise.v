(** Model of the noisy emulator of the paper, paper/fig5/noisy.py (paper/fig7/noisy.py is
    the same text).  Definitions only.

    Process matrices are matrices with real entries, written here as complex matrices.
    The ideal gates [U_R], [U_Rz], [U_MS] come from qscout's native gate set and
    [unitary_to_pauligate] from pygsti; both are external and modelled by their
    documentation.  How the emulator applies a process matrix to some qubits of a larger
    system is external too. *)
From Coq Require Import Reals List Arith Bool.
From Coquelicot Require Import Complex.
From Verif Require Import Base CMat.
Import ListNotations.
Open Scope R_scope.
Open Scope C_scope.

(** The parameters of the emulator; paper/fig5/noisy.py:13-37. *)
Record noise := { depolarization : R; r_rotation_error : R; r_phase_error : R;
                  ms_rotation_error : R; ms_phase_error : R }.

(** The defaults of [set_defaults]; paper/fig5/noisy.py:30-37. *)
Definition no_noise : noise :=
  {| depolarization := 0; r_rotation_error := 0; r_phase_error := 0;
     ms_rotation_error := 0; ms_phase_error := 0 |}.

(** [U_R] of qscout.v1.native_gates, imported at paper/fig5/noisy.py:5: the rotation by
    [rotation_angle] about the axis at [axis_angle] in the equatorial plane. *)
Definition U_R (axis_angle rotation_angle : R) : mat := fun i j =>
  match i, j with
  | O, O | S O, S O => RtoC (cos (rotation_angle / 2))
  | O, S O => - Ci * cis (- axis_angle) * RtoC (sin (rotation_angle / 2))
  | S O, O => - Ci * cis axis_angle * RtoC (sin (rotation_angle / 2))
  | _, _ => 0
  end.

(** [U_Rz] of qscout.v1.native_gates; paper/fig5/noisy.py:5. *)
Definition U_Rz (angle : R) : mat := fun i j =>
  match i, j with
  | O, O => cis (- (angle / 2))
  | S O, S O => cis (angle / 2)
  | _, _ => 0
  end.

(** [U_MS] of qscout.v1.native_gates, paper/fig5/noisy.py:5: the Moelmer-Soerensen gate
    [exp(-i/2 rotation_angle (cos axis X + sin axis Y) (x) (cos axis X + sin axis Y))]. *)
Definition U_MS (axis_angle rotation_angle : R) : mat := fun i j =>
  let c := RtoC (cos (rotation_angle / 2)) in
  let s := - Ci * RtoC (sin (rotation_angle / 2)) in
  match i, j with
  | O, O | 1%nat, 1%nat | 2%nat, 2%nat | 3%nat, 3%nat => c
  | O, 3%nat => s * cis (- (2 * axis_angle))
  | 1%nat, 2%nat | 2%nat, 1%nat => s
  | 3%nat, O => s * cis (2 * axis_angle)
  | _, _ => 0
  end.

(** The Pauli matrices I, X, Y, Z; they and their tensor products are the basis of
    pygsti's process matrices; used at paper/fig5/noisy.py:55, 69, 81. *)
Definition pauli (k : nat) : mat := fun i j =>
  match k, i, j with
  | 0%nat, O, O | 0%nat, S O, S O => 1
  | 1%nat, O, S O | 1%nat, S O, O => 1
  | 2%nat, O, S O => - Ci
  | 2%nat, S O, O => Ci
  | 3%nat, O, O => 1
  | 3%nat, S O, S O => - (1)
  | _, _, _ => 0
  end.
(** The products, in the order of the numbers 4 i + j; paper/fig5/noisy.py:69. *)
Definition pauli2 (k : nat) : mat := kron 2 (pauli (k / 4)) (pauli (k mod 4)).

(** [pygsti.unitary_to_pauligate]: the entry (i, j) is the real part of
    [tr(P_i U P_j U^dagger) / d]; paper/fig5/noisy.py:55, 69, 81. *)
Definition unitary_to_pauligate (d : nat) (P : nat -> mat) (U : mat) : mat := fun i j =>
  RtoC (Re (mtrace d (mmul d (P i) (mmul d U (mmul d (P j) (adj U))))) / INR d).

(** [b ** e] for a base that is not negative and an exponent that is not negative
    ([0 ** 0] is 1); paper/fig5/noisy.py:52, 67, 86.  A negative base, [depolarization > 1], gives
    NaN in numpy and is not modelled. *)
Definition np_power (b e : R) : R :=
  if Req_EM_T e 0 then 1 else if Rle_dec b 0 then 0 else Rpower b e.

(** [np.sign]; paper/fig5/noisy.py:56, 70. *)
Definition np_sign (x : R) : R :=
  if Rlt_dec 0 x then 1 else if Rlt_dec x 0 then (-1)%R else 0%R.

(** [np.diag([1, t, t, t])]; paper/fig5/noisy.py:57, 72, 88. *)
Definition diag1 (t : R) : mat := fun i j =>
  if Nat.eqb i j then (if Nat.eqb i 0 then 1 else RtoC t) else 0.

(** [gateduration_R]; paper/fig5/noisy.py:46-47. *)
Definition gateduration_R (rotation_angle : R) : R := (Rabs rotation_angle / (PI / 2))%R.
(** [gateduration_MS]; paper/fig5/noisy.py:60-62. *)
Definition gateduration_MS (rotation_angle : R) : R := (10 * Rabs rotation_angle / (PI / 2))%R.
(** [gateduration_Rz]; paper/fig5/noisy.py:77-78. *)
Definition gateduration_Rz (angle : R) : R := 0%R.

Section Noise.
Variable e : noise.

(** The unitary part of [gate_R]; paper/fig5/noisy.py:56. *)
Definition noisy_R (axis_angle rotation_angle : R) : mat :=
  U_R (axis_angle + 2 * PI * r_phase_error e)
      (rotation_angle + r_rotation_error e * np_sign rotation_angle).
(** The unitary part of [gate_MS]; paper/fig5/noisy.py:70. *)
Definition noisy_MS (axis_angle rotation_angle : R) : mat :=
  U_MS (axis_angle + 2 * PI * ms_phase_error e)
       (rotation_angle + ms_rotation_error e * np_sign rotation_angle).

(** [depolarization_term]; paper/fig5/noisy.py:52, 67, 86. *)
Definition depolarization_term (duration : R) : R := np_power (1 - depolarization e) duration.

(** [gate_R]; paper/fig5/noisy.py:49-57. *)
Definition gate_R (axis_angle rotation_angle : R) : mat :=
  mmul 4 (unitary_to_pauligate 2 pauli (noisy_R axis_angle rotation_angle))
         (diag1 (depolarization_term (gateduration_R rotation_angle))).

(** [gate_MS]; paper/fig5/noisy.py:64-73. *)
Definition gate_MS (axis_angle rotation_angle : R) : mat :=
  let t := depolarization_term (gateduration_MS rotation_angle) in
  mmul 16 (unitary_to_pauligate 4 pauli2 (noisy_MS axis_angle rotation_angle))
          (kron 4 (diag1 t) (diag1 t)).

(** [gate_Rz]; paper/fig5/noisy.py:80-81. *)
Definition gate_Rz (angle : R) : mat := unitary_to_pauligate 2 pauli (U_Rz angle).

(** [idle]; paper/fig5/noisy.py:85-88. *)
Definition idle (duration : R) : mat := diag1 (depolarization_term duration).

(** [gate_Rx], made by [_curry]; paper/fig5/noisy.py:95. *)
Definition gate_Rx (angle : R) := gate_R 0 angle.
(** [gate_Ry], made by [_curry]; paper/fig5/noisy.py:96. *)
Definition gate_Ry (angle : R) := gate_R (PI / 2) angle.
(** [gate_Px], made by [_curry]; paper/fig5/noisy.py:97. *)
Definition gate_Px := gate_R 0 PI.
(** [gate_Py], made by [_curry]; paper/fig5/noisy.py:98. *)
Definition gate_Py := gate_R (PI / 2) PI.
(** [gate_Pz], made by [_curry]; paper/fig5/noisy.py:99. *)
Definition gate_Pz := gate_Rz PI.
(** [gate_Sx], made by [_curry]; paper/fig5/noisy.py:100. *)
Definition gate_Sx := gate_R 0 (PI / 2).
(** [gate_Sy], made by [_curry]; paper/fig5/noisy.py:101. *)
Definition gate_Sy := gate_R (PI / 2) (PI / 2).
(** [gate_Sz], made by [_curry]; paper/fig5/noisy.py:102. *)
Definition gate_Sz := gate_Rz (PI / 2).
(** [gate_Sxd], made by [_curry]; paper/fig5/noisy.py:103. *)
Definition gate_Sxd := gate_R 0 (- (PI / 2)).
(** [gate_Syd], made by [_curry]; paper/fig5/noisy.py:104. *)
Definition gate_Syd := gate_R (PI / 2) (- (PI / 2)).
(** [gate_Szd], made by [_curry]; paper/fig5/noisy.py:105. *)
Definition gate_Szd := gate_Rz (- (PI / 2)).
(** [gate_Sxx], made by [_curry]; paper/fig5/noisy.py:106. *)
Definition gate_Sxx := gate_MS 0 (PI / 2).
End Noise.
