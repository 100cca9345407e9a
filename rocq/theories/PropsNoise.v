(** The noisy emulator of the paper: C76-C79.

    [of_process d P M X] is what the process matrix [M], a matrix in the basis [P] of
    operators, makes of the matrix [X]; [turned d U X] is [U X U^dagger]; [on_qubits n qs F]
    applies [F] to the qubits [qs] of [n]; [emulate e n c X] runs the circuit [c] on [X]
    with the process matrices of the emulator with the parameters [e] (SpecNoise.v). *)
From Coq Require Import Reals List Arith Bool String.
From Coquelicot Require Import Complex.
From Verif Require Import Base CMat ModelUnitary ModelGates ModelNoise Spec SpecModel SpecGates SpecChannel
  SpecCompiler SpecNoise PNoise3 PNoise4 PNoise5 PNoiseEx.
Import ListNotations.
Open Scope R_scope.
Open Scope C_scope.

(** C76: the process matrix of the R gate depolarises for the duration of the pulse and then
    rotates about the shifted axis by the over-rotated angle. *)
Theorem C76_gate_R : forall e f a b t X,
  survives e (Rabs a / (PI / 2)) t -> overrotated (r_rotation_error e) a b ->
  meq 2 (of_process 2 pauli (gate_R e f a) X)
        (turned 2 (equatorial (f + 2 * PI * r_phase_error e) b) (depolarise t X)).
Proof. exact gate_R_lemma. Qed.
Print Assumptions C76_gate_R.

(** C76: the one of the MS gate depolarises both qubits, each for ten times as long, and then
    couples them. *)
Theorem C76_gate_MS : forall e f a b t X,
  survives e (10 * (Rabs a / (PI / 2))) t -> overrotated (ms_rotation_error e) a b ->
  meq 4 (of_process 4 pauli2 (gate_MS e f a) X)
        (turned 4 (ms_coupling (f + 2 * PI * ms_phase_error e) b)
           (on_qubits 2 [0%nat] (depolarise t) (on_qubits 2 [1%nat] (depolarise t) X))).
Proof. exact gate_MS_lemma. Qed.
Print Assumptions C76_gate_MS.

(** C76: the z rotation is exact whatever the errors. *)
Theorem C76_gate_Rz : forall a X, meq 2 (of_process 2 pauli (gate_Rz a) X) (turned 2 (rotation 0 0 1 a) X).
Proof. exact gate_Rz_lemma. Qed.
Print Assumptions C76_gate_Rz.

(** C76: an idle qubit is depolarised. *)
Theorem C76_idle : forall e u t X, survives e u t -> meq 2 (of_process 2 pauli (idle e u) X) (depolarise t X).
Proof. exact idle_lemma. Qed.
Print Assumptions C76_idle.

(** C76: a qubit that waits for a pulse on another qubit loses what the pulsed qubit loses, and
    nothing while it waits for a z rotation.  [C76_case] meets the first hypothesis. *)
Theorem C76_idle_beside : forall e a t t' X,
  survives e (Rabs a / (PI / 2)) t -> survives e (10 * (Rabs a / (PI / 2))) t' ->
  meq 2 (of_process 2 pauli (idle e (gateduration_Rz a)) X) X /\
  meq 2 (of_process 2 pauli (idle e (gateduration_R a)) X) (depolarise t X) /\
  meq 2 (of_process 2 pauli (idle e (gateduration_MS a)) X) (depolarise t' X).
Proof. exact idle_beside_lemma. Qed.
Print Assumptions C76_idle_beside.

(** A backward quarter turn that loses half of the state and over-rotates backwards. *)
Example C76_case : exists e t b, survives e (Rabs (- (PI / 2)) / (PI / 2)) t /\
  overrotated (r_rotation_error e) (- (PI / 2)) b /\ t = (/ 2)%R /\ b = (- (5 * PI / 6))%R /\
  of_process 2 pauli (gate_R e 0 (- (PI / 2))) pauli_z 0%nat 0%nat = RtoC (- (sqrt 3 / 4)).
Proof. exact ex_C76_lemma. Qed.

(** C76: gates by the angle 0 do nothing, whatever the errors. *)
Theorem C76_zero_angle : forall e f X Y,
  meq 2 (of_process 2 pauli (gate_R e f 0) X) X /\ meq 4 (of_process 4 pauli2 (gate_MS e f 0) Y) Y.
Proof. exact zero_angle_lemma. Qed.
Print Assumptions C76_zero_angle.

(** C76: with the default parameters the named one-qubit gates are the gates of those names. *)
Theorem C76_named_gates : forall X a,
  let acts M U := meq 2 (of_process 2 pauli M X) (turned 2 U X) in
  let e := no_noise in
  acts (gate_Rx e a) (rotation 1 0 0 a) /\ acts (gate_Ry e a) (rotation 0 1 0 a) /\ acts (gate_Rz a) (rotation 0 0 1 a) /\
  acts (gate_Px e) pauli_x /\ acts (gate_Py e) pauli_y /\ acts gate_Pz pauli_z /\
  acts (gate_Sx e) (rotation 1 0 0 (PI / 2)) /\ acts (gate_Sy e) (rotation 0 1 0 (PI / 2)) /\
  acts gate_Sz (rotation 0 0 1 (PI / 2)) /\
  acts (gate_Sxd e) (adj (rotation 1 0 0 (PI / 2))) /\ acts (gate_Syd e) (adj (rotation 0 1 0 (PI / 2))) /\
  acts gate_Szd (adj (rotation 0 0 1 (PI / 2))).
Proof. exact named_lemma. Qed.
Print Assumptions C76_named_gates.

(** C76: and so are the two-qubit gates; the MS gate takes twice the angle of the library's XX. *)
Theorem C76_named_gates_two_qubits : forall X a f,
  meq 4 (of_process 4 pauli2 (gate_MS no_noise f a) X) (turned 4 (ms_coupling f a) X) /\
  meq 4 (of_process 4 pauli2 (gate_MS no_noise 0 a) X) (turned 4 (xx_coupling (a / 2)) X) /\
  meq 4 (of_process 4 pauli2 (gate_Sxx no_noise) X) (turned 4 (xx_coupling (PI / 4)) X).
Proof. exact named2_lemma. Qed.
Print Assumptions C76_named_gates_two_qubits.

(** C76: the over-rotation is the same for every angle, not per quarter turn as the
    parameters' description reads: two quarter turns are not one half turn. *)
Theorem C76_over_rotation_scales_refuted : exists e X, depolarization e = 0%R /\
  ~ meq 2 (emulate e 1 [NR 0 0 (PI / 2); NR 0 0 (PI / 2)] X) (emulate e 1 [NR 0 0 PI] X).
Proof. exact overrotation_refuted_lemma. Qed.
Print Assumptions C76_over_rotation_scales_refuted.

(** C77: with a depolarisation between 0 and 1, every circuit of the emulator takes density
    matrices to density matrices, on any number of qubits. *)
Theorem C77_physical : forall e n c X, (0 <= depolarization e <= 1)%R -> circuit_ok n c ->
  density (2 ^ n) X -> density (2 ^ n) (emulate e n c X).
Proof. exact physical_lemma. Qed.
Print Assumptions C77_physical.

(** A circuit with every kind of operation on two qubits. *)
Example C77_case : exists e c, (0 <= depolarization e <= 1)%R /\ (0 < depolarization e)%R /\ circuit_ok 2 c /\
  In (NMS 1 0 (PI / 3) (- (PI / 2))) c /\ density (2 ^ 2) (unit_mx 0 0).
Proof. exact ex_C77_lemma. Qed.

(** C77: with a negative depolarisation, which the emulator accepts, this fails. *)
Theorem C77_negative_refuted : exists e c X, (depolarization e < 0)%R /\ circuit_ok 1 c /\ density 2 X /\
  ~ density 2 (emulate e 1 c X).
Proof. exact negative_refuted_lemma. Qed.
Print Assumptions C77_negative_refuted.

(** C78: without depolarisation a circuit followed by its mirror image is the identity whatever
    the rotation and phase errors: such a benchmark does not see them. *)
Theorem C78_mirror : forall e n c X, depolarization e = 0%R -> circuit_ok n c ->
  meq (2 ^ n) (emulate e n (c ++ mirror c) X) X.
Proof. exact mirror_lemma. Qed.
Print Assumptions C78_mirror.

(** Errors that change a gate, but not its mirror circuit. *)
Example C78_case : exists e c, depolarization e = 0%R /\ circuit_ok 1 c /\
  ~ meq 2 (emulate e 1 c pauli_z) (emulate no_noise 1 c pauli_z) /\
  meq 2 (emulate e 1 (c ++ mirror c) pauli_z) (emulate no_noise 1 (c ++ mirror c) pauli_z).
Proof. exact ex_C78_lemma. Qed.

(** C78: on one qubit the depolarisation can be moved to the end: it depends only on the total
    duration of the circuit. *)
Theorem C78_one_qubit : forall e c t X, circuit_ok 1 c -> survives e (total_duration c) t ->
  meq 2 (emulate e 1 c X) (depolarise t (emulate (coherent e) 1 c X)).
Proof. exact one_qubit_lemma. Qed.
Print Assumptions C78_one_qubit.

(** C78: so a mirror circuit of one qubit depolarises by twice its duration and does nothing else. *)
Theorem C78_one_qubit_mirror : forall e c t X, circuit_ok 1 c -> survives e (2 * total_duration c) t ->
  meq 2 (emulate e 1 (c ++ mirror c) X) (depolarise t X).
Proof. exact one_qubit_mirror_lemma. Qed.
Print Assumptions C78_one_qubit_mirror.

(** A circuit with pulses and idle times of total duration 3. *)
Example C78_one_qubit_case : exists e c, circuit_ok 1 c /\ survives e (total_duration c) (/ 8) /\
  survives e (2 * total_duration c) (/ 64) /\ In (NIdle 0 2) c /\ In (NR 0 1 (PI / 2)) c.
Proof. exact ex_C78_one_lemma. Qed.

(** C78: with MS gates the depolarisation of a mirror circuit is not given by its duration. *)
Theorem C78_two_qubits_refuted : exists e c X t, (0 <= depolarization e <= 1)%R /\ circuit_ok 2 c /\
  survives e (2 * total_duration c) t /\
  ~ meq 4 (emulate e 2 (c ++ mirror c) X) (on_qubits 2 [0%nat] (depolarise t) (on_qubits 2 [1%nat] (depolarise t) X)).
Proof. exact ms_mirror_refuted_lemma. Qed.
Print Assumptions C78_two_qubits_refuted.

(** C79: read as native gates, the JAQAL lines of rx, ry and rz are those rotations; the line of
    rphi(t, p) is the rotation by p about the axis at angle t. *)
Theorem C79_jaqal_lines : forall eps t p X, small_drift eps 1 1 ->
  let reads r U := exists u M, r = Ok u /\ native no_noise (u_name u) (listed u) = Some M /\
    meq 2 (of_process 2 pauli M X) (turned 2 U X) in
  reads (g_rx eps t) (rotation 1 0 0 t) /\ reads (g_ry eps t) (rotation 0 1 0 t) /\
  reads (g_rz eps t) (rotation 0 0 1 t) /\
  reads (g_rphi eps t p) (rotation (cos t) (sin t) 0 p).
Proof. exact jaqal_lemma. Qed.
Print Assumptions C79_jaqal_lines.

(** C79: so the line of rphi is not the gate: the native gate takes the axis first. *)
Theorem C79_rphi_refuted : exists t p X, forall eps, small_drift eps 1 1 ->
  exists u M, g_rphi eps t p = Ok u /\ native no_noise (u_name u) (listed u) = Some M /\
    ~ meq 2 (of_process 2 pauli M X) (turned 2 (rotation (cos p) (sin p) 0 t) X).
Proof. exact jaqal_R_refuted_lemma. Qed.
Print Assumptions C79_rphi_refuted.

(** A quarter turn about x, written in two ways. *)
Example C79_case : small_drift eps_code 1 1 /\
  exists u, g_rx eps_code (PI / 2) = Ok u /\
    native no_noise (u_name u) (listed u) = Some (gate_Sx no_noise) /\
  exists v, g_rphi eps_code (PI / 2) 0 = Ok v /\ u_mat v = u_mat u /\
    native no_noise (u_name v) (listed v) = Some (gate_R no_noise (PI / 2) 0).
Proof. exact ex_C79_lemma. Qed.

(** C79: the line of an inverse is read as the gate itself. *)
Theorem C79_inverse : forall eps e u v, u_inverse eps u = Ok v ->
  native e (u_name v) (listed v) = native e (u_name u) (listed u).
Proof. exact jaqal_inverse_lemma. Qed.
Print Assumptions C79_inverse.

(** C79: the other gates of the library are not native gates, whatever their values. *)
Theorem C79_other_names : forall e vals name, In name ["H"; "T"; "X"; "Y"; "Z"; "CNOT"; "CCNOT"; "XX"; "QECC"; "Rxyz"; "Rxy"; "I"]%string ->
  native e name vals = None.
Proof. exact jaqal_names_lemma. Qed.
Print Assumptions C79_other_names.

