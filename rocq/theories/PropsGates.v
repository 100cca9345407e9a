(** Properties of the gate library and of [ParameterizedUnitary]: C46-C48, C50,
    C58, C59.

    [stores eps K n r M]: the call [r] answers a gate on [n] qubits with
    determinant 1 whose matrix is [M] - exactly if [M] has no component in
    (0, eps), otherwise within the error of [K] clean-ups. *)
From Coq Require Import Reals List Arith Bool String ZArith.
From Coquelicot Require Import Complex.
From Verif Require Import Base CMat Det Norms ModelUnitary ModelEntry ModelPrimitive ModelGates ModelSequence
  Spec SpecModel SpecCompiler SpecGates PGates PGms PFamilies PGatesEx.
Import ListNotations.
Open Scope R_scope.
Open Scope C_scope.

(** C46: rx, ry, rz, rphi are the rotations about their axes for every angle, with
    their names and parameters. *)
Theorem C46_rotations : forall eps t p, small_drift eps 1 1 ->
  stores eps 1 1 (g_rx eps t) (rotation 1 0 0 t) /\ labelled (g_rx eps t) "Rx" [("θ"%string, (t, true))] /\
  stores eps 1 1 (g_ry eps t) (rotation 0 1 0 t) /\ labelled (g_ry eps t) "Ry" [("θ"%string, (t, true))] /\
  stores eps 1 1 (g_rz eps t) (rotation 0 0 1 t) /\ labelled (g_rz eps t) "Rz" [("θ"%string, (t, true))] /\
  stores eps 1 1 (g_rphi eps t p) (rotation (cos p) (sin p) 0 t) /\
  labelled (g_rphi eps t p) "R" [("θ"%string, (t, true)); ("Φ"%string, (p, true))].
Proof. exact rotations_lemma. Qed.
Print Assumptions C46_rotations.

(** The code's threshold; a quarter turn about y is stored exactly. *)
Example C46_rotation_case : small_drift eps_code 1 1 /\ eps_clean eps_code 2 (rotation 0 1 0 (PI / 2)) /\
  exists u, g_ry eps_code (PI / 2) = Ok u /\
    meq 2 (u_mat u) (mat22 (RtoC (/ sqrt 2)) (RtoC (- / sqrt 2)) (RtoC (/ sqrt 2)) (RtoC (/ sqrt 2))).
Proof. exact ex_rotation_lemma. Qed.

(** C46: rphi(t, 0) is rx(t) and rphi(t, pi/2) is ry(t). *)
Theorem C46_rphi_axes : forall eps t, small_drift eps 1 1 ->
  (exists u v, g_rphi eps t 0 = Ok u /\ g_rx eps t = Ok v /\ u_mat u = u_mat v) /\
  (exists u v, g_rphi eps t (PI / 2) = Ok u /\ g_ry eps t = Ok v /\ u_mat u = u_mat v).
Proof. exact rphi_axes_lemma. Qed.
Print Assumptions C46_rphi_axes.

(** C46: rotations about one axis add their angles. *)
Theorem C46_angles_add : forall eps, small_drift eps 1 1 ->
  adds eps (g_rx eps) (rotation 1 0 0) /\ adds eps (g_ry eps) (rotation 0 1 0) /\
  adds eps (g_rz eps) (rotation 0 0 1) /\
  forall phi, adds eps (fun t => g_rphi eps t phi) (rotation (cos phi) (sin phi) 0).
Proof. exact adds_lemma. Qed.
Print Assumptions C46_angles_add.

(** C46: rotation_xyz(a, b, c) is rz(a) ry(b) rz(c). *)
Theorem C46_rotation_xyz : forall eps a b c, small_drift eps 1 1 ->
  (0 <= a <= 2 * PI)%R -> (0 <= b <= 2 * PI)%R -> (0 <= c <= 2 * PI)%R ->
  exists pu, pd_rotation_xyz = Ok pu /\
    stores eps 1 1 (as_unitary eps pu [a; b; c])
      (mmul 2 (rotation 0 0 1 a) (mmul 2 (rotation 0 1 0 b) (rotation 0 0 1 c))) /\
    labelled (as_unitary eps pu [a; b; c]) "Rxyz"
      [("alpha"%string, (a, true)); ("beta"%string, (b, true)); ("gamma"%string, (c, true))].
Proof. exact rotation_xyz_lemma. Qed.
Print Assumptions C46_rotation_xyz.

(** C46: rotation_xy(t, p) is the rotation by [t] about the axis at angle [p]. *)
Theorem C46_rotation_xy : forall eps t p, small_drift eps 1 1 ->
  (0 <= t <= 2 * PI)%R -> (0 <= p <= 2 * PI)%R ->
  exists pu, pd_rotation_xy eps = Ok pu /\
    stores eps 1 1 (as_unitary eps pu [t; p]) (rotation (cos p) (sin p) 0 t) /\
    labelled (as_unitary eps pu [t; p]) "Rxy" [("theta"%string, (t, true)); ("phi"%string, (p, true))].
Proof. exact rotation_xy_lemma. Qed.
Print Assumptions C46_rotation_xy.

(** C46: xx(t) is cos t - i sin t X(x)X. *)
Theorem C46_xx : forall eps t, small_drift eps 2 1 ->
  stores eps 1 2 (g_xx eps t) (xx_coupling t) /\ labelled (g_xx eps t) "XX" [("θ"%string, (t, true))].
Proof. exact xx_gate_lemma. Qed.
Print Assumptions C46_xx.

(** C46: the same for the parameterised xx. *)
Theorem C46_xx_family : forall eps t, small_drift eps 2 1 -> (0 <= t <= 2 * PI)%R ->
  exists pu, pd_xx eps = Ok pu /\
    stores eps 1 2 (as_unitary eps pu [t]) (xx_coupling t) /\
    labelled (as_unitary eps pu [t]) "XX" [("theta"%string, (t, true))].
Proof. exact xx_family_lemma. Qed.
Print Assumptions C46_xx_family.

(** The code's threshold, and an angle at which xx is stored exactly. *)
Example C46_xx_case : small_drift eps_code 2 1 /\ eps_clean eps_code 4 (xx_coupling (PI / 4)).
Proof. exact ex_two_qubit_lemma. Qed.

(** C46: sigmax, sigmay and sigmaz are the Pauli matrices up to phase. *)
Theorem C46_paulis : forall eps, small_drift eps 1 1 ->
  stores_phase eps 1 1 (g_sigmax eps) pauli_x /\ labelled (g_sigmax eps) "X" [] /\
  stores_phase eps 1 1 (g_sigmay eps) pauli_y /\ labelled (g_sigmay eps) "Y" [] /\
  stores_phase eps 1 1 (g_sigmaz eps) pauli_z /\ labelled (g_sigmaz eps) "Z" [].
Proof. exact sigmas_lemma. Qed.
Print Assumptions C46_paulis.

(** C46: h is the Hadamard matrix and t is diag(1, e^{i pi/4}), up to phase. *)
Theorem C46_h_t : forall eps, small_drift eps 1 1 ->
  stores_phase eps 1 1 (g_h eps) hadamard /\ labelled (g_h eps) "H" [] /\
  stores_phase eps 1 1 (g_t eps) (phase_gate (PI / 4)) /\ labelled (g_t eps) "T" [].
Proof. exact h_t_lemma. Qed.
Print Assumptions C46_h_t.

(** C46: h is its own inverse up to phase. *)
Theorem C46_h_self_inverse : forall eps, small_drift eps 1 3 ->
  exists h p c, g_h eps = Ok h /\ u_left_multiply eps h h = Ok p /\ u_dim p = 2%nat /\ Cmod c = 1%R /\
    (fro 2 (mminus (u_mat p) (mscale c mid)) <= drift_bound eps 1 3)%R.
Proof. exact h_self_inverse_lemma. Qed.
Print Assumptions C46_h_self_inverse.

(** C46: the fourth power of t is z up to phase. *)
Theorem C46_t_fourth : forall eps, small_drift eps 1 3 ->
  exists t t2 t4 c, g_t eps = Ok t /\ u_left_multiply eps t t = Ok t2 /\ u_left_multiply eps t2 t2 = Ok t4 /\
    u_dim t4 = 2%nat /\ Cmod c = 1%R /\
    (fro 2 (mminus (u_mat t4) (mscale c pauli_z)) <= drift_bound eps 1 3)%R.
Proof. exact t_fourth_lemma. Qed.
Print Assumptions C46_t_fourth.

(** C46: cnot and ccnot are exactly the controlled nots, up to phase. *)
Theorem C46_controlled_nots : forall eps, (eps <= 1)%R ->
  stores_exactly 4 (g_cnot eps) (controlled_not 1) /\ labelled (g_cnot eps) "CNOT" [] /\
  stores_exactly 8 (g_ccnot eps) (controlled_not 2) /\ labelled (g_ccnot eps) "CCNOT" [].
Proof. exact cnot_lemma. Qed.
Print Assumptions C46_controlled_nots.

(** C46: qecc_phase_flip is unitary: exactly the textbook circuit, up to phase. *)
Theorem C46_qecc : forall eps, (eps <= / 3)%R ->
  stores_exactly 8 (g_qecc_phase_flip eps) phase_flip_circuit /\
  labelled (g_qecc_phase_flip eps) "QECC" [].
Proof. exact qecc_lemma. Qed.
Print Assumptions C46_qecc.

(** The code's threshold meets all these hypotheses. *)
Example C46_threshold_case : small_drift eps_code 1 1 /\ small_drift eps_code 1 3 /\ (eps_code <= / 3)%R.
Proof. exact ex_one_qubit_lemma. Qed.

(** C47: gms(n, t) is the product of the couplings xx(t) over all pairs of qubits,
    for every number of qubits; [K] is a bound on a quarter of the clean-ups. *)
Theorem C47_gms : forall eps n K t, (S (List.length (all_pairs n)) <= 8 * K)%nat -> small_drift eps n K -> eps_clean eps 4 (xx_coupling t) ->
  (exists u, g_gms eps n t = Ok u /\ u_dim u = (2 ^ n)%nat /\ det (2 ^ n) (u_mat u) = 1 /\
     (fro (2 ^ n) (mminus (u_mat u) (global_coupling n t)) <= drift_bound eps n K)%R) /\
  labelled (g_gms eps n t) ("GMS" ++ str_nat n) [("θ"%string, (t, true))].
Proof. exact gms_lemma. Qed.
Print Assumptions C47_gms.

(** C47: the same for the parameterised gms. *)
Theorem C47_gms_family : forall eps n K t, (S (S (List.length (all_pairs n))) <= 8 * K)%nat -> small_drift eps n K ->
  eps_clean eps 4 (xx_coupling t) -> (0 <= t <= 2 * PI)%R ->
  exists pu u, pd_gms eps n = Ok pu /\ as_unitary eps pu [t] = Ok u /\ u_dim u = (2 ^ n)%nat /\
    (fro (2 ^ n) (mminus (u_mat u) (global_coupling n t)) <= drift_bound eps n K)%R /\
    u_name u = ("GMS" ++ str_nat n)%string /\ u_params u = [("theta"%string, (t, true))].
Proof. exact gms_family_lemma. Qed.
Print Assumptions C47_gms_family.

(** C47: gms(n, a) followed by gms(n, b) is gms(n, a + b). *)
Theorem C47_angles_add : forall eps n K a b, (2 * S (List.length (all_pairs n)) + 1 <= 8 * K)%nat -> small_drift eps n K ->
  eps_clean eps 4 (xx_coupling a) -> eps_clean eps 4 (xx_coupling b) ->
  exists u v w, g_gms eps n a = Ok u /\ g_gms eps n b = Ok v /\ u_left_multiply eps u v = Ok w /\
    u_dim w = (2 ^ n)%nat /\
    (fro (2 ^ n) (mminus (u_mat w) (global_coupling n (a + b))) <= drift_bound eps n K)%R.
Proof. exact gms_add_lemma. Qed.
Print Assumptions C47_angles_add.

(** C47: gms(2, t) is xx(t); gms(n, 0) is the identity. *)
Theorem C47_special_cases :
  (forall eps t, small_drift eps 2 1 -> eps_clean eps 4 (xx_coupling t) ->
     exists u v, g_gms eps 2 t = Ok u /\ g_xx eps t = Ok v /\ meq 4 (u_mat v) (xx_coupling t) /\
       (fro 4 (mminus (u_mat u) (u_mat v)) <= drift_bound eps 2 1)%R) /\
  (forall eps n K, (S (List.length (all_pairs n)) <= 8 * K)%nat -> small_drift eps n K ->
     exists u, g_gms eps n 0 = Ok u /\ u_dim u = (2 ^ n)%nat /\
       (fro (2 ^ n) (mminus (u_mat u) mid) <= drift_bound eps n K)%R).
Proof. exact gms_special_cases_lemma. Qed.
Print Assumptions C47_special_cases.

(** C47: the fourth power of gms(n, pi/4) is the identity up to phase. *)
Theorem C47_fourth_power : forall eps n K, (4 * S (List.length (all_pairs n)) + 3 <= 8 * K)%nat -> small_drift eps n K -> (eps <= / 2)%R ->
  exists u u2 u4 c, g_gms eps n (PI / 4) = Ok u /\ u_left_multiply eps u u = Ok u2 /\
    u_left_multiply eps u2 u2 = Ok u4 /\ Cmod c = 1%R /\ u_dim u4 = (2 ^ n)%nat /\
    (fro (2 ^ n) (mminus (u_mat u4) (mscale c mid)) <= drift_bound eps n K)%R.
Proof. exact gms_fourth_lemma. Qed.
Print Assumptions C47_fourth_power.

(** The code's threshold: one gate on four qubits, four on three qubits. *)
Example C47_case :
  (S (List.length (all_pairs 4)) <= 8 * 1)%nat /\ small_drift eps_code 4 1 /\
  eps_clean eps_code 4 (xx_coupling (PI / 4)) /\
  (4 * S (List.length (all_pairs 3)) + 3 <= 8 * 3)%nat /\ small_drift eps_code 3 3 /\ (eps_code <= / 2)%R.
Proof. exact ex_gms_lemma. Qed.

(** Exact arithmetic: any number of qubits, any angles. *)
Example C47_exact_case : forall n a b,
  small_drift 0 n (n * n + 2) /\ (4 * S (List.length (all_pairs n)) + 3 <= 4 * (n * n + 2))%nat /\
  exists u v w, g_gms 0 n a = Ok u /\ g_gms 0 n b = Ok v /\ u_left_multiply 0 u v = Ok w /\
    meq (2 ^ n) (u_mat w) (global_coupling n (a + b)).
Proof. exact ex_gms_exact_lemma. Qed.

(** C48: every 2x2 unitary is rotation_xyz, up to phase, at parameters that
    as_unitary accepts (by C50 these are inside the declared ranges). *)
Theorem C48_every_unitary : forall eps U, small_drift eps 1 1 -> unitary_mx 2 U ->
  exists pu a b c s, pd_rotation_xyz = Ok pu /\ Cmod s = 1%R /\
    stores eps 1 1 (as_unitary eps pu [a; b; c]) (mscale s U).
Proof. exact rotation_xyz_reach_lemma. Qed.
Print Assumptions C48_every_unitary.

(** The Hadamard matrix. *)
Example C48_case : small_drift eps_code 1 1 /\ unitary_mx 2 hadamard.
Proof. exact ex_reach_lemma. Qed.

(** C50: a call succeeds only with as many values as parameters, each in its
    range; the result reports every parameter's value and angle flag (of several
    parameters with one name, the last), and no other parameter. *)
Theorem C50_success : forall eps pu vs u, as_unitary eps pu vs = Ok u ->
  in_range (pu_params pu) vs /\
  u_dim u = pu_dim pu /\ u_name u = pu_name pu /\ u_inv u = false /\ u_apply u = [] /\
  (forall ps1 p ps2 vs1 v vs2, pu_params pu = ps1 ++ p :: ps2 -> vs = vs1 ++ v :: vs2 ->
     List.length ps1 = List.length vs1 -> ~ In (pr_name p) (map pr_name ps2) ->
     u_get_parameter_value u (pr_name p) = Some (v, pr_angle p)) /\
  (forall k, ~ In k (map pr_name (pu_params pu)) -> u_get_parameter_value u k = None).
Proof. exact as_unitary_ok_lemma. Qed.
Print Assumptions C50_success.

(** C50: too many values raise [IndexError], too few [IndexError] or
    [AssertionError], a value out of range [AssertionError]; an exception of the
    callable is passed on. *)
Theorem C50_failure : forall eps pu vs,
  ((List.length (pu_params pu) < List.length vs)%nat -> as_unitary eps pu vs = Raise IndexError) /\
  ((List.length vs < List.length (pu_params pu))%nat ->
     as_unitary eps pu vs = Raise IndexError \/ as_unitary eps pu vs = Raise AssertionError) /\
  (List.length vs = List.length (pu_params pu) -> ~ in_range (pu_params pu) vs ->
     as_unitary eps pu vs = Raise AssertionError) /\
  (in_range (pu_params pu) vs -> forall e, pu_matrix pu vs = Raise e -> as_unitary eps pu vs = Raise e).
Proof. exact as_unitary_raise_lemma. Qed.
Print Assumptions C50_failure.

(** Rxyz with three, two and four values, and one out of range. *)
Example C50_case : exists pu u, pd_rotation_xyz = Ok pu /\
  as_unitary eps_code pu [1; 2; 3]%R = Ok u /\ u_get_parameter_value u "beta" = Some (2%R, true) /\
  u_get_parameter_value u "delta" = None /\
  as_unitary eps_code pu [1; 2]%R = Raise IndexError /\
  as_unitary eps_code pu [1; -2; 3]%R = Raise AssertionError /\
  as_unitary eps_code pu [1; 2; 3; 4]%R = Raise IndexError.
Proof. exact ex_as_unitary_lemma. Qed.

(** C58: applied to the code word of [a, b] after a phase flip of any one of the
    three qubits, or of none, qecc_phase_flip leaves [a, b] in the last qubit and
    the syndrome in the others, up to one fixed phase. *)
Theorem C58_corrects_phase_flips : forall eps, (eps <= / 3)%R ->
  exists u c, g_qecc_phase_flip eps = Ok u /\ u_dim u = 8%nat /\ Cmod c = 1%R /\
    forall q a b, (forall k, q = Some k -> (k < 3)%nat) -> forall i, (i < 8)%nat ->
      mapply 8 (u_mat u) (phase_flip q (encoded a b)) i = c * decoded (syndrome q) a b i.
Proof. exact qecc_corrects_lemma. Qed.
Print Assumptions C58_corrects_phase_flips.

(** A flip of the middle qubit. *)
Example C58_case : (eps_code <= / 3)%R /\ (forall k, Some 1%nat = Some k -> (k < 3)%nat) /\
  forall a b, mapply 8 phase_flip_circuit (phase_flip (Some 1%nat) (encoded a b)) 2%nat = a /\
    mapply 8 phase_flip_circuit (phase_flip (Some 1%nat) (encoded a b)) 3%nat = b.
Proof. exact ex_qecc_lemma. Qed.

(** C59: the parameterised gates of the library on one and two qubits satisfy what
    the compiler's theorems ask of a primitive, at every small clean-up threshold
    (in particular at the code's own, [C59_threshold]). *)
Theorem C59_library_families : forall eps, small_drift eps 2 1 ->
  (exists pu, pd_rotation_xy eps = Ok pu /\ good_source eps (Family pu)) /\
  (exists pu, pd_rotation_xyz = Ok pu /\ good_source eps (Family pu)) /\
  (exists pu, pd_xx eps = Ok pu /\ good_source eps (Family pu)).
Proof. exact library_good_lemma. Qed.
Print Assumptions C59_library_families.

(** C59: and the global one on any number of qubits, in exact arithmetic. *)
Theorem C59_library_gms : forall n, exists pu, pd_gms 0 n = Ok pu /\ good_source 0 (Family pu).
Proof. exact library_gms_lemma. Qed.
Print Assumptions C59_library_gms.

(** The threshold of the code. *)
Example C59_threshold : small_drift eps_code 2 1.
Proof. exact ex_threshold_lemma. Qed.

