(** Model of stoqcompiler/unitary/unitary_definitions.py (without
    [time_evolution], which is in [ModelHamiltonian.v]) and of
    parameterized_unitary_definitions.py (likewise).  Definitions only.
    [np.exp(1j * x)] is [cis x]. *)
From Coq Require Import Reals List Arith Bool String ZArith.
From Coquelicot Require Import Complex.
From Verif Require Import Base CMat Det CRoot ModelUnitary ModelEntry ModelPrimitive.
Import ListNotations.
Open Scope R_scope.
Open Scope C_scope.
Open Scope res_scope.

(** [np.array(rows)] for a list of rows of one length;
    unitary/unitary_definitions.py:28, 46, 69, 89, 160, 176, 197, 223. *)
Definition np_array (rows : list (list C)) : ndarray :=
  {| nrows := List.length rows;
     ncols := List.length (nth 0 rows []);
     elt := fun i j => nth j (nth i rows []) 0 |}.

(** The rows of integer constants written in the source;
    unitary/unitary_definitions.py:160-164, 176-184, 197-205. *)
Definition int_rows (rows : list (list Z)) : list (list C) :=
  map (map (fun z => RtoC (IZR z))) rows.

(** The decimal representation of a natural number, as produced by an f-string
    ([f"GMS{num_qubits}"], unitary/unitary_definitions.py:249) or [str(i)]
    (hamiltonian/hamiltonian.py:181, 258).  [fuel] bounds the number of digits. *)
Fixpoint digits (fuel n : nat) (acc : string) : string :=
  match fuel with
  | O => acc
  | S k =>
      let acc' := String (Ascii.ascii_of_nat (48 + n mod 10)) acc in
      if Nat.eqb (n / 10) 0 then acc' else digits k (n / 10) acc'
  end.
(** [str(n)]; unitary/unitary_definitions.py:249, hamiltonian/hamiltonian.py:181,
    258 (a number [n] has at most [n + 1] digits). *)
Definition str_nat (n : nat) : string := digits (S n) n "".

(** The order of the pairs visited by
    [for i in range(num_qubits) for j in range(i + 1, num_qubits)];
    unitary/unitary_definitions.py:250-252. *)
Definition qubit_pairs (num_qubits : nat) : list (nat * nat) :=
  flat_map (fun i => map (fun j => (i, j)) (seq (i + 1) (num_qubits - (i + 1)))) (seq 0 num_qubits).

Section Gates.
(** The clean-up threshold, [1e-12] at unitary/unitary.py:70-71. *)
Variable eps : R.

(** [UnitaryDefinitions.rx]; unitary/unitary_definitions.py:16-31. *)
Definition g_rx (theta : R) : res unitary :=
  mk_unitary eps 2 (Some (np_array
    [[RtoC (cos (theta / 2)); - Ci * RtoC (sin (theta / 2))];
     [- Ci * RtoC (sin (theta / 2)); RtoC (cos (theta / 2))]]))
    (Some "Rx"%string) [("θ"%string, (theta, true))] false [].

(** [UnitaryDefinitions.ry]; unitary/unitary_definitions.py:34-49. *)
Definition g_ry (theta : R) : res unitary :=
  mk_unitary eps 2 (Some (np_array
    [[RtoC (cos (theta / 2)); RtoC (- sin (theta / 2))];
     [RtoC (sin (theta / 2)); RtoC (cos (theta / 2))]]))
    (Some "Ry"%string) [("θ"%string, (theta, true))] false [].

(** [UnitaryDefinitions.rphi]; unitary/unitary_definitions.py:52-74. *)
Definition g_rphi (theta phi : R) : res unitary :=
  mk_unitary eps 2 (Some (np_array
    [[RtoC (cos (theta / 2)); cis (- (PI / 2 + phi)) * RtoC (sin (theta / 2))];
     [cis (- (PI / 2 - phi)) * RtoC (sin (theta / 2)); RtoC (cos (theta / 2))]]))
    (Some "R"%string) [("θ"%string, (theta, true)); ("Φ"%string, (phi, true))] false [].

(** [UnitaryDefinitions.rz]; unitary/unitary_definitions.py:77-92. *)
Definition g_rz (theta : R) : res unitary :=
  mk_unitary eps 2 (Some (np_array
    [[cis (- theta / 2); RtoC 0];
     [RtoC 0; cis (theta / 2)]]))
    (Some "Rz"%string) [("θ"%string, (theta, true))] false [].

(** [Unitary(u.get_dimension(), u.get_matrix(), name)];
    unitary/unitary_definitions.py:104, 115, 126, 137, 148. *)
Definition renamed (u : unitary) (name : string) : res unitary :=
  mk_unitary eps (u_dim u) (Some (square (u_dim u) (u_mat u))) (Some name) [] false [].

(** [UnitaryDefinitions.h]; unitary/unitary_definitions.py:95-104. *)
Definition g_h : res unitary :=
  do z <- g_rz PI;
  do y <- g_ry (PI / 2);
  do h <- u_left_multiply eps z y;
  renamed h "H".

(** [UnitaryDefinitions.t]; unitary/unitary_definitions.py:107-115. *)
Definition g_t : res unitary := do t <- g_rz (PI / 4); renamed t "T".

(** [UnitaryDefinitions.sigmax]; unitary/unitary_definitions.py:118-126. *)
Definition g_sigmax : res unitary := do rx <- g_rx PI; renamed rx "X".

(** [UnitaryDefinitions.sigmay]; unitary/unitary_definitions.py:129-137. *)
Definition g_sigmay : res unitary := do ry <- g_ry PI; renamed ry "Y".

(** [UnitaryDefinitions.sigmaz]; unitary/unitary_definitions.py:140-148. *)
Definition g_sigmaz : res unitary := do rz <- g_rz PI; renamed rz "Z".

(** [UnitaryDefinitions.cnot]; unitary/unitary_definitions.py:151-164. *)
Definition g_cnot : res unitary :=
  mk_unitary eps 4 (Some (np_array (int_rows
    [[1; 0; 0; 0];
     [0; 1; 0; 0];
     [0; 0; 0; 1];
     [0; 0; 1; 0]]%Z))) (Some "CNOT"%string) [] false [].

(** [UnitaryDefinitions.ccnot]; unitary/unitary_definitions.py:167-184. *)
Definition g_ccnot : res unitary :=
  mk_unitary eps 8 (Some (np_array (int_rows
    [[1; 0; 0; 0; 0; 0; 0; 0];
     [0; 1; 0; 0; 0; 0; 0; 0];
     [0; 0; 1; 0; 0; 0; 0; 0];
     [0; 0; 0; 1; 0; 0; 0; 0];
     [0; 0; 0; 0; 1; 0; 0; 0];
     [0; 0; 0; 0; 0; 1; 0; 0];
     [0; 0; 0; 0; 0; 0; 0; 1];
     [0; 0; 0; 0; 0; 0; 1; 0]]%Z))) (Some "CCNOT"%string) [] false [].

(** The array of [UnitaryDefinitions.qecc_phase_flip] before scaling;
    unitary/unitary_definitions.py:197-205. *)
Definition qecc_rows : list (list Z) :=
    [[1; 1; 1; 1; 1; 1; 1; 1];
     [1; -1; -1; 1; -1; 1; 1; -1];
     [1; 1; -1; -1; 1; 1; -1; -1];
     [1; -1; 1; -1; -1; 1; -1; 1];
     [1; 1; 1; 1; -1; -1; -1; -1];
     [1; -1; -1; 1; 1; -1; -1; 1];
     [1; -1; 1; -1; 1; -1; 1; -1];
     [1; 1; -1; -1; -1; -1; 1; 1]]%Z.

(** [UnitaryDefinitions.qecc_phase_flip]; unitary/unitary_definitions.py:187-205. *)
Definition g_qecc_phase_flip : res unitary :=
  let a := np_array (int_rows qecc_rows) in
  mk_unitary eps 8
    (Some {| nrows := nrows a; ncols := ncols a; elt := mscale (RtoC (1 / sqrt 8)) (elt a) |})
    (Some "QECC"%string) [] false [].

(** [UnitaryDefinitions.xx]; unitary/unitary_definitions.py:208-228. *)
Definition g_xx (theta : R) : res unitary :=
  mk_unitary eps 4 (Some (np_array
    [[RtoC (cos theta); RtoC 0; RtoC 0; - Ci * RtoC (sin theta)];
     [RtoC 0; RtoC (cos theta); - Ci * RtoC (sin theta); RtoC 0];
     [RtoC 0; - Ci * RtoC (sin theta); RtoC (cos theta); RtoC 0];
     [- Ci * RtoC (sin theta); RtoC 0; RtoC 0; RtoC (cos theta)]]))
    (Some "XX"%string) [("θ"%string, (theta, true))] false [].

(** One element of [local_unitaries]; unitary/unitary_definitions.py:250-251. *)
Definition gms_local (dimension : nat) (theta : R) (ij : nat * nat) : res unitary :=
  do u <- g_xx theta;
  do e <- mk_entry u [Z.of_nat (fst ij); Z.of_nat (snd ij)];
  snd (get_full_unitary eps dimension e).

(** The list comprehension [local_unitaries]; unitary/unitary_definitions.py:250-252. *)
Fixpoint gms_locals (dimension : nat) (theta : R) (pairs : list (nat * nat)) : res (list unitary) :=
  match pairs with
  | [] => Ok []
  | p :: t =>
      do u <- gms_local dimension theta p;
      do us <- gms_locals dimension theta t;
      Ok (u :: us)
  end.

(** [for u in local_unitaries: global_unitary = global_unitary.left_multiply(u)];
    unitary/unitary_definitions.py:254-255. *)
Fixpoint multiply_all (global_unitary : unitary) (us : list unitary) : res unitary :=
  match us with
  | [] => Ok global_unitary
  | u :: t => do p <- u_left_multiply eps global_unitary u; multiply_all p t
  end.

(** [UnitaryDefinitions.gms]; unitary/unitary_definitions.py:231-258. *)
Definition g_gms (num_qubits : nat) (theta : R) : res unitary :=
  let dimension := (2 ^ num_qubits)%nat in
  do local_unitaries <- gms_locals dimension theta (qubit_pairs num_qubits);
  do i <- u_identity eps dimension;
  do global_unitary <- multiply_all i local_unitaries;
  mk_unitary eps dimension (Some (square (u_dim global_unitary) (u_mat global_unitary)))
    (Some ("GMS" ++ str_nat num_qubits)%string) [("θ"%string, (theta, true))] false [].

(** [u.get_matrix()] of a freshly built gate; e.g.
    unitary/parameterized_unitary_definitions.py:32, 93, 123. *)
Definition matrix_of (r : res unitary) : res ndarray :=
  do u <- r; Ok (square (u_dim u) (u_mat u)).

(** The callable with two arguments inside [rotation_xy];
    unitary/parameterized_unitary_definitions.py:28-32.  Another number of
    arguments raises [TypeError]. *)
Definition rotation_xy_matrix (vs : list R) : res ndarray :=
  match vs with
  | [theta; phi] => matrix_of (g_rphi theta phi)
  | _ => Raise TypeError
  end.

(** [ParameterizedUnitaryDefinitions.rotation_xy];
    unitary/parameterized_unitary_definitions.py:16-42. *)
Definition pd_rotation_xy : res punitary :=
  do p1 <- mk_parameter "theta" 0 (2 * PI) true;
  do p2 <- mk_parameter "phi" 0 (2 * PI) true;
  mk_punitary 2 rotation_xy_matrix [p1; p2] "Rxy".

(** The callable inside [rotation_xyz];
    unitary/parameterized_unitary_definitions.py:55-64. *)
Definition rotation_xyz_matrix (vs : list R) : res ndarray :=
  match vs with
  | [alpha; beta; gamma] => Ok (np_array
      [[RtoC (cos (beta / 2)) * cis (- (alpha + gamma) / 2);
        - RtoC (sin (beta / 2)) * cis (- (alpha - gamma) / 2)];
       [RtoC (sin (beta / 2)) * cis ((alpha - gamma) / 2);
        RtoC (cos (beta / 2)) * cis ((alpha + gamma) / 2)]])
  | _ => Raise TypeError
  end.

(** [ParameterizedUnitaryDefinitions.rotation_xyz];
    unitary/parameterized_unitary_definitions.py:44-76. *)
Definition pd_rotation_xyz : res punitary :=
  do p1 <- mk_parameter "alpha" 0 (2 * PI) true;
  do p2 <- mk_parameter "beta" 0 (2 * PI) true;
  do p3 <- mk_parameter "gamma" 0 (2 * PI) true;
  mk_punitary 2 rotation_xyz_matrix [p1; p2; p3] "Rxyz".

(** The callable inside [xx]; unitary/parameterized_unitary_definitions.py:90-93. *)
Definition xx_matrix (vs : list R) : res ndarray :=
  match vs with
  | [theta] => matrix_of (g_xx theta)
  | _ => Raise TypeError
  end.

(** [ParameterizedUnitaryDefinitions.xx];
    unitary/parameterized_unitary_definitions.py:78-101. *)
Definition pd_xx : res punitary :=
  do p <- mk_parameter "theta" 0 (2 * PI) true;
  mk_punitary 4 xx_matrix [p] "XX".

(** The callable inside [gms]; unitary/parameterized_unitary_definitions.py:120-123. *)
Definition gms_matrix (num_qubits : nat) (vs : list R) : res ndarray :=
  match vs with
  | [theta] => matrix_of (g_gms num_qubits theta)
  | _ => Raise TypeError
  end.

(** [ParameterizedUnitaryDefinitions.gms];
    unitary/parameterized_unitary_definitions.py:103-132. *)
Definition pd_gms (num_qubits : nat) : res punitary :=
  do p <- mk_parameter "theta" 0 (2 * PI) true;
  mk_punitary (2 ^ num_qubits) (gms_matrix num_qubits) [p] ("GMS" ++ str_nat num_qubits).
End Gates.
