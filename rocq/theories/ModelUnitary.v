(** Model of stoqcompiler/unitary/unitary.py.  Definitions only. *)
From Coq Require Import Reals List Arith Bool String.
From Coquelicot Require Import Complex.
From Verif Require Import Base CMat Det CRoot.
Import ListNotations.
Open Scope R_scope.
Open Scope C_scope.
Open Scope res_scope.

(** A parameter dictionary: insertion-ordered, name -> (value, is_angle).
    unitary/unitary.py:22-26, 58-61. *)
Definition param_dict : Type := list (string * (R * bool)).

(** A [Unitary] object: the attributes set by unitary/unitary.py:56-82.
    [u_dim] is [self.matrix.shape[0]] (get_dimension, unitary.py:206-214);
    [u_mat] is [self.matrix] (get_matrix, unitary.py:216-223).  [apply_to] holds
    qubit indices, which are non-negative wherever the library sets them. *)
Record unitary : Type := {
  u_dim : nat;
  u_mat : mat;
  u_name : string;
  u_params : param_dict;
  u_inv : bool;
  u_apply : list nat }.

(** A square array.  Used wherever the library builds an [n] by [n] array,
    e.g. [np.identity(n)] at unitary/unitary.py:49. *)
Definition square (n : nat) (A : mat) : ndarray := {| nrows := n; ncols := n; elt := A |}.

(** numpy's default tolerances in [np.allclose] / [np.isclose], as used at
    unitary/unitary.py:75 and 303. *)
Definition rtol : R := (/ 10 ^ 5)%R.
Definition atol : R := (/ 10 ^ 8)%R.

(** One element of [np.isclose(a, b)]: [|a - b| <= atol + rtol * |b|];
    unitary/unitary.py:75, 303. *)
Definition isclose (a b : C) : bool :=
  Rleb (Cmod (a - b)) (atol + rtol * Cmod b).

(** [np.allclose(A, B)] for [n] by [n] arrays; unitary/unitary.py:75. *)
Definition allclose (n : nat) (A B : mat) : bool :=
  forallb_lt n (fun i => forallb_lt n (fun j => isclose (A i j) (B i j))).

Section Unitary.
(** The clean-up threshold, [1e-12] at unitary/unitary.py:70-71. *)
Variable eps : R.

(** Clearing of one very small component; unitary/unitary.py:70 (real part)
    and 71 (imaginary part). *)
Definition clean_R (x : R) : R := if Rltb (Rabs x) eps then 0%R else x.

(** Clearing of the real and imaginary part of one entry;
    unitary/unitary.py:70-71. *)
Definition clean_C (z : C) : C := (clean_R (fst z), clean_R (snd z)).

(** Clearing of the whole matrix; unitary/unitary.py:69-71. *)
Definition clean (A : mat) : mat := fun i j => clean_C (A i j).

(** [Unitary.__init__]; unitary/unitary.py:34-82.  [None] for the matrix is the
    default (identity, lines 48-49), [None] for the name gives "U" (53-54); the
    [isinstance] assertions (50, 55, 60, 63, 66) are discharged by typing.  A
    zero determinant would make numpy continue with inf/nan (line 79); that is
    [Raise NonFinite] here. *)
Definition mk_unitary (dimension : nat) (matrix : option ndarray)
    (operation_name : option string) (parameter_dict : param_dict)
    (is_inverse : bool) (apply_to : list nat) : res unitary :=
  do_ assert (Nat.ltb 0 dimension);
  let a := match matrix with
           | Some a => a
           | None => square dimension mid
           end in
  let m := clean (elt a) in
  do_ assert (Nat.eqb (nrows a) dimension && Nat.eqb (ncols a) dimension);
  do_ assert (allclose dimension (mmul dimension m (adj m)) mid);
  let d := det dimension m in
  if Ceq_dec d 0 then Raise NonFinite else
  let global_phase_factor := croot dimension (/ d) in
  Ok {| u_dim := dimension;
        u_mat := mscale global_phase_factor m;
        u_name := match operation_name with Some s => s | None => "U"%string end;
        u_params := parameter_dict;
        u_inv := is_inverse;
        u_apply := apply_to |}.

(** [Unitary.identity]; unitary/unitary.py:84-96. *)
Definition u_identity (dimension : nat) : res unitary :=
  mk_unitary dimension (Some (square dimension mid)) (Some "I"%string) [] false [].

(** [Unitary.random]; unitary/unitary.py:98-110.  [rvs] stands for
    [scipy.stats.unitary_group.rvs]: called with a dimension it returns an array or
    raises (which dimensions it refuses depends on the version of scipy). *)
Definition u_random (rvs : nat -> res ndarray) (dimension : nat) : res unitary :=
  do random_matrix <- rvs dimension;
  mk_unitary dimension (Some random_matrix) None [] false [].

(** [Unitary.get_parameter_value]; unitary/unitary.py:225-241. *)
Fixpoint dict_get (key : string) (d : param_dict) : option (R * bool) :=
  match d with
  | [] => None
  | (k, v) :: t => if String.eqb k key then Some v else dict_get key t
  end.
(** Same, on a [Unitary]; unitary/unitary.py:225-241. *)
Definition u_get_parameter_value (u : unitary) (key : string) : option (R * bool) :=
  dict_get key (u_params u).

(** [Unitary.inverse]; unitary/unitary.py:243-254. *)
Definition u_inverse (u : unitary) : res unitary :=
  mk_unitary (u_dim u) (Some (square (u_dim u) (adj (u_mat u))))
    (Some (u_name u)) (u_params u) (negb (u_inv u)) (u_apply u).

(** [Unitary.tensor]; unitary/unitary.py:256-277.  [is_inverse] is not passed
    on (lines 274-277), so it is [False]. *)
Definition u_tensor (u v : unitary) : res unitary :=
  let new_dimension := (u_dim v * u_dim u)%nat in
  mk_unitary new_dimension
    (Some (square (u_dim u * u_dim v) (kron (u_dim v) (u_mat u) (u_mat v))))
    (Some (u_name u ++ "--" ++ u_name v)%string) (u_params u) false (u_apply u).

(** [Unitary.distance_from] with an array argument; unitary/unitary.py:305-327. *)
Definition u_distance_from_array (u : unitary) (a : ndarray) : res R :=
  do_ assert (Nat.eqb (nrows a) (u_dim u) && Nat.eqb (ncols a) (u_dim u));
  do i <- u_inverse u;
  let self_dag_u := mmul (u_dim u) (u_mat i) (elt a) in
  let trace := mtrace (u_dim u) self_dag_u in
  let normalized_trace := (Cmod trace / INR (u_dim u))%R in
  Ok (1 - normalized_trace)%R.

(** [Unitary.distance_from] with a [Unitary] argument; unitary/unitary.py:305-327
    (lines 318-319 take its matrix). *)
Definition u_distance_from (u v : unitary) : res R :=
  u_distance_from_array u (square (u_dim v) (u_mat v)).

(** [Unitary.close_to]; unitary/unitary.py:279-303. *)
Definition u_close_to (u v : unitary) (threshold : option R) : res bool :=
  do distance <- u_distance_from u v;
  match threshold with
  | Some t => Ok (Rleb distance (1 - t)%R)
  | None => Ok (isclose (RtoC distance) 0)
  end.

(** [Unitary.left_multiply]; unitary/unitary.py:329-342. *)
Definition u_left_multiply (u factor : unitary) : res unitary :=
  do_ assert (Nat.eqb (u_dim u) (u_dim factor));
  mk_unitary (u_dim u)
    (Some (square (u_dim u) (mmul (u_dim u) (u_mat factor) (u_mat u)))) None [] false [].

(** [Unitary.right_multiply]; unitary/unitary.py:344-357. *)
Definition u_right_multiply (u factor : unitary) : res unitary :=
  do_ assert (Nat.eqb (u_dim u) (u_dim factor));
  mk_unitary (u_dim u)
    (Some (square (u_dim u) (mmul (u_dim u) (u_mat u) (u_mat factor)))) None [] false [].

End Unitary.

(** The threshold of the code; unitary/unitary.py:70-71. *)
Definition eps_code : R := (/ 10 ^ 12)%R.
