(** Model of stoqcompiler/unitary/parameterized_unitary_parameter.py,
    parameterized_unitary.py and unitary_primitive.py.  Definitions only. *)
From Coq Require Import Reals List Arith Bool String ZArith.
From Coquelicot Require Import Complex.
From Verif Require Import Base CMat Det CRoot ModelUnitary.
Import ListNotations.
Open Scope R_scope.
Open Scope C_scope.
Open Scope res_scope.

(** A [ParameterizedUnitaryParameter] object;
    unitary/parameterized_unitary_parameter.py:34-37. *)
Record parameter : Type := {
  pr_name : string;
  pr_min : R;
  pr_max : R;
  pr_angle : bool }.

(** [ParameterizedUnitaryParameter.__init__];
    unitary/parameterized_unitary_parameter.py:21-37. *)
Definition mk_parameter (parameter_name : string) (min_value max_value : R) (is_angle : bool)
  : res parameter :=
  do_ assert (negb (String.eqb parameter_name ""));
  do_ assert (Rleb min_value max_value);
  Ok {| pr_name := parameter_name; pr_min := min_value; pr_max := max_value; pr_angle := is_angle |}.

(** [is_valid]; unitary/parameterized_unitary_parameter.py:57-71. *)
Definition pr_is_valid (p : parameter) (v : R) : bool := Rleb (pr_min p) v && Rleb v (pr_max p).

(** [random_value], as a function of the number drawn by
    [np.random.random_sample()], in real arithmetic;
    unitary/parameterized_unitary_parameter.py:73-82. *)
Definition pr_random_value (p : parameter) (x : R) : R := (x * (pr_max p - pr_min p) + pr_min p)%R.

(** A [ParameterizedUnitary] object; unitary/parameterized_unitary.py:47-50.
    [pu_matrix] is the callable: called with a list of arguments it returns an
    array or raises. *)
Record punitary : Type := {
  pu_dim : nat;
  pu_matrix : list R -> res ndarray;
  pu_params : list parameter;
  pu_name : string }.

(** [ParameterizedUnitary.__init__]; unitary/parameterized_unitary.py:29-50 (the
    [isinstance] and [callable] assertions are discharged by typing). *)
Definition mk_punitary (dimension : nat) (parameterized_matrix : list R -> res ndarray)
    (parameters : list parameter) (operation_name : string) : res punitary :=
  do_ assert (Nat.ltb 0 dimension);
  Ok {| pu_dim := dimension; pu_matrix := parameterized_matrix; pu_params := parameters;
        pu_name := operation_name |}.

(** [d[k] = v] for a dictionary: an existing key keeps its place;
    unitary/parameterized_unitary.py:101-103. *)
Fixpoint dict_put (d : param_dict) (k : string) (v : R * bool) : param_dict :=
  match d with
  | [] => [(k, v)]
  | (k', v') :: t => if String.eqb k' k then (k', v) :: t else (k', v') :: dict_put t k v
  end.

(** The assertion's list comprehension
    [self.get_parameters()[i].is_valid(p) for i, p in enumerate(parameter_values)]:
    a value without parameter raises [IndexError];
    unitary/parameterized_unitary.py:97-99. *)
Fixpoint check_values (ps : list parameter) (vs : list R) : res bool :=
  match vs with
  | [] => Ok true
  | v :: vs' =>
      match ps with
      | [] => Raise IndexError
      | p :: ps' => do b <- check_values ps' vs'; Ok (pr_is_valid p v && b)
      end
  end.

(** The dictionary comprehension over the parameters: a parameter without value
    raises [IndexError]; unitary/parameterized_unitary.py:101-103. *)
Fixpoint fill_dict (ps : list parameter) (vs : list R) (d : param_dict) : res param_dict :=
  match ps with
  | [] => Ok d
  | p :: ps' =>
      match vs with
      | [] => Raise IndexError
      | v :: vs' => fill_dict ps' vs' (dict_put d (pr_name p) (v, pr_angle p))
      end
  end.

Section Param.
(** The clean-up threshold, [1e-12] at unitary/unitary.py:70-71. *)
Variable eps : R.

(** [as_unitary]; unitary/parameterized_unitary.py:82-108. *)
Definition as_unitary (pu : punitary) (parameter_values : list R) : res unitary :=
  do b <- check_values (pu_params pu) parameter_values;
  do_ assert b;
  do parameter_dict <- fill_dict (pu_params pu) parameter_values [];
  do m <- pu_matrix pu parameter_values;
  mk_unitary eps (pu_dim pu) (Some m) (Some (pu_name pu)) parameter_dict false [].
End Param.

(** What a primitive wraps: a [Unitary] or a [ParameterizedUnitary] (the compiler
    distinguishes them at compiler/compiler.py:227). *)
Inductive source : Type :=
  | Fixed (u : unitary)
  | Family (pu : punitary).

(** [get_dimension()] of either; unitary/unitary.py:206-214,
    unitary/parameterized_unitary.py:52-60. *)
Definition src_dim (s : source) : nat :=
  match s with Fixed u => u_dim u | Family pu => pu_dim pu end.

(** A [UnitaryPrimitive] object; unitary/unitary_primitive.py:42-43. *)
Record primitive : Type := {
  p_source : source;
  p_allowed : option (list (list nat)) }.

(** [UnitaryPrimitive.__init__]; unitary/unitary_primitive.py:22-43.  The third
    list comprehension evaluates [np.min] of every list before [np.all], and
    [np.min] of an empty list raises [ValueError]. *)
Definition mk_primitive (u : source) (allowed : option (list (list Z))) : res primitive :=
  match allowed with
  | None => Ok {| p_source := u; p_allowed := None |}
  | Some ls =>
      do_ assert (forallb nodupb_Z ls);
      do_ assert (forallb (fun l => Nat.eqb (2 ^ List.length l) (src_dim u)) ls);
      if existsb (fun l => match l with [] => true | _ => false end) ls
      then Raise ValueError
      else
        do_ assert (forallb (forallb (fun q => Z.leb 0 q)) ls);
        Ok {| p_source := u; p_allowed := Some (map (map Z.to_nat) ls) |}
  end.
