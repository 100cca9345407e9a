(** Model of the older copies of the library kept beside the notebooks, where they differ
    from stoqcompiler.  Definitions only.

    paper/fig10, paper/fig11 and paper/fig12 hold the same two files, unitary.py and
    compiler.py, byte for byte; the notebooks need them to load pickled results.  Statement
    for statement unitary.py there is stoqcompiler/unitary, except that the gates are class
    methods of [Unitary] and [ParameterizedUnitary], that two private methods have public
    names, that the permuted indices are not copied into a new array, that
    [np.random.random()] stands for [np.random.random_sample()] (another name of the same
    function), and for the two methods below.  compiler.py is an abstract class. *)
From Coq Require Import Reals List Arith Bool String ZArith.
From Coquelicot Require Import Complex.
From Verif Require Import Base CMat ModelUnitary ModelPrimitive ModelSequence ModelText.
Import ListNotations.
Open Scope R_scope.
Open Scope res_scope.

(** [Unitary.close_to]; paper/fig10/unitary.py:273-279.  A float is false if it is 0. *)
Definition old_close_to (eps : R) (u v : unitary) (threshold : option R) : res bool :=
  do distance <- u_distance_from eps u v;
  match threshold with
  | Some t => if Req_EM_T t 0 then Ok (isclose (RtoC distance) 0%C) else Ok (Rleb distance (1 - t)%R)
  | None => Ok (isclose (RtoC distance) 0%C)
  end.

(** [UnitarySequence.get_display_output]; paper/fig10/unitary.py:653-655. *)
Definition old_get_display_output (fmt : nat -> R -> string) (eps : R) : meth string :=
  get_text eps "# Display output generated from UnitarySequence.get_display_output()" (u_get_display_name fmt).

(** The exceptions of compiler.py: those of the library, and the one of the method that is
    left to a subclass; paper/fig10/compiler.py:21-50. *)
Inductive old_exn : Type := Lib (e : exn) | NotImplementedError.

(** What a call of compiler.py ends with; paper/fig10/compiler.py:13-50. *)
Inductive old_res (A : Type) : Type := OldOk (a : A) | OldRaise (e : old_exn).
Arguments OldOk {A} a.
Arguments OldRaise {A} e.

(** A [Compiler] object; paper/fig10/compiler.py:17-18.  [oc_array] says that
    [unitary_primitives] is a numpy array rather than a list. *)
Record old_compiler : Type := { oc_dim : nat; oc_array : bool; oc_prims : list primitive }.

(** [Compiler.__init__]; paper/fig10/compiler.py:15-18. *)
Definition old_mk_compiler (dimension : nat) : old_res old_compiler :=
  if Nat.ltb 0 dimension then OldOk {| oc_dim := dimension; oc_array := false; oc_prims := [] |}
  else OldRaise (Lib AssertionError).

(** [Compiler.set_unitary_primitives]; paper/fig10/compiler.py:20-25.  The object after the
    call, and how the call ends. *)
Definition old_set_primitives (is_array : bool) (unitary_primitives : list primitive) (c : old_compiler)
  : old_compiler * old_res unit :=
  if forallb (fun p => Nat.leb (src_dim (p_source p)) (oc_dim c)) unitary_primitives
  then ({| oc_dim := oc_dim c; oc_array := is_array; oc_prims := unitary_primitives |}, OldOk tt)
  else (c, OldRaise (Lib AssertionError)).

(** [assert self.unitary_primitives]; paper/fig10/compiler.py:29.  The truth value of an
    array with two or more elements raises [ValueError]. *)
Definition old_assert_primitives (c : old_compiler) : old_res unit :=
  match oc_prims c with
  | [] => OldRaise (Lib AssertionError)
  | [_] => OldOk tt
  | _ => if oc_array c then OldRaise (Lib ValueError) else OldOk tt
  end.

(** [Compiler.compile]; paper/fig10/compiler.py:27-36, 49-50.  [hook] is the [_compile] of a
    subclass; without one the method of the class itself is called.  The elapsed time is
    left out of the result. *)
Definition old_compile {A} (hook : option (unitary -> option R -> Z -> old_res (A * list R))) (c : old_compiler)
    (target_unitary : unitary) (threshold : option R) (max_step_count : Z) : old_res (A * list R) :=
  match old_assert_primitives c with
  | OldRaise e => OldRaise e
  | OldOk _ =>
      match hook with
      | None => OldRaise NotImplementedError
      | Some f => f target_unitary threshold max_step_count
      end
  end.

(** [Compiler.compile_layered]; paper/fig10/compiler.py:38-47.  The class itself has no
    method [_compile_layered]. *)
Definition old_compile_layered {A}
    (hook : option (unitary -> list (primitive * Z) -> option R -> Z -> old_res (A * list R)))
    (target_unitary : unitary) (unitary_primitive_counts : list (primitive * Z)) (threshold : option R)
    (max_step_count : Z) : old_res (A * list R) :=
  match hook with
  | None => OldRaise (Lib AttributeError)
  | Some f => f target_unitary unitary_primitive_counts threshold max_step_count
  end.
