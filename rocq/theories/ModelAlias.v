(** Model of the mutable objects behind [Unitary]: which arrays, dictionaries and
    lists the objects of stoqcompiler/unitary/unitary.py refer to, and what a client
    can change through them.  Definitions only. *)
From Coq Require Import Reals List Arith Bool String.
From Coquelicot Require Import Complex.
From Verif Require Import Base CMat Det CRoot ModelUnitary ModelEntry ModelSequence.
Import ListNotations.
Open Scope R_scope.
Open Scope C_scope.
Open Scope se_scope.

(** A [Unitary] as an object: the array, dictionary and list are references
    (positions in the store below), the name and the flag are immutable values;
    unitary/unitary.py:56-67, 82. *)
Record uobj : Type := {
  o_array : nat;
  o_dict : nat;
  o_list : nat;
  o_name : string;
  o_inv : bool }.

(** All mutable objects of a program that uses [Unitary]: numpy arrays, parameter
    dictionaries, lists of qubits and the [Unitary] objects; unitary/unitary.py,
    whole class. *)
Record store : Type := {
  k_arrays : list ndarray;
  k_dicts : list param_dict;
  k_lists : list (list nat);
  k_units : list uobj }.

(** A program starts with one list: the default value of [apply_to], which Python
    makes once, when the class is defined; unitary/unitary.py:41. *)
Definition store0 : store := {| k_arrays := []; k_dicts := []; k_lists := [[]]; k_units := [] |}.
(** The position of that list; unitary/unitary.py:41. *)
Definition default_list : nat := 0.

(** What [no_array] and [no_unit] stand for never occurs in a program (a reference
    to something that does not exist); unitary/unitary.py, whole class. *)
Definition no_array : ndarray := {| nrows := 0; ncols := 0; elt := fun _ _ => 0 |}.
(** See [no_array]; unitary/unitary.py, whole class. *)
Definition no_unit : uobj := {| o_array := 0; o_dict := 0; o_list := 0; o_name := ""; o_inv := false |}.

(** The attributes of the [n]-th object as they are now: [get_dimension()] is
    [matrix.shape[0]]; unitary/unitary.py:206-241. *)
Definition look (k : store) (n : nat) : unitary :=
  let o := nth n (k_units k) no_unit in
  let a := nth (o_array o) (k_arrays k) no_array in
  {| u_dim := nrows a; u_mat := elt a; u_name := o_name o; u_params := nth (o_dict o) (k_dicts k) [];
     u_inv := o_inv o; u_apply := nth (o_list o) (k_lists k) [] |}.

(** What a program can do.  The first six are actions of the client on its own: make
    an array, a dictionary, a list; write into an existing one (in place; the shape
    of an array stays).  The others are calls of the library; unitary/unitary.py:34-357. *)
Inductive act : Type :=
  | MakeArray (a : ndarray)
  | MakeDict (d : param_dict)
  | MakeList (l : list nat)
  | WriteArray (r : nat) (A : mat)
  | WriteDict (r : nat) (d : param_dict)
  | WriteList (r : nat) (l : list nat)
  | NewUnitary (d : nat) (matrix : option nat) (name : option string) (params : option nat)
      (is_inverse : bool) (apply_to : option nat)
  | GetMatrix (n : nat)
  | InverseOf (n : nat)
  | TensorOf (n m : nat)
  | LeftOf (n m : nat)
  | RightOf (n m : nat)
  | DistanceOf (n m : nat).

(** What an action gives back: a reference to an array, a dictionary or a list, a
    [Unitary] object, a number; unitary/unitary.py, return values. *)
Inductive outcome : Type :=
  | ONone | OArray (r : nat) | ODict (r : nat) | OList (r : nat) | OUnit (n : nat) | OReal (x : R).

Section Alias.
(** The clean-up threshold, [1e-12] at unitary/unitary.py:70-71. *)
Variable eps : R.

(** The references must exist (Python has no others); unitary/unitary.py, whole class. *)
Definition ref_ok {A} (l : list A) (r : nat) : bool := Nat.ltb r (List.length l).
(** Same, for an optional argument; unitary/unitary.py:34-42. *)
Definition opt_ok {A} (l : list A) (r : option nat) : bool :=
  match r with Some r => ref_ok l r | None => true end.

(** [Unitary.__init__] on references; unitary/unitary.py:34-82.  [a] is the contents
    of the given array: line 51 ([astype]) copies it, lines 70-71 write into the copy,
    line 80 makes the new array that is kept.  The dictionary is the given one, or
    a new one (58-61), the list the given one (66-67).  The arrays and the dictionary
    made by a call that raises are unreachable and left out. *)
Definition init (d : nat) (a : ndarray) (name : option string) (params : option nat)
    (is_inverse : bool) (apply_to : nat) : SE store outcome :=
  fun k =>
    let dict := match params with Some r => nth r (k_dicts k) [] | None => [] end in
    match mk_unitary eps d (Some a) name dict is_inverse (nth apply_to (k_lists k) []) with
    | Raise e => (k, Raise e)
    | Ok u =>
        ({| k_arrays := k_arrays k ++ [square d (u_mat u)];
            k_dicts := match params with Some _ => k_dicts k | None => k_dicts k ++ [[]] end;
            k_lists := k_lists k;
            k_units := k_units k ++
              [{| o_array := List.length (k_arrays k);
                  o_dict := match params with Some r => r | None => List.length (k_dicts k) end;
                  o_list := apply_to; o_name := u_name u; o_inv := is_inverse |}] |},
         Ok (OUnit (List.length (k_units k))))
    end.

(** One action.  Constructor: unitary/unitary.py:34-82; [get_matrix]: 216-223;
    [inverse]: 243-254; [tensor]: 256-277; [distance_from]: 305-327 (its [inverse()]
    makes a temporary object, which is left out); [left_multiply]: 329-342;
    [right_multiply]: 344-357.  Multiplication passes neither a dictionary nor a list
    on.  The [Make...] and [Write...] actions are the client's. *)
Definition act_step (x : act) : SE store outcome :=
  fun k =>
    match x with
    | MakeArray a =>
        ({| k_arrays := k_arrays k ++ [a]; k_dicts := k_dicts k; k_lists := k_lists k; k_units := k_units k |},
         Ok (OArray (List.length (k_arrays k))))
    | MakeDict d =>
        ({| k_arrays := k_arrays k; k_dicts := k_dicts k ++ [d]; k_lists := k_lists k; k_units := k_units k |},
         Ok (ODict (List.length (k_dicts k))))
    | MakeList l =>
        ({| k_arrays := k_arrays k; k_dicts := k_dicts k; k_lists := k_lists k ++ [l]; k_units := k_units k |},
         Ok (OList (List.length (k_lists k))))
    | WriteArray r A =>
        let old := nth r (k_arrays k) no_array in
        ({| k_arrays := list_set (k_arrays k) r {| nrows := nrows old; ncols := ncols old; elt := A |};
            k_dicts := k_dicts k; k_lists := k_lists k; k_units := k_units k |}, Ok ONone)
    | WriteDict r d =>
        ({| k_arrays := k_arrays k; k_dicts := list_set (k_dicts k) r d; k_lists := k_lists k;
            k_units := k_units k |}, Ok ONone)
    | WriteList r l =>
        ({| k_arrays := k_arrays k; k_dicts := k_dicts k; k_lists := list_set (k_lists k) r l;
            k_units := k_units k |}, Ok ONone)
    | NewUnitary d matrix name params is_inverse apply_to =>
        if opt_ok (k_arrays k) matrix && opt_ok (k_dicts k) params && opt_ok (k_lists k) apply_to then
          init d (match matrix with Some r => nth r (k_arrays k) no_array | None => square d mid end)
            name params is_inverse (match apply_to with Some r => r | None => default_list end) k
        else (k, Raise IndexError)
    | GetMatrix n =>
        if ref_ok (k_units k) n then (k, Ok (OArray (o_array (nth n (k_units k) no_unit))))
        else (k, Raise IndexError)
    | InverseOf n =>
        if ref_ok (k_units k) n then
          let u := look k n in
          let o := nth n (k_units k) no_unit in
          init (u_dim u) (square (u_dim u) (adj (u_mat u))) (Some (u_name u)) (Some (o_dict o))
            (negb (u_inv u)) (o_list o) k
        else (k, Raise IndexError)
    | TensorOf n m =>
        if ref_ok (k_units k) n && ref_ok (k_units k) m then
          let u := look k n in
          let v := look k m in
          let o := nth n (k_units k) no_unit in
          init (u_dim v * u_dim u) (square (u_dim u * u_dim v) (kron (u_dim v) (u_mat u) (u_mat v)))
            (Some (u_name u ++ "--" ++ u_name v)%string) (Some (o_dict o)) false (o_list o) k
        else (k, Raise IndexError)
    | LeftOf n m =>
        if ref_ok (k_units k) n && ref_ok (k_units k) m then
          let u := look k n in
          let f := look k m in
          if Nat.eqb (u_dim u) (u_dim f) then
            init (u_dim u) (square (u_dim u) (mmul (u_dim u) (u_mat f) (u_mat u))) None None false default_list k
          else (k, Raise AssertionError)
        else (k, Raise IndexError)
    | RightOf n m =>
        if ref_ok (k_units k) n && ref_ok (k_units k) m then
          let u := look k n in
          let f := look k m in
          if Nat.eqb (u_dim u) (u_dim f) then
            init (u_dim u) (square (u_dim u) (mmul (u_dim u) (u_mat u) (u_mat f))) None None false default_list k
          else (k, Raise AssertionError)
        else (k, Raise IndexError)
    | DistanceOf n m =>
        if ref_ok (k_units k) n && ref_ok (k_units k) m then
          match u_distance_from eps (look k n) (look k m) with
          | Ok x => (k, Ok (OReal x))
          | Raise e => (k, Raise e)
          end
        else (k, Raise IndexError)
    end.

(** A program: the actions one after the other (an exception is caught by the client,
    which goes on); unitary/unitary.py, whole class. *)
Fixpoint act_run (xs : list act) (k : store) : store :=
  match xs with
  | [] => k
  | x :: t => act_run t (fst (act_step x k))
  end.

(** * The product a sequence keeps *)

(** The kept product with its array overwritten; unitary/unitary_sequence.py:246-248
    (the object returned is the one kept), unitary/unitary.py:223 (and its array too). *)
Definition overwrite (A : mat) (s : sequence) : sequence :=
  set_product s (option_map (fun p => {| u_dim := u_dim p; u_mat := A; u_name := u_name p;
                                         u_params := u_params p; u_inv := u_inv p;
                                         u_apply := u_apply p |}) (s_product s)).

(** [seq.product().get_matrix()[:] = A], done by a client;
    unitary/unitary_sequence.py:231-248, unitary/unitary.py:216-223.  The kept product
    is held by no other sequence: each is made by a call of the constructor (lines
    73, 76, 126-128, 151, 175, 195, 215, 241, 245, 264). *)
Definition scribble (s : nat) (A : mat) : SE world unit :=
  on_seq s (product eps ;;; m_upd (overwrite A)).
End Alias.
