(** Model of stoqcompiler/unitary/unitary_sequence_entry.py.  Definitions only. *)
From Coq Require Import Reals List Arith Bool String ZArith.
From Coquelicot Require Import Complex.
From Verif Require Import Base CMat Det CRoot ModelUnitary.
Import ListNotations.
Open Scope R_scope.
Open Scope C_scope.
Open Scope res_scope.

(** A [UnitarySequenceEntry] object: the attributes set at
    unitary/unitary_sequence_entry.py:34-36.  [e_cache] is the dictionary
    [full_unitary_by_dimension]. *)
Record entry : Type := {
  e_unitary : unitary;
  e_apply : list nat;
  e_cache : list (nat * unitary) }.

(** [UnitarySequenceEntry.__init__]; unitary/unitary_sequence_entry.py:21-36.
    The qubit list is a list of Python integers; [np.min] of an empty list
    (line 32) raises [ValueError]. *)
Definition mk_entry (u : unitary) (apply_to : list Z) : res entry :=
  do_ assert (nodupb_Z apply_to);
  do_ assert (Nat.eqb (2 ^ List.length apply_to) (u_dim u));
  match apply_to with
  | [] => Raise ValueError
  | _ :: _ =>
      do_ assert (forallb (fun q => Z.leb 0 q) apply_to);
      Ok {| e_unitary := u; e_apply := map Z.to_nat apply_to; e_cache := [] |}
  end.

(** [get_dimension]; unitary/unitary_sequence_entry.py:38-46. *)
Definition e_dim (e : entry) : nat := u_dim (e_unitary e).

(** [np.max] of a (non-empty) list of qubits;
    unitary/unitary_sequence_entry.py:72, unitary/unitary_sequence.py:90. *)
Definition list_maxn (l : list nat) : nat := fold_left Nat.max l 0%nat.

(** The loop over [apply_to]: [permute_order[apply] = next_index];
    unitary/unitary_sequence_entry.py:114-118. *)
Fixpoint place_named (order : list (option nat)) (next : nat) (apply_to : list nat)
  : list (option nat) * nat :=
  match apply_to with
  | [] => (order, next)
  | q :: t => place_named (list_set order q (Some next)) (S next) t
  end.

(** The loop filling the remaining positions in ascending order;
    unitary/unitary_sequence_entry.py:119-122. *)
Fixpoint place_rest (order : list (option nat)) (next : nat) : list nat :=
  match order with
  | [] => []
  | Some k :: t => k :: place_rest t next
  | None :: t => next :: place_rest t (S next)
  end.

(** The whole permutation order; unitary/unitary_sequence_entry.py:114-122. *)
Definition permute_order (n : nat) (apply_to : list nat) : list nat :=
  let '(order, next) := place_named (repeat None n) 0 apply_to in
  place_rest order next.

(** [np.prod] of a list of naturals; unitary/unitary_sequence_entry.py:85, 90. *)
Definition prodn (l : list nat) : nat := fold_left Nat.mul l 1%nat.

(** Row [counter] of [_select(sel, dims)]; unitary/unitary_sequence_entry.py:74-92.
    [np.fix(counter / p)] is natural division (floats are exact below 2^53). *)
Definition select_row (sel dims : list nat) (counter : nat) : list nat :=
  fold_left
    (fun row k =>
       let s := nth k sel 0%nat in
       let p := prodn (map (fun i => nth i dims 0%nat) (skipn (k + 1) sel)) in
       list_set row s ((counter / p) mod nth s dims 0 + 1)%nat)
    (seq 0 (List.length sel)) (repeat 1%nat (List.length dims)).

(** [np.append([1], np.cumprod(np.flipud(dims)[:-1]))];
    unitary/unitary_sequence_entry.py:108. *)
Fixpoint cumprod (acc : nat) (l : list nat) : list nat :=
  match l with
  | [] => []
  | x :: t => (acc * x)%nat :: cumprod (acc * x)%nat t
  end.
(** [fact]; unitary/unitary_sequence_entry.py:108-109. *)
Definition place_values (dims : list nat) : list nat :=
  1%nat :: cumprod 1 (removelast (rev dims)).

(** Dot product of a row with a column; [np.dot] at
    unitary/unitary_sequence_entry.py:110. *)
Fixpoint dotn (a b : list nat) : nat :=
  match a, b with
  | x :: s, y :: t => (x * y + dotn s t)%nat
  | _, _ => 0%nat
  end.

(** Insertion sort, for [np.sort] at unitary/unitary_sequence_entry.py:104. *)
Fixpoint insertn (x : nat) (l : list nat) : list nat :=
  match l with
  | [] => [x]
  | y :: t => if Nat.leb x y then x :: l else y :: insertn x t
  end.
(** [np.sort]; unitary/unitary_sequence_entry.py:104. *)
Definition sortn (l : list nat) : list nat := fold_right insertn [] l.

(** [np.all(a == b)] for arrays of one length; unitary/unitary_sequence_entry.py:104. *)
Fixpoint eqb_listn (a b : list nat) : bool :=
  match a, b with
  | [], [] => true
  | x :: s, y :: t => Nat.eqb x y && eqb_listn s t
  | _, _ => false
  end.

(** Element [counter] of [_perm_inds(dims, order)];
    unitary/unitary_sequence_entry.py:106-111. *)
Definition perm_ind (dims order : list nat) (counter : nat) : nat :=
  let sel := select_row order dims counter in
  let irev := map (fun x => (x - 1)%nat) (rev sel) in
  dotn irev (place_values dims).

(** [get_permute_matrix]; unitary/unitary_sequence_entry.py:57-131.
    [int(np.log2(d))] is [Nat.log2 d] (the rounding of [np.log2] is not
    modelled).  [coo_matrix] (127-129) raises [ValueError] when the number of
    rows differs from the number of indices.  The power at line 72 is exact here,
    which is what numpy computes for qubits up to 61; see ModelWide.v for the rest. *)
Definition get_permute_matrix (e : entry) (system_dimension : nat) : res mat :=
  do_ assert (Nat.leb (e_dim e) system_dimension);
  do_ assert (Nat.leb (2 ^ (list_maxn (e_apply e) + 1)) system_dimension);
  let num_system_qubits := Nat.log2 system_dimension in
  let order := permute_order num_system_qubits (e_apply e) in
  let dims := repeat 2%nat num_system_qubits in
  do_ assert (eqb_listn (sortn order) (seq 0 (List.length dims)));
  if Nat.eqb (prodn dims) system_dimension then
    Ok (fun r c => if Nat.eqb (perm_ind dims order r) c then RtoC 1 else RtoC 0)
  else Raise ValueError.

Section Entry.
(** The clean-up threshold, [1e-12] at unitary/unitary.py:70-71. *)
Variable eps : R.

(** The computation of a full unitary that is not in the cache;
    unitary/unitary_sequence_entry.py:151-167. *)
Definition compute_full_unitary (e : entry) (system_dimension : nat) : res unitary :=
  do expansion <- u_identity eps (system_dimension / e_dim e)%nat;
  do expanded_unitary <- u_tensor eps (e_unitary e) expansion;
  do_ assert (Nat.eqb (u_dim expanded_unitary) system_dimension);
  do permute_matrix <- get_permute_matrix e system_dimension;
  let full_matrix :=
    mmul system_dimension
      (mmul system_dimension permute_matrix (u_mat expanded_unitary))
      (transpose permute_matrix) in
  mk_unitary eps system_dimension (Some (square system_dimension full_matrix))
    (Some (u_name (e_unitary e))) (u_params (e_unitary e)) false (e_apply e).

(** Dictionary lookup; unitary/unitary_sequence_entry.py:150, 169. *)
Fixpoint cache_get (c : list (nat * unitary)) (d : nat) : option unitary :=
  match c with
  | [] => None
  | (k, u) :: t => if Nat.eqb k d then Some u else cache_get t d
  end.

(** [get_full_unitary]; unitary/unitary_sequence_entry.py:133-169. *)
Definition get_full_unitary (system_dimension : nat) : SE entry unitary :=
  fun e =>
    match assert (Nat.leb (e_dim e) system_dimension) with
    | Raise x => (e, Raise x)
    | Ok _ =>
      match cache_get (e_cache e) system_dimension with
      | Some u => (e, Ok u)
      | None =>
        match compute_full_unitary e system_dimension with
        | Raise x => (e, Raise x)
        | Ok u => ({| e_unitary := e_unitary e; e_apply := e_apply e;
                      e_cache := (system_dimension, u) :: e_cache e |}, Ok u)
        end
      end
    end.
End Entry.
