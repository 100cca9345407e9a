(** Model of the [Unitary] constructor, its products, the full unitary of an entry
    and the product kept by a [UnitarySequence], computed with an arbitrary (inexact)
    matrix arithmetic in place of the exact one of ModelUnitary.v.  Definitions only.

    Numbers are still reals; what numpy does to them is given by the functions of the
    record [arith].  Not rounded, because these steps are exact in floating point:
    clearing components (a comparison and an assignment of 0), the conjugate transpose,
    and the two products with a permutation matrix (0/1 entries, one per row and column,
    so every entry of the result is one entry of the operand). *)
From Coq Require Import Reals List Arith Bool String.
From Coquelicot Require Import Complex.
From Verif Require Import Base CMat Det CRoot ModelUnitary ModelEntry.
Import ListNotations.
Open Scope R_scope.
Open Scope C_scope.
Open Scope res_scope.

(** The operations of numpy that round, as used by the library:
    [a_mul n A B] is [A @ B] for [n] by [n] arrays (unitary/unitary.py:75, 324, 341, 356),
    [a_kron k A B] is [np.kron(A, B)] with [B] of size [k] (unitary/unitary.py:276),
    [a_close n A B] is [np.allclose(A, B)] (unitary/unitary.py:75),
    [a_det n A] is [np.linalg.det(A)] and [a_root n z] is [(1 / z) ** (1 / n)]
    (unitary/unitary.py:79), [a_scale c A] is [c * A] (unitary/unitary.py:80) and
    [a_dist n A] is [1.0 - np.linalg.norm(np.trace(A)) / n] (unitary/unitary.py:325-327). *)
Record arith : Type := {
  a_mul : nat -> mat -> mat -> mat;
  a_kron : nat -> mat -> mat -> mat;
  a_close : nat -> mat -> mat -> bool;
  a_det : nat -> mat -> C;
  a_root : nat -> C -> C;
  a_scale : C -> mat -> mat;
  a_dist : nat -> mat -> R }.

(** Exact arithmetic: with it the definitions below are those of ModelUnitary.v and
    ModelEntry.v (unitary/unitary.py:75-80, 276, 324-327). *)
Definition exact_arith : arith :=
  {| a_mul := mmul; a_kron := kron; a_close := allclose; a_det := det;
     a_root := fun n z => croot n (/ z); a_scale := mscale;
     a_dist := fun n A => (1 - Cmod (mtrace n A) / INR n)%R |}.

Section Round.
(** The arithmetic and the clean-up threshold ([1e-12] at unitary/unitary.py:70-71). *)
Variable ar : arith.
Variable eps : R.

(** [Unitary.__init__]; unitary/unitary.py:34-82, as [mk_unitary]. *)
Definition r_unitary (dimension : nat) (matrix : option ndarray)
    (operation_name : option string) (parameter_dict : param_dict)
    (is_inverse : bool) (apply_to : list nat) : res unitary :=
  do_ assert (Nat.ltb 0 dimension);
  let a := match matrix with
           | Some a => a
           | None => square dimension mid
           end in
  let m := clean eps (elt a) in
  do_ assert (Nat.eqb (nrows a) dimension && Nat.eqb (ncols a) dimension);
  do_ assert (a_close ar dimension (a_mul ar dimension m (adj m)) mid);
  let d := a_det ar dimension m in
  if Ceq_dec d 0 then Raise NonFinite else
  Ok {| u_dim := dimension;
        u_mat := a_scale ar (a_root ar dimension d) m;
        u_name := match operation_name with Some s => s | None => "U"%string end;
        u_params := parameter_dict;
        u_inv := is_inverse;
        u_apply := apply_to |}.

(** [Unitary.identity]; unitary/unitary.py:84-96. *)
Definition r_identity (dimension : nat) : res unitary :=
  r_unitary dimension (Some (square dimension mid)) (Some "I"%string) [] false [].

(** [Unitary.inverse]; unitary/unitary.py:243-254. *)
Definition r_inverse (u : unitary) : res unitary :=
  r_unitary (u_dim u) (Some (square (u_dim u) (adj (u_mat u))))
    (Some (u_name u)) (u_params u) (negb (u_inv u)) (u_apply u).

(** [Unitary.tensor]; unitary/unitary.py:256-277. *)
Definition r_tensor (u v : unitary) : res unitary :=
  r_unitary (u_dim v * u_dim u)%nat
    (Some (square (u_dim u * u_dim v) (a_kron ar (u_dim v) (u_mat u) (u_mat v))))
    (Some (u_name u ++ "--" ++ u_name v)%string) (u_params u) false (u_apply u).

(** [Unitary.left_multiply]; unitary/unitary.py:329-342. *)
Definition r_left_multiply (u factor : unitary) : res unitary :=
  do_ assert (Nat.eqb (u_dim u) (u_dim factor));
  r_unitary (u_dim u)
    (Some (square (u_dim u) (a_mul ar (u_dim u) (u_mat factor) (u_mat u)))) None [] false [].

(** [Unitary.right_multiply]; unitary/unitary.py:344-357. *)
Definition r_right_multiply (u factor : unitary) : res unitary :=
  do_ assert (Nat.eqb (u_dim u) (u_dim factor));
  r_unitary (u_dim u)
    (Some (square (u_dim u) (a_mul ar (u_dim u) (u_mat u) (u_mat factor)))) None [] false [].

(** [Unitary.distance_from] with a [Unitary]; unitary/unitary.py:305-327. *)
Definition r_distance_from (u v : unitary) : res R :=
  do_ assert (Nat.eqb (u_dim v) (u_dim u));
  do i <- r_inverse u;
  Ok (a_dist ar (u_dim u) (a_mul ar (u_dim u) (u_mat i) (u_mat v))).

(** [get_full_unitary]; unitary/unitary_sequence_entry.py:133-169.  The cache is left
    out: it returns the object computed by the first call, and the computation is
    deterministic. *)
Definition r_full (g : unitary * list nat) (system_dimension : nat) : res unitary :=
  let e := {| e_unitary := fst g; e_apply := snd g; e_cache := [] |} in
  do_ assert (Nat.leb (u_dim (fst g)) system_dimension);
  do expansion <- r_identity (system_dimension / u_dim (fst g))%nat;
  do expanded_unitary <- r_tensor (fst g) expansion;
  do_ assert (Nat.eqb (u_dim expanded_unitary) system_dimension);
  do permute_matrix <- get_permute_matrix e system_dimension;
  let full_matrix :=
    mmul system_dimension
      (mmul system_dimension permute_matrix (u_mat expanded_unitary))
      (transpose permute_matrix) in
  r_unitary system_dimension (Some (square system_dimension full_matrix))
    (Some (u_name (fst g))) (u_params (fst g)) false (snd g).

(** The state of a [UnitarySequence] of dimension [2^n]: entries (gate, qubits), kept
    product, and the undo state; unitary/unitary_sequence.py:24-42.  The aliasing of
    entry objects is the subject of ModelSequence.v and left out here. *)
Record rseq : Type := {
  rs_dim : nat;
  rs_entries : list (unitary * list nat);
  rs_product : option unitary;
  rs_prev : option (list (unitary * list nat));
  rs_prev_product : option unitary }.

(** The methods; unitary/unitary_sequence.py:130-248. *)
Inductive rop : Type :=
| RFirst (g : unitary * list nat) (save_undo : bool)
| RLast (g : unitary * list nat) (save_undo : bool)
| RPopFirst (save_undo : bool)
| RPopLast (save_undo : bool)
| RUndo
| RProduct.

(** A new empty sequence; unitary/unitary_sequence.py:24-42. *)
Definition r_empty (dimension : nat) : rseq :=
  {| rs_dim := dimension; rs_entries := []; rs_product := None; rs_prev := None;
     rs_prev_product := None |}.

(** [_save_undo_state] (unitary/unitary_sequence.py:120-128), when asked for. *)
Definition r_save (save_undo : bool) (q : rseq) : res rseq :=
  if save_undo then
    do pp <- match rs_product q with
             | Some p => do p' <- r_unitary (u_dim p) (Some (square (u_dim p) (u_mat p))) None [] false [];
                         Ok (Some p')
             | None => Ok (rs_prev_product q)
             end;
    Ok {| rs_dim := rs_dim q; rs_entries := rs_entries q; rs_product := rs_product q;
          rs_prev := Some (rs_entries q); rs_prev_product := pp |}
  else Ok q.

(** The update of entries and kept product at the end of [append_first],
    [append_last], [remove_first], [remove_last]; unitary/unitary_sequence.py:148-152,
    172-176, 192-196, 212-216. *)
Definition r_set (q : rseq) (es : list (unitary * list nat)) (upd : unitary -> res unitary) : res rseq :=
  do p' <- match rs_product q with
           | Some p => do x <- upd p; Ok (Some x)
           | None => Ok None
           end;
  Ok {| rs_dim := rs_dim q; rs_entries := es; rs_product := p';
        rs_prev := rs_prev q; rs_prev_product := rs_prev_product q |}.

(** The loop of [product]; unitary/unitary_sequence.py:241-246. *)
Fixpoint r_fold (dimension : nat) (es : list (unitary * list nat)) (p : unitary) : res unitary :=
  match es with
  | [] => Ok p
  | g :: t => do f <- r_full g dimension; do p' <- r_left_multiply p f; r_fold dimension t p'
  end.

(** [product]; unitary/unitary_sequence.py:231-248. *)
Definition r_product (q : rseq) : res unitary :=
  match rs_product q with
  | Some p => Ok p
  | None => do p <- r_unitary (rs_dim q) None None [] false []; r_fold (rs_dim q) (rs_entries q) p
  end.

(** [_assert_is_entry_valid]; unitary/unitary_sequence.py:79-90. *)
Definition r_valid (q : rseq) (g : unitary * list nat) : bool :=
  Nat.leb (u_dim (fst g)) (rs_dim q) && Nat.leb (2 ^ (list_maxn (snd g) + 1)) (rs_dim q).

(** One method call; unitary/unitary_sequence.py:130-248. *)
Definition r_step (q : rseq) (o : rop) : res rseq :=
  match o with
  | RFirst g s =>
      do_ assert (r_valid q g);
      do q1 <- r_save s q;
      r_set q1 (g :: rs_entries q1) (fun p => do f <- r_full g (rs_dim q); r_right_multiply p f)
  | RLast g s =>
      do_ assert (r_valid q g);
      do q1 <- r_save s q;
      r_set q1 (rs_entries q1 ++ [g]) (fun p => do f <- r_full g (rs_dim q); r_left_multiply p f)
  | RPopFirst s =>
      match rs_entries q with
      | [] => Ok q
      | g :: t =>
          do q1 <- r_save s q;
          r_set q1 t (fun p => do f <- r_full g (rs_dim q); do i <- r_inverse f; r_right_multiply p i)
      end
  | RPopLast s =>
      match rev (rs_entries q) with
      | [] => Ok q
      | g :: t =>
          do q1 <- r_save s q;
          r_set q1 (rev t) (fun p => do f <- r_full g (rs_dim q); do i <- r_inverse f; r_left_multiply p i)
      end
  | RUndo =>
      match rs_prev q with
      | None => Raise AssertionError
      | Some es => Ok {| rs_dim := rs_dim q; rs_entries := es; rs_product := rs_prev_product q;
                         rs_prev := None; rs_prev_product := None |}
      end
  | RProduct =>
      do p <- r_product q;
      Ok {| rs_dim := rs_dim q; rs_entries := rs_entries q; rs_product := Some p;
            rs_prev := rs_prev q; rs_prev_product := rs_prev_product q |}
  end.

(** A sequence of method calls, stopping at the first exception; unitary/unitary_sequence.py:130-248. *)
Fixpoint r_run (q : rseq) (ops : list rop) : res rseq :=
  match ops with
  | [] => Ok q
  | o :: t => do q' <- r_step q o; r_run q' t
  end.
End Round.
