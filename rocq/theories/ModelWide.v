(** Model of the checks of qubit numbers as numpy computes them, in 64-bit
    integers, and of the methods that depend on them.  ModelEntry.v and
    ModelSequence.v compute [2 ** (np.max(...) + 1)] exactly; here the power wraps
    around, as [np.int64] does.  [np.max] of a list of Python integers below
    [2^63] is an [np.int64]; larger numbers (an [np.uint64] or a Python object) and
    the number [2^63 - 1] itself (adding 1 overflows) are not modelled.
    Definitions only. *)
From Coq Require Import Reals List Arith Bool String ZArith.
From Coquelicot Require Import Complex.
From Verif Require Import Base CMat Det CRoot ModelUnitary ModelEntry ModelSequence.
Import ListNotations.
Open Scope R_scope.
Open Scope C_scope.

(** The value of a 64-bit signed integer whose exact value would be [z];
    unitary/unitary_sequence_entry.py:72, unitary/unitary_sequence.py:90. *)
Definition wrap64 (z : Z) : Z := ((z + 2 ^ 63) mod 2 ^ 64 - 2 ^ 63)%Z.

(** [2 ** k] for an [np.int64] [k]; unitary/unitary_sequence_entry.py:72,
    unitary/unitary_sequence.py:90. *)
Definition np_pow2 (k : nat) : Z := wrap64 (2 ^ Z.of_nat k).

(** [2**(np.max(apply_to) + 1) <= dimension]; unitary/unitary_sequence_entry.py:72,
    unitary/unitary_sequence.py:90. *)
Definition fits64 (apply_to : list nat) (dimension : nat) : bool :=
  Z.leb (np_pow2 (list_maxn apply_to + 1)) (Z.of_nat dimension).

Open Scope res_scope.

(** [get_permute_matrix]; unitary/unitary_sequence_entry.py:57-131.  The assignment
    [permute_order[apply] = next_index] (117) raises [IndexError] when [apply] is
    not below the number of qubits. *)
Definition get_permute_matrix64 (e : entry) (system_dimension : nat) : res mat :=
  do_ assert (Nat.leb (e_dim e) system_dimension);
  do_ assert (fits64 (e_apply e) system_dimension);
  let num_system_qubits := Nat.log2 system_dimension in
  if forallb (fun q => Nat.ltb q num_system_qubits) (e_apply e) then
    let order := permute_order num_system_qubits (e_apply e) in
    let dims := repeat 2%nat num_system_qubits in
    do_ assert (eqb_listn (sortn order) (seq 0 (List.length dims)));
    if Nat.eqb (prodn dims) system_dimension then
      Ok (fun r c => if Nat.eqb (perm_ind dims order r) c then RtoC 1 else RtoC 0)
    else Raise ValueError
  else Raise IndexError.

(** [_assert_is_entry_valid]; unitary/unitary_sequence.py:79-90. *)
Definition entry_valid64 (dimension : nat) (e : entry) : bool :=
  Nat.leb (e_dim e) dimension && fits64 (e_apply e) dimension.

Section Wide.
(** The clean-up threshold, [1e-12] at unitary/unitary.py:70-71. *)
Variable eps : R.

(** The computation of a full unitary that is not in the cache;
    unitary/unitary_sequence_entry.py:151-167. *)
Definition compute_full_unitary64 (e : entry) (system_dimension : nat) : res unitary :=
  do expansion <- u_identity eps (system_dimension / e_dim e)%nat;
  do expanded_unitary <- u_tensor eps (e_unitary e) expansion;
  do_ assert (Nat.eqb (u_dim expanded_unitary) system_dimension);
  do permute_matrix <- get_permute_matrix64 e system_dimension;
  let full_matrix :=
    mmul system_dimension
      (mmul system_dimension permute_matrix (u_mat expanded_unitary))
      (transpose permute_matrix) in
  mk_unitary eps system_dimension (Some (square system_dimension full_matrix))
    (Some (u_name (e_unitary e))) (u_params (e_unitary e)) false (e_apply e).

(** [get_full_unitary]; unitary/unitary_sequence_entry.py:133-169. *)
Definition get_full_unitary64 (system_dimension : nat) : SE entry unitary :=
  fun e =>
    match assert (Nat.leb (e_dim e) system_dimension) with
    | Raise x => (e, Raise x)
    | Ok _ =>
      match cache_get (e_cache e) system_dimension with
      | Some u => (e, Ok u)
      | None =>
        match compute_full_unitary64 e system_dimension with
        | Raise x => (e, Raise x)
        | Ok u => ({| e_unitary := e_unitary e; e_apply := e_apply e;
                      e_cache := (system_dimension, u) :: e_cache e |}, Ok u)
        end
      end
    end.

Open Scope se_scope.

(** [UnitarySequence.__init__]; unitary/unitary_sequence.py:24-42. *)
Definition new_sequence64 (dimension : nat) (is_array : bool) (ls : list nat)
  : SE heap sequence :=
  fun h =>
    if forallb (fun l => entry_valid64 dimension (obj h l)) ls then
      let '(h', ls') := deepcopy h ls in
      (h', Ok {| s_dim := dimension; s_array := is_array; s_entries := ls'; s_product := None;
                 s_prev_entries := None; s_prev_product := None |})
    else (h, Raise AssertionError).

(** [entry.get_full_unitary(d)] on the object at [l];
    unitary/unitary_sequence.py:150, 174, 194, 214, 244. *)
Definition h_full64 (l d : nat) : SE heap unitary :=
  fun h => let '(e', r) := get_full_unitary64 d (obj h l) in (list_set h l e', r).

(** [_assert_is_entry_valid] on the object at [l]; unitary/unitary_sequence.py:79-90. *)
Definition m_assert_valid64 (l : nat) : meth unit :=
  fun st => (st, assert (entry_valid64 (s_dim (snd st)) (obj (fst st) l))).

(** [append_first]; unitary/unitary_sequence.py:130-152. *)
Definition append_first64 (l : nat) (save_undo : bool) : meth unit :=
  m_assert_valid64 l ;;;
  m_save eps save_undo ;;;
  m_change_list (fun ls => l :: ls) ;;;
  s <-- m_self ;;
  match s_product s with
  | Some p =>
      u <-- m_heap (h_full64 l (s_dim s)) ;;
      p' <-- se_lift (u_right_multiply eps p u) ;;
      m_upd (fun s => set_product s (Some p'))
  | None => se_ret tt
  end.

(** [append_last]; unitary/unitary_sequence.py:154-176. *)
Definition append_last64 (l : nat) (save_undo : bool) : meth unit :=
  m_assert_valid64 l ;;;
  m_save eps save_undo ;;;
  m_change_list (fun ls => ls ++ [l]) ;;;
  s <-- m_self ;;
  match s_product s with
  | Some p =>
      u <-- m_heap (h_full64 l (s_dim s)) ;;
      p' <-- se_lift (u_left_multiply eps p u) ;;
      m_upd (fun s => set_product s (Some p'))
  | None => se_ret tt
  end.

(** [remove_first]; unitary/unitary_sequence.py:178-196. *)
Definition remove_first64 (save_undo : bool) : meth unit :=
  s0 <-- m_self ;;
  match s_entries s0 with
  | [] => se_ret tt
  | l :: _ =>
      m_save eps save_undo ;;;
      m_change_list (@tl nat) ;;;
      s <-- m_self ;;
      match s_product s with
      | Some p =>
          u <-- m_heap (h_full64 l (s_dim s)) ;;
          ui <-- se_lift (u_inverse eps u) ;;
          p' <-- se_lift (u_right_multiply eps p ui) ;;
          m_upd (fun s => set_product s (Some p'))
      | None => se_ret tt
      end
  end.

(** [remove_last]; unitary/unitary_sequence.py:198-216. *)
Definition remove_last64 (save_undo : bool) : meth unit :=
  s0 <-- m_self ;;
  match rev (s_entries s0) with
  | [] => se_ret tt
  | l :: _ =>
      m_save eps save_undo ;;;
      m_change_list (@removelast nat) ;;;
      s <-- m_self ;;
      match s_product s with
      | Some p =>
          u <-- m_heap (h_full64 l (s_dim s)) ;;
          ui <-- se_lift (u_inverse eps u) ;;
          p' <-- se_lift (u_left_multiply eps p ui) ;;
          m_upd (fun s => set_product s (Some p'))
      | None => se_ret tt
      end
  end.

(** The loop of [product]; unitary/unitary_sequence.py:241-245. *)
Fixpoint product_loop64 (d : nat) (ls : list nat) (acc : unitary) : SE heap unitary :=
  match ls with
  | [] => se_ret acc
  | l :: t =>
      u <-- h_full64 l d ;;
      acc' <-- se_lift (u_left_multiply eps acc u) ;;
      product_loop64 d t acc'
  end.

(** [product]; unitary/unitary_sequence.py:231-248. *)
Definition product64 : meth unitary :=
  s <-- m_self ;;
  match s_product s with
  | Some p => se_ret p
  | None =>
      p0 <-- se_lift (mk_unitary eps (s_dim s) None None [] false []) ;;
      p <-- m_heap (product_loop64 (s_dim s) (s_entries s) p0) ;;
      m_upd (fun s => set_product s (Some p)) ;;;
      se_ret p
  end.

(** [inverse]; unitary/unitary_sequence.py:250-265. *)
Definition inverse64 : meth sequence :=
  s <-- m_self ;;
  ls <-- m_heap (h_deepcopy (s_entries s)) ;;
  i <-- m_heap (new_sequence64 (s_dim s) (s_array s) ls) ;;
  if s_array i then se_raise AttributeError
  else
    let i := set_entries i (rev (s_entries i)) in
    m_heap (invert_loop eps (s_entries i)) ;;;
    p <-- product64 ;;
    pi <-- se_lift (u_inverse eps p) ;;
    se_ret (set_product i (Some pi)).

(** The loop of [combine]; unitary/unitary_sequence.py:69-73. *)
Fixpoint combine_loop64 (ss : list nat) (ls : list nat) (p : unitary)
  : SE world (list nat * unitary) :=
  match ss with
  | [] => se_ret (ls, p)
  | s :: t =>
      ls' <-- on_seq s (q <-- m_self ;; m_heap (h_deepcopy (s_entries q))) ;;
      ps <-- on_seq s product64 ;;
      p' <-- se_lift (u_left_multiply eps p ps) ;;
      combine_loop64 t (ls ++ ls') p'
  end.

(** [combine]; unitary/unitary_sequence.py:44-77. *)
Definition combine64 (ss : list nat) : SE world sequence :=
  w <-- se_get ;;
  match ss with
  | [] => se_raise AssertionError
  | s0 :: _ =>
      match nth_error (w_seqs w) s0 with
      | None => se_raise IndexError
      | Some q0 =>
          se_assert (forallb (fun s => match nth_error (w_seqs w) s with
                                       | Some q => Nat.eqb (s_dim q) (s_dim q0)
                                       | None => false end) ss) ;;;
          p0 <-- se_lift (u_identity eps (s_dim q0)) ;;
          r <-- combine_loop64 ss [] p0 ;;
          c <-- on_heap (new_sequence64 (s_dim q0) false (fst r)) ;;
          se_ret (set_product c (Some (snd r)))
      end
  end.

(** One call.  unitary/unitary_sequence.py:24-265; for the entry constructor and
    [get_full_unitary], unitary/unitary_sequence_entry.py:21-36, 133-169. *)
Definition step64 (o : op) : SE world value :=
  match o with
  | NewEntry u qs =>
      fun w => match mk_entry u qs with
               | Ok e => ({| w_heap := w_heap w ++ [e]; w_seqs := w_seqs w |},
                          Ok (VEntry (List.length (w_heap w))))
               | Raise x => (w, Raise x)
               end
  | FullUnitary l d =>
      w <-- se_get ;;
      if Nat.ltb l (List.length (w_heap w))
      then u <-- on_heap (h_full64 l d) ;; se_ret (VUnitary u)
      else se_raise IndexError
  | NewSequence d ia ls =>
      w <-- se_get ;;
      if forallb (fun l => Nat.ltb l (List.length (w_heap w))) ls
      then q <-- on_heap (new_sequence64 d ia ls) ;; add_seq q
      else se_raise IndexError
  | AppendFirst s l sv =>
      w <-- se_get ;;
      if Nat.ltb l (List.length (w_heap w))
      then on_seq s (append_first64 l sv) ;;; se_ret VNone
      else se_raise IndexError
  | AppendLast s l sv =>
      w <-- se_get ;;
      if Nat.ltb l (List.length (w_heap w))
      then on_seq s (append_last64 l sv) ;;; se_ret VNone
      else se_raise IndexError
  | RemoveFirst s sv => on_seq s (remove_first64 sv) ;;; se_ret VNone
  | RemoveLast s sv => on_seq s (remove_last64 sv) ;;; se_ret VNone
  | Undo s => on_seq s undo ;;; se_ret VNone
  | Product s => u <-- on_seq s product64 ;; se_ret (VUnitary u)
  | Inverse s => q <-- on_seq s inverse64 ;; add_seq q
  | Combine ss => q <-- combine64 ss ;; add_seq q
  | GetEntries s =>
      ls <-- on_seq s (q <-- m_self ;; m_heap (h_deepcopy (s_entries q))) ;;
      se_ret (VEntries ls)
  end.

(** A program that goes on after exceptions; only the final state is kept.
    unitary/unitary_sequence.py, whole class. *)
Fixpoint exec64 (os : list op) (w : world) : world :=
  match os with
  | [] => w
  | o :: t => exec64 t (fst (step64 o w))
  end.

End Wide.
