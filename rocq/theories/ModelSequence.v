(** Model of stoqcompiler/unitary/unitary_sequence.py, with the store of
    [UnitarySequenceEntry] objects, and of programs using it.  Definitions only. *)
From Coq Require Import Reals List Arith Bool String ZArith.
From Coquelicot Require Import Complex.
From Verif Require Import Base CMat Det CRoot ModelUnitary ModelEntry.
Import ListNotations.
Open Scope R_scope.
Open Scope C_scope.
Open Scope se_scope.

(** The store of entry objects: an object's identity is its position.  Entry
    objects are shared by reference between the caller and sequences
    (unitary/unitary_sequence.py:148, 172). *)
Definition heap : Type := list entry.

(** Contents of a location that does not exist (never used by programs):
    a placeholder for the objects of unitary/unitary_sequence_entry.py:34-36. *)
Definition no_entry : entry :=
  {| e_unitary := {| u_dim := 0; u_mat := mid; u_name := ""; u_params := []; u_inv := false;
                     u_apply := [] |};
     e_apply := []; e_cache := [] |}.

(** The object at a location; unitary/unitary_sequence_entry.py:34-36. *)
Definition obj (h : heap) (l : nat) : entry := nth l h no_entry.

(** A [UnitarySequence] object; unitary/unitary_sequence.py:32-42.  [s_array]
    says that [sequence_entries] is a numpy array rather than a list (34-35). *)
Record sequence : Type := {
  s_dim : nat;
  s_array : bool;
  s_entries : list nat;
  s_product : option unitary;
  s_prev_entries : option (list nat);
  s_prev_product : option unitary }.

(** The memo of a [copy.deepcopy] call; unitary/unitary_sequence.py:38, 118, 124. *)
Fixpoint memo_get (m : list (nat * nat)) (l : nat) : option nat :=
  match m with
  | [] => None
  | (k, v) :: t => if Nat.eqb k l then Some v else memo_get t l
  end.

(** [copy.deepcopy] of a list of entries: every distinct object is copied once,
    so sharing inside the list is kept; unitary/unitary_sequence.py:38, 118, 124. *)
Fixpoint deepcopy_aux (h : heap) (memo : list (nat * nat)) (ls : list nat)
  : heap * list nat :=
  match ls with
  | [] => (h, [])
  | l :: t =>
      match memo_get memo l with
      | Some l' => let '(h', t') := deepcopy_aux h memo t in (h', l' :: t')
      | None =>
          let l' := List.length h in
          let '(h', t') := deepcopy_aux (h ++ [obj h l]) ((l, l') :: memo) t in
          (h', l' :: t')
      end
  end.
(** One deepcopy call; unitary/unitary_sequence.py:38, 118, 124. *)
Definition deepcopy (h : heap) (ls : list nat) : heap * list nat := deepcopy_aux h [] ls.

(** [_assert_is_entry_valid]; unitary/unitary_sequence.py:79-90.  The power at line
    90 is exact, as numpy's is for qubits up to 61; see ModelWide.v for the rest. *)
Definition entry_valid (dimension : nat) (e : entry) : bool :=
  Nat.leb (e_dim e) dimension && Nat.leb (2 ^ (list_maxn (e_apply e) + 1)) dimension.

(** [UnitarySequence.__init__]; unitary/unitary_sequence.py:24-42. *)
Definition new_sequence (dimension : nat) (is_array : bool) (ls : list nat)
  : SE heap sequence :=
  fun h =>
    if forallb (fun l => entry_valid dimension (obj h l)) ls then
      let '(h', ls') := deepcopy h ls in
      (h', Ok {| s_dim := dimension; s_array := is_array; s_entries := ls'; s_product := None;
                 s_prev_entries := None; s_prev_product := None |})
    else (h, Raise AssertionError).

(** Assignments to the attributes of a sequence;
    unitary/unitary_sequence.py:124, 126, 148, 151, 225-229, 246, 264. *)
Definition set_entries (s : sequence) (ls : list nat) : sequence :=
  {| s_dim := s_dim s; s_array := s_array s; s_entries := ls; s_product := s_product s;
     s_prev_entries := s_prev_entries s; s_prev_product := s_prev_product s |}.
(** [self.sequence_product = ...]; unitary/unitary_sequence.py:76, 151, 175, 246, 264. *)
Definition set_product (s : sequence) (p : option unitary) : sequence :=
  {| s_dim := s_dim s; s_array := s_array s; s_entries := s_entries s; s_product := p;
     s_prev_entries := s_prev_entries s; s_prev_product := s_prev_product s |}.
(** [self.previous_entries = ...]; unitary/unitary_sequence.py:124. *)
Definition set_prev_entries (s : sequence) (ls : option (list nat)) : sequence :=
  {| s_dim := s_dim s; s_array := s_array s; s_entries := s_entries s; s_product := s_product s;
     s_prev_entries := ls; s_prev_product := s_prev_product s |}.
(** [self.previous_sequence_product = ...]; unitary/unitary_sequence.py:126-128. *)
Definition set_prev_product (s : sequence) (p : option unitary) : sequence :=
  {| s_dim := s_dim s; s_array := s_array s; s_entries := s_entries s; s_product := s_product s;
     s_prev_entries := s_prev_entries s; s_prev_product := p |}.

(** A method call runs on the store and the object it is called on;
    unitary/unitary_sequence.py:120-248. *)
Definition meth (A : Type) : Type := SE (heap * sequence) A.

(** Access to the parts of the state; unitary/unitary_sequence.py:120-248. *)
Definition m_self : meth sequence := fun st => (st, Ok (snd st)).
(** Assignment to [self]; unitary/unitary_sequence.py:120-248. *)
Definition m_upd (f : sequence -> sequence) : meth unit :=
  fun st => ((fst st, f (snd st)), Ok tt).
(** A computation on the store alone; unitary/unitary_sequence.py:124, 150. *)
Definition m_heap {A} (m : SE heap A) : meth A :=
  fun st => let '(h', r) := m (fst st) in ((h', snd st), r).

Section Sequence.
(** The clean-up threshold, [1e-12] at unitary/unitary.py:70-71. *)
Variable eps : R.

(** [entry.get_full_unitary(d)] on the object at [l];
    unitary/unitary_sequence.py:150, 174, 194, 214, 244. *)
Definition h_full (l d : nat) : SE heap unitary :=
  fun h => let '(e', r) := get_full_unitary eps d (obj h l) in (list_set h l e', r).

(** [copy.deepcopy] as a step on the store; unitary/unitary_sequence.py:118, 124. *)
Definition h_deepcopy (ls : list nat) : SE heap (list nat) :=
  fun h => let '(h', ls') := deepcopy h ls in (h', Ok ls').

(** [_assert_is_entry_valid] on the object at [l]; unitary/unitary_sequence.py:79-90. *)
Definition m_assert_valid (l : nat) : meth unit :=
  fun st => (st, assert (entry_valid (s_dim (snd st)) (obj (fst st) l))).

(** [_save_undo_state]; unitary/unitary_sequence.py:120-128.  The previous
    product is only written when there is a current product. *)
Definition save_undo_state : meth unit :=
  s <-- m_self ;;
  ls <-- m_heap (h_deepcopy (s_entries s)) ;;
  m_upd (fun s => set_prev_entries s (Some ls)) ;;;
  match s_product s with
  | Some p =>
      p' <-- se_lift (mk_unitary eps (u_dim p) (Some (square (u_dim p) (u_mat p))) None [] false []) ;;
      m_upd (fun s => set_prev_product s (Some p'))
  | None => se_ret tt
  end.

(** Changing the list in place; numpy arrays have no [insert], [append], [pop]
    or [reverse]: [AttributeError]; unitary/unitary_sequence.py:148, 172, 192, 212, 260. *)
Definition m_change_list (f : list nat -> list nat) : meth unit :=
  s <-- m_self ;;
  if s_array s then se_raise AttributeError
  else m_upd (fun s => set_entries s (f (s_entries s))).

(** [if save_undo: self._save_undo_state()]; unitary/unitary_sequence.py:146-147,
    170-171, 190-191, 210-211. *)
Definition m_save (save_undo : bool) : meth unit :=
  if save_undo then save_undo_state else se_ret tt.

(** [append_first]; unitary/unitary_sequence.py:130-152. *)
Definition append_first (l : nat) (save_undo : bool) : meth unit :=
  m_assert_valid l ;;;
  m_save save_undo ;;;
  m_change_list (fun ls => l :: ls) ;;;
  s <-- m_self ;;
  match s_product s with
  | Some p =>
      u <-- m_heap (h_full l (s_dim s)) ;;
      p' <-- se_lift (u_right_multiply eps p u) ;;
      m_upd (fun s => set_product s (Some p'))
  | None => se_ret tt
  end.

(** [append_last]; unitary/unitary_sequence.py:154-176. *)
Definition append_last (l : nat) (save_undo : bool) : meth unit :=
  m_assert_valid l ;;;
  m_save save_undo ;;;
  m_change_list (fun ls => ls ++ [l]) ;;;
  s <-- m_self ;;
  match s_product s with
  | Some p =>
      u <-- m_heap (h_full l (s_dim s)) ;;
      p' <-- se_lift (u_left_multiply eps p u) ;;
      m_upd (fun s => set_product s (Some p'))
  | None => se_ret tt
  end.

(** [remove_first]; unitary/unitary_sequence.py:178-196. *)
Definition remove_first (save_undo : bool) : meth unit :=
  s0 <-- m_self ;;
  match s_entries s0 with
  | [] => se_ret tt
  | l :: _ =>
      m_save save_undo ;;;
      m_change_list (@tl nat) ;;;
      s <-- m_self ;;
      match s_product s with
      | Some p =>
          u <-- m_heap (h_full l (s_dim s)) ;;
          ui <-- se_lift (u_inverse eps u) ;;
          p' <-- se_lift (u_right_multiply eps p ui) ;;
          m_upd (fun s => set_product s (Some p'))
      | None => se_ret tt
      end
  end.

(** [remove_last]; unitary/unitary_sequence.py:198-216. *)
Definition remove_last (save_undo : bool) : meth unit :=
  s0 <-- m_self ;;
  match rev (s_entries s0) with
  | [] => se_ret tt
  | l :: _ =>
      m_save save_undo ;;;
      m_change_list (@removelast nat) ;;;
      s <-- m_self ;;
      match s_product s with
      | Some p =>
          u <-- m_heap (h_full l (s_dim s)) ;;
          ui <-- se_lift (u_inverse eps u) ;;
          p' <-- se_lift (u_left_multiply eps p ui) ;;
          m_upd (fun s => set_product s (Some p'))
      | None => se_ret tt
      end
  end.

(** [undo]; unitary/unitary_sequence.py:218-229. *)
Definition undo : meth unit :=
  s <-- m_self ;;
  match s_prev_entries s with
  | None => se_raise AssertionError
  | Some ls =>
      m_upd (fun s => {| s_dim := s_dim s; s_array := s_array s; s_entries := ls;
                         s_product := s_prev_product s; s_prev_entries := None;
                         s_prev_product := None |})
  end.

(** The loop of [product]; unitary/unitary_sequence.py:241-245. *)
Fixpoint product_loop (d : nat) (ls : list nat) (acc : unitary) : SE heap unitary :=
  match ls with
  | [] => se_ret acc
  | l :: t =>
      u <-- h_full l d ;;
      acc' <-- se_lift (u_left_multiply eps acc u) ;;
      product_loop d t acc'
  end.

(** [product]; unitary/unitary_sequence.py:231-248. *)
Definition product : meth unitary :=
  s <-- m_self ;;
  match s_product s with
  | Some p => se_ret p
  | None =>
      p0 <-- se_lift (mk_unitary eps (s_dim s) None None [] false []) ;;
      p <-- m_heap (product_loop (s_dim s) (s_entries s) p0) ;;
      m_upd (fun s => set_product s (Some p)) ;;;
      se_ret p
  end.

(** The loop of [inverse] over the copied entries, in place;
    unitary/unitary_sequence.py:261-263. *)
Fixpoint invert_loop (ls : list nat) : SE heap unit :=
  match ls with
  | [] => se_ret tt
  | l :: t =>
      h <-- se_get ;;
      ui <-- se_lift (u_inverse eps (e_unitary (obj h l))) ;;
      se_put (list_set h l {| e_unitary := ui; e_apply := e_apply (obj h l); e_cache := [] |}) ;;;
      invert_loop t
  end.

(** [inverse]; unitary/unitary_sequence.py:250-265. *)
Definition inverse : meth sequence :=
  s <-- m_self ;;
  ls <-- m_heap (h_deepcopy (s_entries s)) ;;
  i <-- m_heap (new_sequence (s_dim s) (s_array s) ls) ;;
  if s_array i then se_raise AttributeError
  else
    let i := set_entries i (rev (s_entries i)) in
    m_heap (invert_loop (s_entries i)) ;;;
    p <-- product ;;
    pi <-- se_lift (u_inverse eps p) ;;
    se_ret (set_product i (Some pi)).

(** * Programs *)

(** All objects a program can reach: the store of entries and the sequences
    created so far (unitary/unitary_sequence.py, whole class). *)
Record world : Type := { w_heap : heap; w_seqs : list sequence }.

(** What a call returns; unitary/unitary_sequence.py, return values. *)
Inductive value : Type :=
  | VNone
  | VEntry (l : nat)
  | VEntries (ls : list nat)
  | VSequence (s : nat)
  | VUnitary (u : unitary).

(** The calls a program can make.  Objects are named by their position.
    unitary/unitary_sequence.py:24-265, unitary/unitary_sequence_entry.py:21-36, 133-169. *)
Inductive op : Type :=
  | NewEntry (u : unitary) (apply_to : list Z)
  | FullUnitary (l d : nat)
  | NewSequence (d : nat) (is_array : bool) (ls : list nat)
  | AppendFirst (s l : nat) (save_undo : bool)
  | AppendLast (s l : nat) (save_undo : bool)
  | RemoveFirst (s : nat) (save_undo : bool)
  | RemoveLast (s : nat) (save_undo : bool)
  | Undo (s : nat)
  | Product (s : nat)
  | Inverse (s : nat)
  | Combine (ss : list nat)
  | GetEntries (s : nat).

(** A call of a method on sequence number [s]; unitary/unitary_sequence.py:111-265.
    (A program cannot name an object that does not exist: no effect.) *)
Definition on_seq {A} (s : nat) (m : meth A) : SE world A :=
  fun w =>
    match nth_error (w_seqs w) s with
    | None => (w, Raise IndexError)
    | Some q =>
        let '((h', q'), r) := m (w_heap w, q) in
        ({| w_heap := h'; w_seqs := list_set (w_seqs w) s q' |}, r)
    end.

(** A new object becomes reachable; unitary/unitary_sequence.py:24-42, 75, 258. *)
Definition add_seq (q : sequence) : SE world value :=
  fun w => ({| w_heap := w_heap w; w_seqs := w_seqs w ++ [q] |},
            Ok (VSequence (List.length (w_seqs w)))).

(** A step on the store alone; unitary/unitary_sequence.py:24-42. *)
Definition on_heap {A} (m : SE heap A) : SE world A :=
  fun w => let '(h', r) := m (w_heap w) in ({| w_heap := h'; w_seqs := w_seqs w |}, r).

(** The loop of [combine]; unitary/unitary_sequence.py:69-73. *)
Fixpoint combine_loop (ss : list nat) (ls : list nat) (p : unitary)
  : SE world (list nat * unitary) :=
  match ss with
  | [] => se_ret (ls, p)
  | s :: t =>
      ls' <-- on_seq s (q <-- m_self ;; m_heap (h_deepcopy (s_entries q))) ;;
      ps <-- on_seq s product ;;
      p' <-- se_lift (u_left_multiply eps p ps) ;;
      combine_loop t (ls ++ ls') p'
  end.

(** [combine]; unitary/unitary_sequence.py:44-77. *)
Definition combine (ss : list nat) : SE world sequence :=
  w <-- se_get ;;
  match ss with
  | [] => se_raise AssertionError
  | s0 :: _ =>
      match nth_error (w_seqs w) s0 with
      | None => se_raise IndexError
      | Some q0 =>
          se_assert (forallb (fun s => match nth_error (w_seqs w) s with
                                       | Some q => Nat.eqb (s_dim q) (s_dim q0)
                                       | None => false end) ss) ;;;
          p0 <-- se_lift (u_identity eps (s_dim q0)) ;;
          r <-- combine_loop ss [] p0 ;;
          c <-- on_heap (new_sequence (s_dim q0) false (fst r)) ;;
          se_ret (set_product c (Some (snd r)))
      end
  end.

(** One call.  unitary/unitary_sequence.py:24-265; for the entry constructor and
    [get_full_unitary], unitary/unitary_sequence_entry.py:21-36, 133-169. *)
Definition step (o : op) : SE world value :=
  match o with
  | NewEntry u qs =>
      fun w => match mk_entry u qs with
               | Ok e => ({| w_heap := w_heap w ++ [e]; w_seqs := w_seqs w |},
                          Ok (VEntry (List.length (w_heap w))))
               | Raise x => (w, Raise x)
               end
  | FullUnitary l d =>
      w <-- se_get ;;
      if Nat.ltb l (List.length (w_heap w))
      then u <-- on_heap (h_full l d) ;; se_ret (VUnitary u)
      else se_raise IndexError
  | NewSequence d ia ls =>
      w <-- se_get ;;
      if forallb (fun l => Nat.ltb l (List.length (w_heap w))) ls
      then q <-- on_heap (new_sequence d ia ls) ;; add_seq q
      else se_raise IndexError
  | AppendFirst s l sv =>
      w <-- se_get ;;
      if Nat.ltb l (List.length (w_heap w))
      then on_seq s (append_first l sv) ;;; se_ret VNone
      else se_raise IndexError
  | AppendLast s l sv =>
      w <-- se_get ;;
      if Nat.ltb l (List.length (w_heap w))
      then on_seq s (append_last l sv) ;;; se_ret VNone
      else se_raise IndexError
  | RemoveFirst s sv => on_seq s (remove_first sv) ;;; se_ret VNone
  | RemoveLast s sv => on_seq s (remove_last sv) ;;; se_ret VNone
  | Undo s => on_seq s undo ;;; se_ret VNone
  | Product s => u <-- on_seq s product ;; se_ret (VUnitary u)
  | Inverse s => q <-- on_seq s inverse ;; add_seq q
  | Combine ss => q <-- combine ss ;; add_seq q
  | GetEntries s =>
      ls <-- on_seq s (q <-- m_self ;; m_heap (h_deepcopy (s_entries q))) ;;
      se_ret (VEntries ls)
  end.

(** A program that goes on after exceptions; only the final state is kept.
    unitary/unitary_sequence.py, whole class. *)
Fixpoint exec (os : list op) (w : world) : world :=
  match os with
  | [] => w
  | o :: t => exec t (fst (step o w))
  end.

End Sequence.

(** Before any object exists (unitary/unitary_sequence.py, whole class). *)
Definition w_empty : world := {| w_heap := []; w_seqs := [] |}.
