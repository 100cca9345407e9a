(** Vocabulary of the property statements that talks about API objects. *)
From Coq Require Import Reals List Arith Bool String ZArith.
From Coquelicot Require Import Complex.
From Verif Require Import Base CMat Det ModelUnitary ModelEntry ModelSequence Spec.
Import ListNotations.
Open Scope R_scope.
Open Scope C_scope.

(** [u] was returned by the constructor [Unitary(d, M, ...)] for an exactly
    unitary [M] without components in (0, eps). *)
Definition built (eps : R) (u : unitary) : Prop :=
  exists d M nm ps iv ap,
    unitary_mx d M /\ eps_clean eps d M /\
    mk_unitary eps d (Some (square d M)) nm ps iv ap = Ok u.

(** The same for any exactly unitary [M]. *)
Definition made_from (eps : R) (u : unitary) : Prop :=
  exists d M nm ps iv ap,
    unitary_mx d M /\ mk_unitary eps d (Some (square d M)) nm ps iv ap = Ok u.

(** A matrix a program has: an exact unitary, or the stored matrix of a [Unitary]
    made from one. *)
Definition at_hand (eps : R) (d : nat) (M : mat) : Prop :=
  unitary_mx d M \/ exists v, made_from eps v /\ u_dim v = d /\ u_mat v = M.

(** [u] is the result of a successful constructor call on such a matrix. *)
Definition made (eps : R) (u : unitary) : Prop :=
  exists d M nm ps iv ap,
    at_hand eps d M /\ mk_unitary eps d (Some (square d M)) nm ps iv ap = Ok u.

(** 2 by 2 matrices for the concrete cases. *)
Definition mat22 (a b c d : C) : mat :=
  fun i j => match i, j with
             | O, O => a | O, S O => b | S O, O => c | S O, S O => d
             | _, _ => 0 end.

(** A non-trivial rational rotation. *)
Definition rot345 : mat := mat22 (RtoC (3/5)) (RtoC (-(4/5))) (RtoC (4/5)) (RtoC (3/5)).
(** Pauli Y times the phase [i]. *)
Definition pauli_y : mat := mat22 0 (- Ci) Ci 0.

(** [f] is what [UnitarySequenceEntry(u, qs).get_full_unitary(2**n)] returns. *)
Definition full_of (eps : R) (u : unitary) (qs : list nat) (n : nat) (f : unitary) : Prop :=
  exists e, mk_entry u (map Z.of_nat qs) = Ok e /\ snd (get_full_unitary eps (2 ^ n) e) = Ok f.

(** The answers to a history of [get_full_unitary] calls on one entry object. *)
Fixpoint full_answers (eps : R) (ds : list nat) (e : entry) : list (res unitary) :=
  match ds with
  | [] => []
  | d :: t => let '(e', r) := get_full_unitary eps d e in r :: full_answers eps t e'
  end.

(** The ordered product of gates [(u, qubits)] on [n] qubits: the first gate of
    the list is applied first, i.e. is the rightmost factor. *)
Definition ordered (n : nat) (gs : list (unitary * list nat)) : mat :=
  fold_left (fun P g => mmul (2 ^ n) (embed n (snd g) (u_mat (fst g))) P) gs mid.

(** What sequence number [s] contains: its gates with their qubits, in order. *)
Definition contents (w : world) (s : nat) : list (unitary * list nat) :=
  match nth_error (w_seqs w) s with
  | Some q => map (fun l => (e_unitary (obj (w_heap w) l), e_apply (obj (w_heap w) l))) (s_entries q)
  | None => []
  end.

(** Sequence number [s] exists and has dimension [d]. *)
Definition has_dim (w : world) (s d : nat) : Prop :=
  exists q, nth_error (w_seqs w) s = Some q /\ s_dim q = d.

(** Every entry object occurs an odd number of times in sequence number [s]: once,
    when no object is repeated. *)
Definition odd_entries (w : world) (s : nat) : Prop :=
  forall q, nth_error (w_seqs w) s = Some q ->
  forall l, In l (s_entries q) -> Nat.odd (count_occ Nat.eq_dec (s_entries q) l) = true.

(** What the call [product()] of sequence number [s] answers. *)
Definition answers (eps : R) (w : world) (s : nat) (p : unitary) : Prop :=
  snd (step eps (Product s) w) = Ok (VUnitary p).

(** A history of calls, starting in [w], whose gates satisfy [gate_ok] and which
    inverts only sequences that satisfy [inv_ok]. *)
Fixpoint history (eps : R) (gate_ok : unitary -> Prop) (inv_ok : world -> nat -> Prop)
    (os : list op) (w : world) : Prop :=
  match os with
  | [] => True
  | o :: t =>
      match o with
      | NewEntry u _ => gate_ok u
      | Inverse s => inv_ok w s
      | _ => True
      end /\ history eps gate_ok inv_ok t (fst (step eps o w))
  end.

(** The largest number of product updates any sequence went through in a
    history, when the sequences there were at most [K] before. *)
Fixpoint updates (os : list op) (K : nat) : nat :=
  match os with
  | [] => K
  | o :: t =>
      updates t
        match o with
        | AppendFirst _ _ _ | AppendLast _ _ _ | RemoveFirst _ _ | RemoveLast _ _ | Inverse _ => S K
        | NewSequence _ _ ls => Nat.max K (List.length ls)
        | Combine ss => Nat.max K (List.length ss * S K)
        | _ => K
        end
  end.

(** The entry object number [l] fits into a system of dimension [d]. *)
Definition fits (w : world) (d l : nat) : Prop :=
  (u_dim (e_unitary (obj (w_heap w) l)) <= d)%nat /\
  forall q, In q (e_apply (obj (w_heap w) l)) -> (2 ^ (q + 1) <= d)%nat.

(** The call [o] takes the snapshot that [undo()] of sequence [s] restores. *)
Definition saves (w : world) (s : nat) (o : op) : Prop :=
  match o with
  | AppendFirst s' l sv | AppendLast s' l sv =>
      s' = s /\ sv = true /\ (l < List.length (w_heap w))%nat /\
      exists d, has_dim w s d /\ fits w d l
  | RemoveFirst s' sv | RemoveLast s' sv => s' = s /\ sv = true /\ contents w s <> []
  | _ => False
  end.

(** The call [o] neither takes nor uses up the snapshot of sequence [s]. *)
Definition quiet (w : world) (s : nat) (o : op) : Prop :=
  match o with
  | AppendFirst s' _ sv | AppendLast s' _ sv => s' <> s \/ sv = false
  | RemoveFirst s' sv | RemoveLast s' sv => s' <> s \/ sv = false \/ contents w s = []
  | Undo s' => s' <> s
  | _ => True
  end.

(** A history of such calls. *)
Fixpoint quiet_history (eps : R) (s : nat) (os : list op) (w : world) : Prop :=
  match os with
  | [] => True
  | o :: t => quiet w s o /\ quiet_history eps s t (fst (step eps o w))
  end.

(** The call is an append, remove or undo on sequence number [t]. *)
Definition mutates (o : op) (t : nat) : bool :=
  match o with
  | AppendFirst s _ _ | AppendLast s _ _ | RemoveFirst s _ | RemoveLast s _ | Undo s => Nat.eqb s t
  | _ => false
  end.

(** Sequence number [s] was built from a list ([false]) or an array ([true]). *)
Definition from_array (w : world) (s : nat) (a : bool) : Prop :=
  exists q, nth_error (w_seqs w) s = Some q /\ s_array q = a.

(** A mutating call that gets past its argument checks. *)
Definition effective (w : world) (s : nat) (o : op) : Prop :=
  match o with
  | AppendFirst s' l _ | AppendLast s' l _ =>
      s' = s /\ (l < List.length (w_heap w))%nat /\ exists d, has_dim w s d /\ fits w d l
  | RemoveFirst s' _ | RemoveLast s' _ => s' = s /\ contents w s <> []
  | _ => False
  end.

(** [v] is [u] after [m] calls of [inverse()]. *)
Fixpoint inverted (eps : R) (m : nat) (u v : unitary) : Prop :=
  match m with
  | O => v = u
  | S m => exists t, u_inverse eps u = Ok t /\ inverted eps m t v
  end.
