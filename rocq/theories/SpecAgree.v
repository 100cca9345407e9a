(** How the object model of sequences (ModelSequence.v, ModelCompiler.v) and the model on plain
    lists with an exchangeable arithmetic (ModelRound.v, ModelRoundComp.v) correspond. *)
From Coq Require Import Reals List Arith Bool ZArith.
From Coquelicot Require Import Complex.
From Verif Require Import Base CMat ModelUnitary ModelEntry ModelPrimitive ModelSequence ModelCompiler
  ModelRound ModelRoundComp Spec SpecModel SpecCompiler.
Import ListNotations.
Open Scope R_scope.

(** What the objects at the locations [ls] say. *)
Definition said (h : heap) (ls : list nat) : list (unitary * list nat) :=
  map (fun l => (e_unitary (obj h l), e_apply (obj h l))) ls.

(** The state of sequence number [s] without identities and caches; nothing when there is no
    such sequence or it was made from a numpy array. *)
Definition plain_view (w : world) (s : nat) : option rseq :=
  match nth_error (w_seqs w) s with
  | None => None
  | Some q =>
      if s_array q then None
      else Some {| rs_dim := s_dim q; rs_entries := said (w_heap w) (s_entries q);
                   rs_product := s_product q; rs_prev := option_map (said (w_heap w)) (s_prev_entries q);
                   rs_prev_product := s_prev_product q |}
  end.

(** The call [o] on sequence number [s] is the call [m] on plain lists. *)
Inductive same_call (w : world) (s : nat) : op -> rop -> Prop :=
| same_first l sv : (l < List.length (w_heap w))%nat ->
    same_call w s (AppendFirst s l sv) (RFirst (e_unitary (obj (w_heap w) l), e_apply (obj (w_heap w) l)) sv)
| same_last l sv : (l < List.length (w_heap w))%nat ->
    same_call w s (AppendLast s l sv) (RLast (e_unitary (obj (w_heap w) l), e_apply (obj (w_heap w) l)) sv)
| same_pop_first sv : same_call w s (RemoveFirst s sv) (RPopFirst sv)
| same_pop_last sv : same_call w s (RemoveLast s sv) (RPopLast sv)
| same_undo : same_call w s (Undo s) RUndo
| same_product : same_call w s (Product s) RProduct.

(** The answer of [close_to] as a function of the distance. *)
Definition close_at (threshold : option R) (distance : R) : bool :=
  match threshold with
  | Some t => Rleb distance (1 - t)
  | None => isclose (RtoC distance) 0
  end.

(** The annealing parameter used in step number [k] (from 0) of a call. *)
Fixpoint beta_in_step (c : compiler) (k : nat) : R :=
  Rmin (match k with O => c_beta c | S j => beta_in_step c j end + c_rate c) (c_max_beta c).

(** Accepted when a number of [0, 1) is below the Metropolis probability. *)
Definition metropolis_rule (beta : R) (accept : R -> R -> bool) : Prop :=
  exists x, 0 <= x < 1 /\ forall current proposed,
    accept current proposed = true <-> x < metropolis beta (proposed - current).

(** A proposal of [compile]: one gate that the primitives allow, at either end, or the removal
    of one gate. *)
Definition drawn_change (eps : R) (c : compiler) (ch : rchange) : Prop :=
  match ch with
  | RAddFirst gs | RAddLast gs =>
      exists gt p, gs = [gt] /\ weighted (c_prims c) (c_probs c) p /\ allows eps (c_dim c) p gt
  | RDropFirst k | RDropLast k => k = 1%nat
  end.

(** A proposal of [compile_layered]: a layer, or the removal of as many gates. *)
Definition drawn_layer (eps : R) (d : nat) (counts : list (primitive * Z)) (ch : rchange) : Prop :=
  match ch with
  | RAddFirst gs | RAddLast gs => layer_of eps d counts gs
  | RDropFirst k | RDropLast k => k = Z.to_nat (total_count counts)
  end.
