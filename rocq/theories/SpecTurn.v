(** What it means that two sets of primitives differ by global phases only. *)
From Coq Require Import Reals List Arith ZArith.
From Coquelicot Require Import Complex.
From Verif Require Import Base CMat ModelUnitary ModelPrimitive ModelSequence ModelCompiler ModelRound Spec SpecModel.
Import ListNotations.
Open Scope C_scope.

(** Multiplication with [c] commutes with the clean-up: a quarter turn, or any phase when nothing is cleaned up. *)
Definition plain_phase (eps : R) (c : C) : Prop :=
  (c = 1 \/ c = - (1) \/ c = Ci \/ c = - Ci) \/ (eps = 0%R /\ Cmod c = 1%R).

(** [v] is [u] up to such a phase. *)
Definition turned (eps : R) (u v : unitary) : Prop :=
  u_dim v = u_dim u /\ exists c, plain_phase eps c /\ meq (u_dim u) (u_mat v) (mscale c (u_mat u)).

(** Two results related by [P], or the same exception. *)
Definition same_res {A B} (P : A -> B -> Prop) (x : res A) (y : res B) : Prop :=
  match x, y with Ok a, Ok b => P a b | Raise e, Raise f => e = f | _, _ => False end.

(** The primitives may be used in the same way and offer gates that differ by a phase. *)
Definition turned_primitive (eps : R) (p q : primitive) : Prop :=
  p_allowed q = p_allowed p /\
  match p_source p, p_source q with
  | Fixed u, Fixed v => turned eps u v
  | Family a, Family b => pu_params b = pu_params a /\
      forall vs, same_res (turned eps) (as_unitary eps a vs) (as_unitary eps b vs)
  | _, _ => False
  end.

(** Two tables of a layered compilation: such primitives with the same counts. *)
Definition turned_table (eps : R) (x y : list (primitive * Z)) : Prop :=
  List.Forall2 (fun p q => turned_primitive eps (fst p) (fst q) /\ snd q = snd p) x y.

(** The same compiler but for the phases of its primitives. *)
Definition turned_compiler (eps : R) (c d : compiler) : Prop :=
  List.Forall2 (turned_primitive eps) (c_prims c) (c_prims d) /\
  d = {| c_dim := c_dim c; c_array := c_array c; c_prims := c_prims d; c_probs := c_probs c; c_max_beta := c_max_beta c;
         c_beta := c_beta c; c_rate := c_rate c; c_append := c_append c |}.

(** The same gates on the same qubits, up to such phases. *)
Definition turned_gates (eps : R) (gs hs : list (unitary * list nat)) : Prop :=
  List.Forall2 (fun g h => turned eps (fst g) (fst h) /\ snd h = snd g) gs hs.

(** The same method call of a sequence, with such a gate. *)
Definition turned_call (eps : R) (o p : rop) : Prop :=
  match o, p with
  | RFirst g s, RFirst h t | RLast g s, RLast h t => (turned eps (fst g) (fst h) /\ snd h = snd g) /\ s = t
  | RPopFirst s, RPopFirst t | RPopLast s, RPopLast t => s = t
  | RUndo, RUndo | RProduct, RProduct => True
  | _, _ => False
  end.

(** Two calls of the compiler, begun at questions [d1] and [d2], end alike but for these phases: the same recorded costs,
    the same annealing state and as many questions, or the same exception. *)
Definition turned_compilation (eps : R) (d1 d2 : nat) (x y : (rstate * compiler) * res (nat * list R)) : Prop :=
  match snd x, snd y with
  | Ok (s1, costs1), Ok (s2, costs2) =>
      costs1 = costs2 /\ c_beta (snd (fst x)) = c_beta (snd (fst y)) /\
      (exists k, r_draws (fst (fst x)) = (d1 + k)%nat /\ r_draws (fst (fst y)) = (d2 + k)%nat) /\
      turned_gates eps (contents (r_world (fst (fst x))) s1) (contents (r_world (fst (fst y))) s2)
  | Raise e1, Raise e2 => e1 = e2
  | _, _ => False
  end.
