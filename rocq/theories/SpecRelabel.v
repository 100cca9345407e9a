(** What it means to give the qubits other numbers. *)
From Coq Require Import Reals List Arith ZArith.
From Coquelicot Require Import Complex.
From Verif Require Import Base CMat ModelUnitary ModelPrimitive ModelSequence ModelCompiler ModelRound Spec SpecModel.
Import ListNotations.

(** [f] gives the [n] qubits new numbers. *)
Definition relabelling (n : nat) (f : nat -> nat) : Prop :=
  (forall q, (q < n)%nat -> (f q < n)%nat) /\ (forall q r, (q < n)%nat -> (r < n)%nat -> f q = f r -> q = r).

(** Basis state [j] is basis state [i] with the new numbers: its qubit [f q] is qubit [q] of [i]. *)
Definition moved (n : nat) (f : nat -> nat) (i j : nat) : Prop :=
  (j < 2 ^ n)%nat /\ forall q, (q < n)%nat -> bit n j (f q) = bit n i q.

(** The matrix [B] is [A] with the new numbers. *)
Definition relabelled (n : nat) (f : nat -> nat) (A B : mat) : Prop :=
  forall i j i' j', (i < 2 ^ n)%nat -> (j < 2 ^ n)%nat -> moved n f i i' -> moved n f j j' -> B i' j' = A i j.
Definition relabelled_unitary (n : nat) (f : nat -> nat) (u v : unitary) : Prop :=
  u_dim u = (2 ^ n)%nat /\ u_dim v = (2 ^ n)%nat /\ relabelled n f (u_mat u) (u_mat v).

(** A gate on the renumbered qubits. *)
Definition relabel (f : nat -> nat) (g : unitary * list nat) : unitary * list nat := (fst g, map f (snd g)).

(** A method call of a sequence with its gate on the renumbered qubits. *)
Definition relabel_call (f : nat -> nat) (o : rop) : rop :=
  match o with
  | RFirst g s => RFirst (relabel f g) s
  | RLast g s => RLast (relabel f g) s
  | _ => o
  end.
(** A gate of the call, if any, is on as many existing qubits as its dimension says. *)
Definition fitting_call (n : nat) (o : rop) : Prop :=
  match o with
  | RFirst g _ | RLast g _ => placement n (snd g) /\ (2 ^ List.length (snd g))%nat = u_dim (fst g)
  | _ => True
  end.

(** The same gates, allowed on the renumbered qubits; the qubits are listed and exist. *)
Definition relabelled_primitive (n : nat) (f : nat -> nat) (p q : primitive) : Prop :=
  p_source q = p_source p /\ exists ls, p_allowed p = Some ls /\ p_allowed q = Some (map (map f) ls) /\
    forall qs, In qs ls -> placement n qs.
Definition relabelled_table (n : nat) (f : nat -> nat) (x y : list (primitive * Z)) : Prop :=
  List.Forall2 (fun p q => relabelled_primitive n f (fst p) (fst q) /\ snd q = snd p) x y.

(** The same compiler but for the numbers of the qubits. *)
Definition relabelled_compiler (n : nat) (f : nat -> nat) (c d : compiler) : Prop :=
  List.Forall2 (relabelled_primitive n f) (c_prims c) (c_prims d) /\
  d = {| c_dim := c_dim c; c_array := c_array c; c_prims := c_prims d; c_probs := c_probs c; c_max_beta := c_max_beta c;
         c_beta := c_beta c; c_rate := c_rate c; c_append := c_append c |}.

(** Two calls of the compiler, begun at questions [d1] and [d2], end alike but for the numbers of the qubits. *)
Definition relabelled_compilation (f : nat -> nat) (d1 d2 : nat) (x y : (rstate * compiler) * res (nat * list R)) : Prop :=
  match snd x, snd y with
  | Ok (s1, costs1), Ok (s2, costs2) =>
      costs1 = costs2 /\ c_beta (snd (fst x)) = c_beta (snd (fst y)) /\
      (exists k, r_draws (fst (fst x)) = (d1 + k)%nat /\ r_draws (fst (fst y)) = (d2 + k)%nat) /\
      contents (r_world (fst (fst y))) s2 = map (relabel f) (contents (r_world (fst (fst x))) s1)
  | Raise e1, Raise e2 => e1 = e2
  | _, _ => False
  end.

(** The same with primitives whose qubits are not listed. *)
Definition renumbered_primitive (n : nat) (f : nat -> nat) (p q : primitive) : Prop :=
  p_source q = p_source p /\
  match p_allowed p with
  | Some ls => p_allowed q = Some (map (map f) ls) /\ forall qs, In qs ls -> placement n qs
  | None => p_allowed q = None
  end.
Definition renumbered_compiler (n : nat) (f : nat -> nat) (c d : compiler) : Prop :=
  List.Forall2 (renumbered_primitive n f) (c_prims c) (c_prims d) /\
  d = {| c_dim := c_dim c; c_array := c_array c; c_prims := c_prims d; c_probs := c_probs c; c_max_beta := c_max_beta c;
         c_beta := c_beta c; c_rate := c_rate c; c_append := c_append c |}.
(** The answers of the second generator are those of the first, with a drawn order of the [n] qubits renumbered. *)
Definition renumbered_answers (n : nat) (f : nat -> nat) (g1 : rng) (d1 : nat) (g2 : rng) (d2 : nat) : Prop :=
  forall k, g_unif g1 (d1 + k) = g_unif g2 (d2 + k) /\ (forall m, g_int g1 (d1 + k) m = g_int g2 (d2 + k) m) /\
    g_perm g2 (d2 + k) n = map f (g_perm g1 (d1 + k) n).
