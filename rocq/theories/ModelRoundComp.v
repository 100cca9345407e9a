(** Model of the loops of [Compiler.compile] and [Compiler.compile_layered] on the rounded
    sequences of ModelRound.v.  Definitions only.

    The random choices are given from outside: for every step the change that was drawn and
    the outcome of the comparison with the acceptance probability, as a function of the two
    costs (so it may use any temperature, any random number and any rounding of [np.exp]);
    and the comparison of the distance with the threshold, as a function of the distance. *)
From Coq Require Import Reals List Arith Bool.
From Verif Require Import Base CMat ModelUnitary ModelRound.
Import ListNotations.
Open Scope res_scope.

(** What was drawn: new gates for one end (one gate, or those of a layer), or a number of
    gates to remove from one end (1, or the length of a layer);
    compiler/compiler.py:315-346, 348-388. *)
Inductive rchange : Type :=
| RAddFirst (gs : list (unitary * list nat))
| RAddLast (gs : list (unitary * list nat))
| RDropFirst (k : nat)
| RDropLast (k : nat).

(** The method calls of a change; only the first saves the state;
    compiler/compiler.py:339-346, 373-388. *)
Definition change_ops (c : rchange) : list rop :=
  match c with
  | RAddFirst [] | RAddLast [] | RDropFirst O | RDropLast O => []
  | RAddFirst (g :: t) => RFirst g true :: map (fun g => RFirst g false) t
  | RAddLast (g :: t) => RLast g true :: map (fun g => RLast g false) t
  | RDropFirst (S k) => RPopFirst true :: repeat (RPopFirst false) k
  | RDropLast (S k) => RPopLast true :: repeat (RPopLast false) k
  end.

(** The random part of a step; compiler/compiler.py:175, 179-180, 390-402. *)
Record rproposal : Type := { rp_change : rchange; rp_accept : R -> R -> bool }.

Section Compile.
(** The arithmetic and the clean-up threshold ([1e-12] at unitary/unitary.py:70-71). *)
Variable ar : arith.
Variable eps : R.

(** [compiled_sequence.product()], which keeps the product in the sequence;
    unitary/unitary_sequence.py:231-248. *)
Definition r_keep (q : rseq) : res (rseq * unitary) :=
  do q' <- r_step ar eps q RProduct; do p <- r_product ar eps q'; Ok (q', p).

(** The body of the loop; compiler/compiler.py:174-185, 264-276. *)
Definition r_compile_step (target : unitary) (s : rproposal) (q : rseq) : res (rseq * R) :=
  do qb <- r_keep q;
  do q1 <- r_run ar eps (fst qb) (change_ops (rp_change s));
  do current_cost <- r_distance_from ar eps target (snd qb);
  do qp <- r_keep q1;
  do proposed_cost <- r_distance_from ar eps target (snd qp);
  if rp_accept s current_cost proposed_cost then Ok (fst qp, proposed_cost)
  else do q3 <- r_step ar eps (fst qp) RUndo; Ok (q3, current_cost).

(** The loop, with one element of [steps] for each of the [max_step_count] steps;
    compiler/compiler.py:170-187, 260-278. *)
Fixpoint r_compile_loop (target : unitary) (close : R -> bool) (steps : list rproposal) (q : rseq)
  : res (rseq * list R) :=
  do qp <- r_keep q;
  do distance <- r_distance_from ar eps (snd qp) target;
  if close distance then Ok (fst qp, [])
  else match steps with
       | [] => Ok (fst qp, [])
       | s :: t =>
           do qc <- r_compile_step target s (fst qp);
           do rest <- r_compile_loop target close t (fst qc);
           Ok (fst rest, snd qc :: snd rest)
       end.

(** [_compile] and [_compile_layered]; compiler/compiler.py:157-187, 246-278. *)
Definition r_compile (dimension : nat) (target : unitary) (close : R -> bool) (steps : list rproposal)
  : res (rseq * list R) :=
  r_compile_loop target close steps (r_empty dimension).
End Compile.
