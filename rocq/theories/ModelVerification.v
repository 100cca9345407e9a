(** Model of stoqcompiler/verification/verification.py.  Definitions only. *)
From Coq Require Import Reals List Arith Bool String ZArith.
From Coquelicot Require Import Complex.
From Verif Require Import Base CMat Det CRoot ModelUnitary ModelEntry ModelPrimitive ModelSequence
  ModelCompiler.
Import ListNotations.
Open Scope R_scope.
Open Scope C_scope.
Open Scope se_scope.

(** A new [Compiler] object and one call of its method, after which the object is
    dropped; verification/verification.py:86-92, 169-176. *)
Definition with_compiler {A} (c : res compiler) (m : CM A) : RM A :=
  c' <-- se_lift c ;;
  fun st => let '((st', _), r) := m (st, c') in (st', r).

(** [threshold == 0.0 or max_step_count == 0]; verification/verification.py:79,
    162. *)
Definition skip_inversion (threshold : R) (max_step_count : Z) : bool :=
  (if Req_EM_T threshold 0 then true else false) || Z.eqb max_step_count 0.

Section Verification.
Variable g : rng.
(** The clean-up threshold, [1e-12] at unitary/unitary.py:70-71. *)
Variable eps : R.

(** The random part: [for _ in range(sequence_length)];
    verification/verification.py:73-76. *)
Fixpoint append_random (dimension : nat) (unitary_primitives : list primitive)
    (probabilities : option (list R)) (s : nat) (count : nat) : RM unit :=
  match count with
  | O => se_ret tt
  | S k =>
      l <-- create_random_sequence_entry g eps dimension unitary_primitives probabilities ;;
      call eps (AppendLast s l true) ;;;
      append_random dimension unitary_primitives probabilities s k
  end.

(** [for sequence_entry in layer: random_sequence.append_last(sequence_entry)];
    verification/verification.py:158-159. *)
Fixpoint append_entries (s : nat) (ls : list nat) : RM unit :=
  match ls with
  | [] => se_ret tt
  | l :: t => call eps (AppendLast s l true) ;;; append_entries s t
  end.

(** The random layers: [for _ in range(layer_count)];
    verification/verification.py:155-159. *)
Fixpoint append_random_layers (dimension : nat) (counts : list (primitive * Z)) (s : nat)
    (count : nat) : RM unit :=
  match count with
  | O => se_ret tt
  | S k =>
      ls <-- create_random_layer g eps dimension counts ;;
      append_entries s ls ;;;
      append_random_layers dimension counts s k
  end.

(** Compile the inverse of the product of [s] and put the result behind [s];
    verification/verification.py:83-97, 166-180 and, with the same text,
    hamiltonian/hamiltonian.py:332-343. *)
Definition compile_inverse (s : nat) (run : unitary -> RM (nat * list R)) : RM (nat * list R) :=
  p <-- call_unitary eps (Product s) ;;
  target <-- se_lift (u_inverse eps p) ;;
  r <-- run target ;;
  t <-- call_sequence eps (Combine [s; fst r]) ;;
  se_ret (t, snd r).

(** [generate_rav_sequence]; verification/verification.py:15-97.  [is_array] says
    that [unitary_primitives] is a numpy array; the result is the sequence and the
    costs; 0.1 is the default annealing rate of compiler/compiler.py:50. *)
Definition generate_rav_sequence (dimension : nat) (is_array : bool)
    (unitary_primitives : list primitive) (sequence_length : Z) (threshold append_probability : R)
    (probabilities : option (list R)) (max_step_count : Z) : RM (nat * list R) :=
  se_assert (forallb (fun p => Nat.leb (src_dim (p_source p)) dimension) unitary_primitives) ;;;
  se_assert (Z.leb 0 sequence_length) ;;;
  se_assert (Rleb 0 threshold && Rleb threshold 1) ;;;
  s <-- call_sequence eps (NewSequence dimension false []) ;;
  append_random dimension unitary_primitives probabilities s (Z.to_nat sequence_length) ;;;
  if skip_inversion threshold max_step_count then se_ret (s, [])
  else
    compile_inverse s (fun target =>
      with_compiler
        (mk_compiler dimension is_array unitary_primitives probabilities append_probability (1 / 10))
        (compile g eps target (Some threshold) max_step_count)).

(** [generate_layered_rav_sequence]; verification/verification.py:99-180. *)
Definition generate_layered_rav_sequence (dimension : nat) (counts : list (primitive * Z))
    (layer_count : Z) (threshold append_probability : R) (max_step_count : Z) : RM (nat * list R) :=
  se_assert (forallb (fun pc => Nat.leb (src_dim (p_source (fst pc))) dimension) counts) ;;;
  se_assert (Z.leb 0 layer_count) ;;;
  se_assert (Rleb 0 threshold && Rleb threshold 1) ;;;
  s <-- call_sequence eps (NewSequence dimension false []) ;;
  append_random_layers dimension counts s (Z.to_nat layer_count) ;;;
  if skip_inversion threshold max_step_count then se_ret (s, [])
  else
    compile_inverse s (fun target =>
      with_compiler
        (mk_compiler dimension false (map fst counts) None append_probability (1 / 10))
        (compile_layered g eps target counts (Some threshold) max_step_count)).

(** [generate_xeb_sequence]; verification/verification.py:182-206 (1/2 is the
    default append probability of :104). *)
Definition generate_xeb_sequence (dimension : nat) (counts : list (primitive * Z)) (layer_count : Z)
  : RM (nat * list R) :=
  generate_layered_rav_sequence dimension counts layer_count 0 (1 / 2) 0.

End Verification.
