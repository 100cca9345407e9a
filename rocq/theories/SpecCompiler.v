(** Vocabulary of the property statements about the compiler. *)
From Coq Require Import Reals List Arith Bool String ZArith Permutation.
From Coquelicot Require Import Complex.
From Verif Require Import Base CMat Det ModelUnitary ModelEntry ModelPrimitive ModelSequence
  ModelCompiler Spec SpecModel.
Import ListNotations.
Open Scope R_scope.
Open Scope C_scope.

(** The random generator keeps its promises: uniform numbers are in [0, 1),
    integers below [n] are below [n], permutations are permutations.  Nothing else
    is assumed, so statements hold for every sequence of random answers. *)
Definition rng_ok (g : rng) : Prop :=
  (forall k, (0 <= g_unif g k < 1)%R) /\
  (forall k n, (0 < n)%nat -> (g_int g k n < n)%nat) /\
  (forall k n, Permutation (g_perm g k n) (seq 0 n)).

(** A state a program can be in. *)
Definition reachable (eps : R) (w : world) : Prop := exists os, w = exec eps os w_empty.

(** Every value is inside the declared range of its parameter. *)
Definition in_range (ps : list parameter) (vs : list R) : Prop :=
  Forall2 (fun p v => (pr_min p <= v <= pr_max p)%R) ps vs.

(** [u] is the primitive's gate, for a parameterised one at values inside their
    ranges. *)
Definition instance (eps : R) (p : primitive) (u : unitary) : Prop :=
  match p_source p with
  | Fixed v => u = v
  | Family pu => exists vs, in_range (pu_params pu) vs /\ as_unitary eps pu vs = Ok u
  end.

(** Not restricted to an empty list of places. *)
Definition has_place (p : primitive) : bool := match p_allowed p with Some [] => false | _ => true end.

(** [p] is one of the primitives that have a place; if probabilities are given, one
    with a probability above 0. *)
Definition weighted (ps : list primitive) (probs : option (list R)) (p : primitive) : Prop :=
  exists i, nth_error (filter has_place ps) i = Some p /\ forall q, probs = Some q -> (0 < nth i q 0)%R.

(** The gate [u] on the qubits [qs] is something the primitive allows in a system
    of dimension [d]. *)
Definition allows (eps : R) (d : nat) (p : primitive) (g : unitary * list nat) : Prop :=
  instance eps p (fst g) /\
  (forall ls, p_allowed p = Some ls -> In (snd g) ls) /\
  NoDup (snd g) /\ snd g <> [] /\ (2 ^ List.length (snd g))%nat = u_dim (fst g) /\
  (forall q, In q (snd g) -> (2 ^ (q + 1) <= d)%nat).

(** A gate, or all members of a family of gates, constructed from exact
    unitaries. *)
Definition good_source (eps : R) (s : source) : Prop :=
  match s with
  | Fixed u => made eps u
  | Family pu =>
      (forall p, In p (pu_params pu) -> (pr_min p <= pr_max p)%R) /\
      forall vs, in_range (pu_params pu) vs ->
        exists M, pu_matrix pu vs = Ok (square (pu_dim pu) M) /\
          at_hand eps (pu_dim pu) M
  end.

(** A primitive that fits a system of [n] qubits. *)
Definition good_primitive (eps : R) (n : nat) (p : primitive) : Prop :=
  good_source eps (p_source p) /\
  match p_allowed p with
  | Some ls => forall qs, In qs ls -> placement n qs /\ (2 ^ List.length qs)%nat = src_dim (p_source p)
  | None => exists k, (1 <= k <= n)%nat /\ src_dim (p_source p) = (2 ^ k)%nat
  end.

(** Probabilities that numpy accepts for [n] alternatives. *)
Definition good_probabilities (n : nat) (p : list R) : Prop :=
  List.length p = n /\ (forall x, In x p -> (0 <= x)%R) /\
  (Rabs (fold_right Rplus 0 p - 1) <= / 2 ^ 26)%R.

(** One layer: for every entry of the table as many gates as its count says, each
    allowed by its primitive, in some order. *)
Definition layer_of (eps : R) (d : nat) (counts : list (primitive * Z))
    (layer : list (unitary * list nat)) : Prop :=
  exists parts, Permutation layer (List.concat parts) /\
    Forall2 (fun pc part => List.length part = Z.to_nat (snd pc) /\ Forall (allows eps d (fst pc)) part)
      counts parts.

(** The probability with which Metropolis' rule accepts an increase of the cost
    by [delta]. *)
Definition metropolis (beta delta : R) : R := Rmin 1 (exp (- beta * delta)).

(** A world made by a program that constructs its gates from exact unitaries and
    inverts only sequences with every entry object an odd number of times; in exact arithmetic
    without the clean-up. *)
Definition exact_world (w : world) : Prop :=
  exists os, w = exec 0 os w_empty /\ history 0 (built 0) odd_entries os w_empty.

(** The same with the clean-up at [eps], without inversions, and with at most [K]
    product updates of any sequence. *)
Definition drift_world (eps : R) (K : nat) (w : world) : Prop :=
  exists os, w = exec eps os w_empty /\ history eps (made eps) (fun _ _ => False) os w_empty /\
    (updates os 0 <= K)%nat.

(** A compiler for [n] qubits with sensible arguments. *)
Definition good_compiler (eps : R) (n : nat) (c : compiler) : Prop :=
  c_dim c = (2 ^ n)%nat /\ (0 <= c_append c <= 1)%R /\
  (forall p, In p (c_prims c) -> good_primitive eps n p) /\
  match c_probs c with
  | None => exists p, In p (c_prims c) /\ p_allowed p <> Some []
  | Some q => c_prims c <> [] /\ (forall p, In p (c_prims c) -> p_allowed p <> Some []) /\
              good_probabilities (List.length (c_prims c)) q
  end.

(** A sensible table of counts for [n] qubits. *)
Definition good_table (eps : R) (n : nat) (counts : list (primitive * Z)) : Prop :=
  Forall (fun pc => good_primitive eps n (fst pc) /\
                    ((0 < snd pc)%Z -> p_allowed (fst pc) <> Some [])) counts.

(** Number of gates in a layer. *)
Definition table_size (counts : list (primitive * Z)) : nat :=
  fold_right (fun pc n => (Z.to_nat (snd pc) + n)%nat) 0%nat counts.

(** The error bound for [K] product updates on [n] qubits, and the condition under
    which it is proved. *)
Definition drift_bound (eps : R) (n K : nat) : R :=
  (14 * INR K * INR (2 ^ n) * (sqrt (INR (2 ^ n)) + 1) * eps)%R.
Definition small_drift (eps : R) (n K : nat) : Prop :=
  (0 <= eps <= 1)%R /\ (drift_bound eps n K <= 45 / 10 ^ 10)%R /\
  (INR (2 ^ n) * drift_bound eps n K <= / 100)%R.

(** Several compilations with one compiler: each starts in the state the previous
    one left.  The list collects the numbers of recorded costs. *)
Inductive compile_call : Type :=
| Plain (target : unitary) (threshold : option R) (max_steps : Z)
| Layered (target : unitary) (counts : list (primitive * Z)) (threshold : option R) (max_steps : Z).
Definition run_call (g : rng) (eps : R) (k : compile_call) : CM (nat * list R) :=
  match k with
  | Plain t thr m => compile g eps t thr m
  | Layered t cs thr m => compile_layered g eps t cs thr m
  end.
Inductive compile_calls (g : rng) (eps : R) :
  list compile_call -> rstate * compiler -> rstate * compiler -> nat -> Prop :=
| calls_nil st : compile_calls g eps [] st st 0
| calls_cons k ks st st1 st2 s costs m :
    run_call g eps k st = (st1, Ok (s, costs)) -> compile_calls g eps ks st1 st2 m ->
    compile_calls g eps (k :: ks) st st2 (List.length costs + m).

(** Sequence number [s] exists, was built from a list and has dimension [d]. *)
Definition list_sequence (w : world) (s d : nat) : Prop :=
  exists q, nth_error (w_seqs w) s = Some q /\ s_dim q = d /\ s_array q = false.

(** The part of [0, 1) that belongs to an action. *)
Definition action_interval (ap : R) (a : action) : R * R :=
  match a with
  | ActAppendFirst => (0, ap / 2)
  | ActAppendLast => (ap / 2, ap)
  | ActRemoveFirst => (ap, ap + (1 - ap) / 2)
  | ActRemoveLast => (ap + (1 - ap) / 2, 1)
  end%R.

(** The total of a table of counts. *)
Definition total_count (counts : list (primitive * Z)) : Z :=
  fold_right Z.add 0%Z (map snd counts).

(** Primitives (with optional probabilities) that can be drawn for [n] qubits. *)
Definition good_set (eps : R) (n : nat) (ps : list primitive) (probs : option (list R)) : Prop :=
  (forall p, In p ps -> good_primitive eps n p /\ (src_dim (p_source p) <= 2 ^ n)%nat) /\
  match probs with
  | None => exists p, In p ps /\ p_allowed p <> Some []
  | Some q => ps <> [] /\ (forall p, In p ps -> p_allowed p <> Some []) /\
              good_probabilities (List.length ps) q
  end.

(** Values the generator can produce: the lower end of the range and everything up
    to but not including its upper end. *)
Definition drawable_values (ps : list parameter) (vs : list R) : Prop :=
  Forall2 (fun p v => (pr_min p <= v < pr_max p)%R \/ (v = pr_min p /\ pr_min p = pr_max p)) ps vs.

(** [u] is the primitive's gate, for a parameterised one at such values. *)
Definition drawable_gate (eps : R) (p : primitive) (u : unitary) : Prop :=
  match p_source p with
  | Fixed v => u = v
  | Family pu => exists vs, drawable_values (pu_params pu) vs /\ as_unitary eps pu vs = Ok u
  end.

(** The gate on the qubits is one the primitive stands for on [n] qubits: on one of
    its listed places, or on any distinct qubits if it has no list. *)
Definition drawable (eps : R) (n : nat) (p : primitive) (gt : unitary * list nat) : Prop :=
  drawable_gate eps p (fst gt) /\
  (forall ls, p_allowed p = Some ls -> In (snd gt) ls) /\
  (p_allowed p = None -> placement n (snd gt) /\ u_dim (fst gt) = (2 ^ List.length (snd gt))%nat).

(** Such a gate of one of the compiler's primitives; a primitive with probability 0
    does not count. *)
Definition in_repertoire (eps : R) (n : nat) (c : compiler) (gt : unitary * list nat) : Prop :=
  exists p, weighted (c_prims c) (c_probs c) p /\ drawable eps n p gt.

(** One layer of such gates in any order. *)
Definition drawable_layer (eps : R) (n : nat) (counts : list (primitive * Z))
    (layer : list (unitary * list nat)) : Prop :=
  exists parts, Permutation layer (List.concat parts) /\
    Forall2 (fun pc part => List.length part = Z.to_nat (snd pc) /\ List.Forall (drawable eps n (fst pc)) part)
      counts parts.
