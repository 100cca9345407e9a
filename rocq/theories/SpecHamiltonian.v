(** Vocabulary of the property statements about Hamiltonians.  Nothing here refers
    to the way the code computes its results. *)
From Coq Require Import Reals List Arith Bool String ZArith Sorted.
From Coquelicot Require Import Complex.
From Verif Require Import Base CMat Det Expm ModelUnitary ModelPrimitive ModelCompiler ModelGates ModelHamiltonian Norms Spec SpecModel
  SpecCompiler SpecGates.
Import ListNotations.
Open Scope R_scope.
Open Scope C_scope.

(** [s] is a singular value of [A]: the root of an eigenvalue of [A^dagger A]. *)
Definition singular_value (n : nat) (A : mat) (s : R) : Prop :=
  (0 <= s)%R /\ exists v, vnorm n v = 1%R /\
    forall i, (i < n)%nat -> mapply n (mmul n (adj A) A) v i = RtoC (s ^ 2) * v i.

(** [c] is the operator norm of [A]: the least factor in [|A v| <= c |v|]. *)
Definition operator_norm (n : nat) (A : mat) (c : R) : Prop :=
  (forall v, (vnorm n (mapply n A v) <= c * vnorm n v)%R) /\
  (forall b, (forall v, (vnorm n (mapply n A v) <= b * vnorm n v)%R) -> (c <= b)%R).

(** [E] is the evolution [exp(i H t)] for the time [t]. *)
Definition evolution (d : nat) (H : mat) (t : R) (E : mat) : Prop :=
  is_expm d (fun i j => Ci * RtoC t * H i j) E.

(** The sum of matrices. *)
Definition total (Ms : list mat) : mat := fun i j => fold_right (fun M z => M i j + z) 0 Ms.

(** [h] is the [Hamiltonian] of the terms with the exactly Hermitian matrices [Ms]. *)
Definition hamiltonian_of (d : nat) (Ms : list mat) (h : hamiltonian) : Prop :=
  exists ts, Forall2 (fun M t => hermitian_mx d M /\ mk_term (square d M) = Ok t) Ms ts /\
    mk_hamiltonian ts = Ok h.

(** The size that controls the Trotter error. *)
Definition total_size (d : nat) (Ms : list mat) (t : R) : R :=
  (Rabs t * fold_right (fun M s => fro d M + s) 0 Ms)%R.
Definition trotter_bound (S : R) (N : nat) : R := (2 * (S ^ 2 / INR N) * exp (S / INR N))%R.

(** All matrices commute with each other. *)
Definition commuting (d : nat) (Ms : list mat) : Prop :=
  forall A B, In A Ms -> In B Ms -> meq d (mmul d A B) (mmul d B A).

(** The index that the uniform number [x] selects among weights [cs]: the part of
    [0, 1) that belongs to [k] is an interval of length [c_k] over the sum of all. *)
Definition weight_below (cs : list R) (k : nat) : R := fold_right Rplus 0%R (firstn k cs).
Definition selected (cs : list R) (x : R) (k : nat) : Prop :=
  (k < List.length cs)%nat /\
  (weight_below cs k / fold_right Rplus 0 cs <= x < weight_below cs (S k) / fold_right Rplus 0 cs)%R.

(** Ascending lists of numbers below [n]. *)
Definition ascending_below (n : nat) (l : list nat) : Prop :=
  StronglySorted lt l /\ forall i, In i l -> (i < n)%nat.

(** The sum of the terms with the given numbers. *)
Definition part_of (Ms : list mat) (l : list nat) : mat := total (map (fun i => nth i Ms mzero) l).

(** The subsets of [L] terms to use: the single terms in order or, with
    simultaneous terms, every non-empty subset once. *)
Definition term_subsets (L : nat) (simultaneous : bool) (ls : list (list nat)) : Prop :=
  if simultaneous then NoDup ls /\ forall l, In l ls <-> l <> [] /\ ascending_below L l
  else ls = map (fun i => [i]) (seq 0 L).

(** [p] evolves the subset [l] of the terms for a time between [-T] and [T], on all
    [n] qubits. *)
Definition evolves_subset (eps : R) (n : nat) (Ms : list mat) (T : R) (l : list nat) (p : primitive) : Prop :=
  p_allowed p = Some [seq 0 n] /\
  exists pu, p_source p = Family pu /\ pu_dim pu = (2 ^ n)%nat /\
    map (fun q => (pr_name q, pr_min q, pr_max q)) (pu_params pu) = [("t"%string, (- T)%R, T)] /\
    (forall t E, (- T <= t <= T)%R -> evolution (2 ^ n) (part_of Ms l) t E ->
       stores_phase eps 1 n (as_unitary eps pu [t]) E /\
       labelled (as_unitary eps pu [t]) ("H" ++ String.concat "+" (map str_nat l)) [("t"%string, (t, false))]) /\
    (forall t, (t < - T)%R \/ (T < t)%R -> as_unitary eps pu [t] = Raise AssertionError).

(** The gate [gt] is such an evolution for the time [t], on all qubits. *)
Definition subset_gate (eps : R) (n : nat) (Ms : list mat) (l : list nat) (t : R) (gt : unitary * list nat) : Prop :=
  snd gt = seq 0 n /\
  (forall E, evolution (2 ^ n) (part_of Ms l) t E -> stores_phase eps 1 n (Ok (fst gt)) E) /\
  labelled (Ok (fst gt)) ("H" ++ String.concat "+" (map str_nat l)) [("t"%string, (t, false))].

(** Some admissible evolution of some non-empty subset of the [L] terms. *)
Definition stoq_gate (eps : R) (n : nat) (Ms : list mat) (T : R) (simultaneous : bool) (gt : unitary * list nat) : Prop :=
  exists l t, l <> [] /\ ascending_below (List.length Ms) l /\ (simultaneous = false -> List.length l = 1%nat) /\
    (- T <= t <= T)%R /\ subset_gate eps n Ms l t gt.

(** The random part of a RAV sequence, with three draws for each step, from the
    draw [d] on: the time and the subset of step [j], the time spent in the first
    [k] steps. *)
Definition rav_time (g : rng) (T : R) (d j : nat) : R :=
  (T * g_unif g (d + 3 * j) * (if Rlt_dec (g_unif g (d + 3 * j + 1)) (8 / 10) then 1 else -1))%R.
Definition rav_subset (g : rng) (ls : list (list nat)) (d j : nat) : list nat :=
  nth (g_int g (d + 3 * j + 2) (List.length ls)) ls [].
Definition rav_elapsed (g : rng) (T : R) (d k : nat) : R :=
  fold_right Rplus 0%R (map (fun j => Rabs (rav_time g T d j)) (seq 0 k)).
