(** Model of stoqcompiler/hamiltonian/hamiltonian_term.py, hamiltonian.py and of
    [time_evolution] in unitary/unitary_definitions.py and
    parameterized_unitary_definitions.py.  Definitions only. *)
From Coq Require Import Reals List Arith Bool String ZArith.
From Coquelicot Require Import Coquelicot.
From Verif Require Import Base CMat Det CRoot Expm ModelUnitary ModelEntry ModelPrimitive ModelSequence
  ModelCompiler ModelVerification ModelGates.
Import ListNotations.
Open Scope R_scope.
Open Scope C_scope.
Open Scope res_scope.

(** * HamiltonianTerm *)

(** The length of [A v] for a vector [v] of length [n], and of [v] itself; used
    for [np.linalg.svd] at hamiltonian/hamiltonian_term.py:36. *)
Definition vlen (n : nat) (v : nat -> C) : R :=
  sqrt (fst (csum n (fun i => v i * Cconj (v i)))).
(** Same, of the image; hamiltonian/hamiltonian_term.py:36. *)
Definition image_len (n : nat) (A : mat) (v : nat -> C) : R :=
  vlen n (fun i => csum n (fun k => A i k * v k)).

(** [np.max(s)] where [s] are the singular values of an [n] by [n] matrix, n > 0:
    the least upper bound of [|A v|] over the unit vectors [v];
    hamiltonian/hamiltonian_term.py:36-37.  (numpy computes it by a singular value
    decomposition; its rounding is not modelled.) *)
Definition max_singular (n : nat) (A : mat) : R :=
  real (Lub_Rbar (fun y => exists v, vlen n v = 1%R /\ y = image_len n A v)).

(** A [HamiltonianTerm] object; hamiltonian/hamiltonian_term.py:26, 37-38. *)
Record term : Type := {
  t_dim : nat;
  t_coeff : R;
  t_norm : mat }.

(** [get_matrix]; hamiltonian/hamiltonian_term.py:55-63. *)
Definition t_matrix (t : term) : mat := mscale (RtoC (t_coeff t)) (t_norm t).

(** [HamiltonianTerm.__init__]; hamiltonian/hamiltonian_term.py:15-43.  An array
    without elements makes [np.max] raise [ValueError] (37); the zero matrix is
    divided by 0 and the resulting nans make the last [allclose] false (43);
    [np.isreal] of a real number (39) is true. *)
Definition mk_term (matrix : ndarray) : res term :=
  let dimension := nrows matrix in
  do_ assert (Nat.eqb (ncols matrix) dimension);
  do_ assert (allclose dimension (elt matrix) (adj (elt matrix)));
  if Nat.eqb dimension 0 then Raise ValueError else
  let coefficient := max_singular dimension (elt matrix) in
  do_ assert (negb (if Req_EM_T coefficient 0 then true else false));
  let t := {| t_dim := dimension; t_coeff := coefficient;
              t_norm := mscale (RtoC (/ coefficient)) (elt matrix) |} in
  do_ assert (Rleb 0 coefficient);
  do_ assert (allclose dimension (elt matrix) (t_matrix t));
  Ok t.

(** * Time evolution *)

Section Evolution.
(** The clean-up threshold, [1e-12] at unitary/unitary.py:70-71. *)
Variable eps : R.

(** [UnitaryDefinitions.time_evolution] of a square array;
    unitary/unitary_definitions.py:261-289.  [scipy.linalg.expm] is the matrix
    exponential (its rounding is not modelled). *)
Definition time_evolution (dimension : nat) (h_matrix : mat) (t : R) (h_suffix : string) : res unitary :=
  do_ assert (allclose dimension h_matrix (adj h_matrix));
  mk_unitary eps dimension
    (Some (square dimension (expm dimension (mscale (RtoC t) (mscale Ci h_matrix)))))
    (Some ("H" ++ h_suffix)%string) [("t"%string, (t, false))] false [].

(** The callable [u_matrix]; parameterized_unitary_definitions.py:166-170 (a wrong
    number of arguments is a [TypeError] of Python). *)
Definition evolution_matrix (dimension : nat) (h_matrix : mat) (h_suffix : string) (args : list R)
  : res ndarray :=
  match args with
  | [t] =>
      do u <- time_evolution dimension h_matrix t h_suffix;
      Ok (square (u_dim u) (u_mat u))
  | _ => Raise TypeError
  end.

(** [ParameterizedUnitaryDefinitions.time_evolution];
    parameterized_unitary_definitions.py:134-178. *)
Definition pd_time_evolution (dimension : nat) (h_matrix : mat) (t_min t_max : R) (h_suffix : string)
  : res punitary :=
  do_ assert (allclose dimension h_matrix (adj h_matrix));
  do_ assert (Rleb t_min t_max);
  do p <- mk_parameter "t" t_min t_max false;
  mk_punitary dimension (evolution_matrix dimension h_matrix h_suffix) [p] ("H" ++ h_suffix).

(** * Hamiltonian *)

(** A [Hamiltonian] object; hamiltonian/hamiltonian.py:43-47.  The terms are
    taken to be distinct objects (this matters only for the number that
    [self.terms.index] puts into a display name at :181). *)
Record hamiltonian : Type := {
  h_dim : nat;
  h_terms : list term }.

(** [Hamiltonian.__init__]; hamiltonian/hamiltonian.py:31-47. *)
Definition mk_hamiltonian (terms : list term) : res hamiltonian :=
  match terms with
  | [] => Raise AssertionError
  | t0 :: _ =>
      do_ assert (forallb (fun t => Nat.eqb (t_dim t) (t_dim t0)) terms);
      Ok {| h_dim := t_dim t0; h_terms := terms |}
  end.

(** [get_qubit_count]; hamiltonian/hamiltonian.py:59-68.  [int(np.log2(d))] is
    [Nat.log2 d]. *)
Definition qubit_count (h : hamiltonian) : nat := Nat.log2 (h_dim h).

(** [list(range(self.get_qubit_count()))]; hamiltonian/hamiltonian.py:108, 140,
    178, 253, 321. *)
Definition all_qubits (h : hamiltonian) : list Z := map Z.of_nat (seq 0 (qubit_count h)).

(** [np.sum([term.get_matrix() for term in ...], axis=0)];
    hamiltonian/hamiltonian.py:83, 256-257. *)
Definition sum_matrices (ts : list term) : mat := fold_right (fun t S => mplus (t_matrix t) S) mzero ts.

(** [get_time_evolution_operator]; hamiltonian/hamiltonian.py:70-84. *)
Definition time_evolution_operator (h : hamiltonian) (time : R) : res unitary :=
  time_evolution (h_dim h) (sum_matrices (h_terms h)) time "".

(** [itertools.combinations]; hamiltonian/hamiltonian.py:278-279. *)
Fixpoint combinations {A} (l : list A) (k : nat) : list (list A) :=
  match k with
  | O => [[]]
  | S k' =>
      match l with
      | [] => []
      | x :: t => map (cons x) (combinations t k') ++ combinations t k
      end
  end.

(** The indices yielded by [_get_term_subsets], for [n] terms;
    hamiltonian/hamiltonian.py:267-283. *)
Definition subset_indices (n : nat) (allow_simultaneous_terms : bool) : list (list nat) :=
  if allow_simultaneous_terms
  then flat_map (fun subset_size => combinations (seq 0 n) subset_size) (seq 1 n)
  else map (fun i => [i]) (seq 0 n).

(** [self.terms[i] for i in indices]; hamiltonian/hamiltonian.py:280, 283. *)
Fixpoint pick_terms (ts : list term) (indices : list nat) : res (list term) :=
  match indices with
  | [] => Ok []
  | i :: t =>
      match nth_error ts i with
      | None => Raise IndexError
      | Some x => do r <- pick_terms ts t; Ok (x :: r)
      end
  end.

(** ["+".join(...)]; hamiltonian/hamiltonian.py:258. *)
Fixpoint join_plus (l : list string) : string :=
  match l with
  | [] => ""
  | [s] => s
  | s :: t => (s ++ "+" ++ join_plus t)%string
  end.

(** The body of the loop of [_get_unitary_primitives];
    hamiltonian/hamiltonian.py:254-263. *)
Definition subset_primitive (h : hamiltonian) (max_t_step : R) (indices : list nat) : res primitive :=
  do subset <- pick_terms (h_terms h) indices;
  do pu <- pd_time_evolution (h_dim h) (sum_matrices subset) (- max_t_step) max_t_step
             (join_plus (map str_nat indices));
  mk_primitive (Family pu) (Some [all_qubits h]).

(** A list comprehension or loop of a function that may raise;
    hamiltonian/hamiltonian.py:254-263. *)
Fixpoint mapM {A B} (f : A -> res B) (l : list A) : res (list B) :=
  match l with
  | [] => Ok []
  | x :: t => do y <- f x; do r <- mapM f t; Ok (y :: r)
  end.

(** [_get_unitary_primitives]; hamiltonian/hamiltonian.py:243-265. *)
Definition stoq_primitives (h : hamiltonian) (max_t_step : R) (allow_simultaneous_terms : bool)
  : res (list primitive) :=
  mapM (subset_primitive h max_t_step) (subset_indices (List.length (h_terms h)) allow_simultaneous_terms).

(** * Sequences *)
Open Scope se_scope.

(** [for _ in range(n): entries.append(UnitarySequenceEntry(u, apply_to))];
    hamiltonian/hamiltonian.py:109-111. *)
Fixpoint ideal_entries (u : unitary) (apply_to : list Z) (n : nat) : RM (list nat) :=
  match n with
  | O => se_ret []
  | S k =>
      l <-- call_entry eps (NewEntry u apply_to) ;;
      ls <-- ideal_entries u apply_to k ;;
      se_ret (l :: ls)
  end.

(** [time / num_steps] for a Python float; hamiltonian/hamiltonian.py:106, 139. *)
Definition per_step (time : R) (num_steps : Z) : RM R :=
  if Z.eqb num_steps 0 then se_raise ZeroDivisionError else se_ret (time / IZR num_steps)%R.

(** [get_ideal_sequence]; hamiltonian/hamiltonian.py:86-113. *)
Definition ideal_sequence (h : hamiltonian) (time : R) (num_steps : Z) : RM nat :=
  dt <-- per_step time num_steps ;;
  u <-- se_lift (time_evolution_operator h dt) ;;
  ls <-- ideal_entries u (all_qubits h) (Z.to_nat num_steps) ;;
  call_sequence eps (NewSequence (h_dim h) false ls).

(** The inner loop of [get_trotter_sequence]; hamiltonian/hamiltonian.py:145-150. *)
Fixpoint term_entries (h : hamiltonian) (dt : R) (indices : list nat) : RM (list nat) :=
  match indices with
  | [] => se_ret []
  | i :: t =>
      match nth_error (h_terms h) i with
      | None => se_raise IndexError
      | Some x =>
          u <-- se_lift (time_evolution (h_dim h) (t_matrix x) dt (str_nat i)) ;;
          l <-- call_entry eps (NewEntry u (all_qubits h)) ;;
          ls <-- term_entries h dt t ;;
          se_ret (l :: ls)
      end
  end.

Section Drawn.
(** The answers of the random generators ([random] and [np.random]). *)
Variable g : rng.

(** The outer loop of [get_trotter_sequence]; [random.shuffle] works in place, so
    each step shuffles the previous order; hamiltonian/hamiltonian.py:142-150. *)
Fixpoint trotter_entries (h : hamiltonian) (dt : R) (randomize : bool) (indices : list nat) (n : nat)
  : RM (list nat) :=
  match n with
  | O => se_ret []
  | S k =>
      indices' <-- (if randomize then shuffle g 0%nat indices else se_ret indices) ;;
      ls <-- term_entries h dt indices' ;;
      ls' <-- trotter_entries h dt randomize indices' k ;;
      se_ret (ls ++ ls')
  end.

(** [get_trotter_sequence]; hamiltonian/hamiltonian.py:115-152. *)
Definition trotter_sequence (h : hamiltonian) (time : R) (num_trotter_steps : Z) (randomize : bool)
  : RM nat :=
  dt <-- per_step time num_trotter_steps ;;
  ls <-- trotter_entries h dt randomize (seq 0 (List.length (h_terms h))) (Z.to_nat num_trotter_steps) ;;
  call_sequence eps (NewSequence (h_dim h) false ls).

(** [coefficients]; hamiltonian/hamiltonian.py:174. *)
Definition coefficients (h : hamiltonian) : list R := map t_coeff (h_terms h).

(** The loop of [get_qdrift_sequence]; hamiltonian/hamiltonian.py:179-186. *)
Fixpoint qdrift_entries (h : hamiltonian) (p : list R) (dt : R) (n : nat) : RM (list nat) :=
  match n with
  | O => se_ret []
  | S k =>
      i <-- choice_p g (List.length (h_terms h)) p ;;
      match nth_error (h_terms h) i with
      | None => se_raise IndexError
      | Some x =>
          u <-- se_lift (time_evolution (h_dim h) (t_norm x) dt (str_nat i ++ " λ/N")) ;;
          l <-- call_entry eps (NewEntry u (all_qubits h)) ;;
          ls <-- qdrift_entries h p dt k ;;
          se_ret (l :: ls)
      end
  end.

(** [get_qdrift_sequence]; hamiltonian/hamiltonian.py:154-188.  The quotient by
    [num_repetitions] is one of numpy numbers, which gives inf for 0 instead of an
    exception; the value is not used then. *)
Definition qdrift_sequence (h : hamiltonian) (time : R) (num_repetitions : Z) : RM nat :=
  let sum_coefficients := sumR (coefficients h) in
  let prob_coefficients := map (fun c => (c / sum_coefficients)%R) (coefficients h) in
  let time_per_step := (sum_coefficients * time / IZR num_repetitions)%R in
  ls <-- qdrift_entries h prob_coefficients time_per_step (Z.to_nat num_repetitions) ;;
  call_sequence eps (NewSequence (h_dim h) false ls).

(** [_compile_stoq_sequence_for_target_unitary]; hamiltonian/hamiltonian.py:223-241,
    with the defaults of compiler/compiler.py:47-51. *)
Definition compile_stoq_for (h : hamiltonian) (target : unitary) (max_t_step threshold : R)
    (allow_simultaneous_terms : bool) : RM (nat * list R) :=
  ps <-- se_lift (stoq_primitives h max_t_step allow_simultaneous_terms) ;;
  with_compiler (mk_compiler (h_dim h) false ps None (1 / 2) (1 / 10))
    (compile g eps target (Some threshold) 10000).

(** [compile_stoq_sequence]; hamiltonian/hamiltonian.py:190-221. *)
Definition compile_stoq_sequence (h : hamiltonian) (time max_t_step threshold : R)
    (allow_simultaneous_terms : bool) : RM (nat * list R) :=
  target <-- se_lift (time_evolution_operator h time) ;;
  compile_stoq_for h target max_t_step threshold allow_simultaneous_terms.

(** [primitive.get_unitary().as_unitary([t])]: only a [ParameterizedUnitary] has
    this method; hamiltonian/hamiltonian.py:327-328. *)
Definition primitive_at (p : primitive) (t : R) : res unitary :=
  match p_source p with
  | Family pu => as_unitary eps pu [t]
  | Fixed _ => Raise AttributeError
  end.

(** The loop [while total_time < time]; hamiltonian/hamiltonian.py:324-330.
    [fuel] bounds the number of rounds looked at. *)
Fixpoint rav_loop (fuel : nat) (ps : list primitive) (apply_to : list Z) (max_t_step time : R)
    (s : nat) (total_time : R) : RM unit :=
  if Rltb total_time time then
    match fuel with
    | O => se_raise OutOfFuel
    | S k =>
        r1 <-- draw_unif g ;;
        r2 <-- draw_unif g ;;
        let t_step := ((max_t_step * r1) * (if Rltb r2 (8 / 10) then 1 else -1))%R in
        i <-- choice_unif g (List.length ps) ;;
        match nth_error ps i with
        | None => se_raise IndexError
        | Some p =>
            u_step <-- se_lift (primitive_at p t_step) ;;
            l <-- call_entry eps (NewEntry u_step apply_to) ;;
            call eps (AppendLast s l true) ;;;
            rav_loop k ps apply_to max_t_step time s (total_time + Rabs t_step)%R
        end
    end
  else se_ret tt.

(** [compile_rav_sequence]; hamiltonian/hamiltonian.py:285-343. *)
Definition compile_rav_sequence (fuel : nat) (h : hamiltonian) (time max_t_step threshold : R)
    (allow_simultaneous_terms : bool) : RM (nat * list R) :=
  ps <-- se_lift (stoq_primitives h max_t_step allow_simultaneous_terms) ;;
  s <-- call_sequence eps (NewSequence (h_dim h) false []) ;;
  rav_loop fuel ps (all_qubits h) max_t_step time s 0 ;;;
  compile_inverse eps s (fun target =>
    compile_stoq_for h target max_t_step threshold allow_simultaneous_terms).

End Drawn.
End Evolution.
