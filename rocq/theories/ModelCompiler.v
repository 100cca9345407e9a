(** Model of stoqcompiler/compiler/compiler.py, compiler_action.py and
    compiler_result.py, and of the parts of [np.random] they use.
    Definitions only. *)
From Coq Require Import Reals List Arith Bool String ZArith.
From Coquelicot Require Import Complex.
From Verif Require Import Base CMat Det CRoot ModelUnitary ModelEntry ModelPrimitive ModelSequence.
Import ListNotations.
Open Scope R_scope.
Open Scope C_scope.
Open Scope se_scope.

(** * Random numbers *)

(** The answers of the global generator [np.random], fixed in advance for all
    calls: what the [k]-th call returns if it asks for a uniform number in
    [0, 1) (compiler/compiler.py:402, parameterized_unitary_parameter.py:81 and
    inside weighted [choice]), for an integer below [n] (compiler.py:224, 238) or
    for a permutation of [0 .. n-1] (compiler.py:241, 312). *)
Record rng : Type := {
  g_unif : nat -> R;
  g_int : nat -> nat -> nat;
  g_perm : nat -> nat -> list nat }.

(** What a client of the library works on: the objects and the number of random
    calls made so far (compiler/compiler.py, whole file). *)
Record rstate : Type := { r_world : world; r_draws : nat }.

(** A computation that uses the library and random numbers;
    compiler/compiler.py, whole file. *)
Definition RM (A : Type) : Type := SE rstate A.

(** [np.sqrt(np.finfo(np.float64).eps)], numpy's tolerance for the sum of the
    probabilities given to [choice] (compiler/compiler.py:224-225, 329-331). *)
Definition choice_tol : R := (/ 2 ^ 26)%R.

(** [np.sum]; compiler/compiler.py:224-225 (inside [choice]). *)
Fixpoint sumR (l : list R) : R :=
  match l with [] => 0%R | x :: t => (x + sumR t)%R end.

(** [p.cumsum()]; compiler/compiler.py:224-225 (inside [choice]). *)
Fixpoint cumsumR (acc : R) (l : list R) : list R :=
  match l with [] => [] | x :: t => (acc + x)%R :: cumsumR (acc + x)%R t end.

(** [cdf.searchsorted(x, side='right')]: the number of leading elements not above
    [x]; compiler/compiler.py:224-225 (inside [choice]). *)
Fixpoint searchsorted (cdf : list R) (x : R) : nat :=
  match cdf with
  | [] => 0%nat
  | c :: t => if Rleb c x then S (searchsorted t x) else 0%nat
  end.

Section Random.
Variable g : rng.

(** [np.random.uniform()], [np.random.random_sample()];
    compiler/compiler.py:402, parameterized_unitary_parameter.py:81. *)
Definition draw_unif : RM R :=
  fun st => ({| r_world := r_world st; r_draws := S (r_draws st) |}, Ok (g_unif g (r_draws st))).

(** [np.random.choice] without [p] among [n] things; an empty population raises
    [ValueError]; compiler/compiler.py:224-225, 237-238. *)
Definition choice_unif (n : nat) : RM nat :=
  if Nat.eqb n 0 then se_raise ValueError
  else fun st => ({| r_world := r_world st; r_draws := S (r_draws st) |}, Ok (g_int g (r_draws st) n)).

(** [np.random.choice] with [p] among [n] things, by numpy's algorithm: check the
    length, the signs and the sum, then invert the cumulated distribution;
    compiler/compiler.py:224-225, 329-331. *)
Definition choice_p (n : nat) (p : list R) : RM nat :=
  if Nat.eqb n 0 then se_raise ValueError
  else if negb (Nat.eqb (List.length p) n) then se_raise ValueError
  else if existsb (fun x => Rltb x 0) p then se_raise ValueError
  else if Rltb choice_tol (Rabs (sumR p - 1)) then se_raise ValueError
  else
    x <-- draw_unif ;;
    let cdf := cumsumR 0 p in
    let cdf := map (fun c => (c / last cdf 0)%R) cdf in
    se_ret (searchsorted cdf x).

(** [np.random.choice(list(range(n)), k, replace=False)];
    compiler/compiler.py:241-242. *)
Definition choice_distinct (n k : nat) : RM (list nat) :=
  if Nat.ltb n k then se_raise ValueError
  else fun st => ({| r_world := r_world st; r_draws := S (r_draws st) |},
                  Ok (firstn k (g_perm g (r_draws st) n))).

(** [np.random.shuffle] of a list; compiler/compiler.py:312. *)
Definition shuffle {A} (default : A) (l : list A) : RM (list A) :=
  fun st => ({| r_world := r_world st; r_draws := S (r_draws st) |},
             Ok (map (fun i => nth i l default) (g_perm g (r_draws st) (List.length l)))).

(** [p.random_value() for p in parameters]; compiler/compiler.py:228-229. *)
Fixpoint random_values (ps : list parameter) : RM (list R) :=
  match ps with
  | [] => se_ret []
  | p :: t =>
      x <-- draw_unif ;;
      vs <-- random_values t ;;
      se_ret (pr_random_value p x :: vs)
  end.

Section Compiler.
(** The clean-up threshold, [1e-12] at unitary/unitary.py:70-71. *)
Variable eps : R.

(** One call of the sequence API; compiler/compiler.py, wherever a
    [UnitarySequence] or [UnitarySequenceEntry] is used. *)
Definition call (o : op) : RM value :=
  fun st => let '(w', r) := step eps o (r_world st) in
            ({| r_world := w'; r_draws := r_draws st |}, r).

(** A call that returns a [Unitary], an entry, a sequence (other results do not
    occur); compiler/compiler.py:170, 174, 178 / 244 / 167, 257. *)
Definition call_unitary (o : op) : RM unitary :=
  v <-- call o ;; match v with VUnitary u => se_ret u | _ => se_raise TypeError end.
(** Same, for entries; compiler/compiler.py:244. *)
Definition call_entry (o : op) : RM nat :=
  v <-- call o ;; match v with VEntry l => se_ret l | _ => se_raise TypeError end.
(** Same, for sequences; compiler/compiler.py:167, 257. *)
Definition call_sequence (o : op) : RM nat :=
  v <-- call o ;; match v with VSequence s => se_ret s | _ => se_raise TypeError end.

(** * Random entries and layers *)

(** The filter on [allowed_apply_to]; compiler/compiler.py:217-220. *)
Definition usable (p : primitive) : bool :=
  match p_allowed p with Some [] => false | _ => true end.

(** [create_random_sequence_entry]; compiler/compiler.py:189-244.
    [int(np.log2(d))] is [Nat.log2 d] (the rounding of [np.log2] is not modelled). *)
Definition create_random_sequence_entry (dimension : nat) (unitary_primitives : list primitive)
    (probabilities : option (list R)) : RM nat :=
  let ps := filter usable unitary_primitives in
  i <-- match probabilities with
        | None => choice_unif (List.length ps)
        | Some p => choice_p (List.length ps) p
        end ;;
  match nth_error ps i with
  | None => se_raise IndexError
  | Some pr =>
      u <-- match p_source pr with
            | Fixed u => se_ret u
            | Family pu =>
                vs <-- random_values (pu_params pu) ;;
                se_lift (as_unitary eps pu vs)
            end ;;
      apply_to <--
        match p_allowed pr with
        | Some allowed =>
            k <-- choice_unif (List.length allowed) ;; se_ret (nth k allowed [])
        | None => choice_distinct (Nat.log2 dimension) (Nat.log2 (u_dim u))
        end ;;
      call_entry (NewEntry u (map Z.of_nat apply_to))
  end.

(** The list comprehension creating [count] entries of one primitive;
    compiler/compiler.py:309-311. *)
Fixpoint create_entries (dimension : nat) (p : primitive) (count : nat) : RM (list nat) :=
  match count with
  | O => se_ret []
  | S k =>
      l <-- create_random_sequence_entry dimension [p] None ;;
      ls <-- create_entries dimension p k ;;
      se_ret (l :: ls)
  end.

(** The loop over the dictionary ([range(count)] is empty for a negative count);
    compiler/compiler.py:307-311. *)
Fixpoint create_layer_loop (dimension : nat) (counts : list (primitive * Z)) : RM (list nat) :=
  match counts with
  | [] => se_ret []
  | (p, c) :: t =>
      ls <-- create_entries dimension p (Z.to_nat c) ;;
      ls' <-- create_layer_loop dimension t ;;
      se_ret (ls ++ ls')
  end.

(** [create_random_layer]; compiler/compiler.py:280-313.  A dictionary from
    primitives (compared by identity) to counts is a list in insertion order. *)
Definition create_random_layer (dimension : nat) (counts : list (primitive * Z)) : RM (list nat) :=
  layer <-- create_layer_loop dimension counts ;;
  shuffle 0%nat layer.

(** * The compiler object *)

(** A [Compiler] object; compiler/compiler.py:64-72.  [c_array] says that
    [unitary_primitives] is a numpy array rather than a list. *)
Record compiler : Type := {
  c_dim : nat;
  c_array : bool;
  c_prims : list primitive;
  c_probs : option (list R);
  c_max_beta : R;
  c_beta : R;
  c_rate : R;
  c_append : R }.

(** [Compiler.__init__]; compiler/compiler.py:44-72. *)
Definition mk_compiler (dimension : nat) (is_array : bool) (unitary_primitives : list primitive)
    (probabilities : option (list R)) (append_probability annealing_rate : R) : res compiler :=
  bind (assert (Nat.ltb 0 dimension)) (fun _ =>
  bind (assert (forallb (fun p => Nat.leb (src_dim (p_source p)) dimension) unitary_primitives)) (fun _ =>
  Ok {| c_dim := dimension; c_array := is_array; c_prims := unitary_primitives;
        c_probs := probabilities; c_max_beta := ((2 ^ dimension) ^ 2)%R; c_beta := 0%R;
        c_rate := annealing_rate; c_append := append_probability |})).

(** A method of the compiler: it works on the client state and on [self];
    compiler/compiler.py:74-402. *)
Definition CM (A : Type) : Type := SE (rstate * compiler) A.

(** Access to [self]; compiler/compiler.py:157-402. *)
Definition c_self : CM compiler := fun st => (st, Ok (snd st)).
(** A computation that does not touch [self]; compiler/compiler.py:157-402. *)
Definition c_run {A} (m : RM A) : CM A :=
  fun st => let '(r', a) := m (fst st) in ((r', snd st), a).
(** [self.beta = ...]; compiler/compiler.py:173, 263. *)
Definition set_beta (c : compiler) (b : R) : compiler :=
  {| c_dim := c_dim c; c_array := c_array c; c_prims := c_prims c; c_probs := c_probs c;
     c_max_beta := c_max_beta c; c_beta := b; c_rate := c_rate c; c_append := c_append c |}.
(** [self.beta = min(self.beta + self.annealing_rate, self.max_beta)];
    compiler/compiler.py:173, 263. *)
Definition anneal : CM unit :=
  fun st => let c := snd st in
            ((fst st, set_beta c (Rmin (c_beta c + c_rate c) (c_max_beta c))), Ok tt).

(** [CompilerAction]; compiler/compiler_action.py:8-15. *)
Inductive action : Type := ActAppendFirst | ActAppendLast | ActRemoveFirst | ActRemoveLast.
(** [list(CompilerAction)]; compiler/compiler_action.py:12-15. *)
Definition actions : list action := [ActAppendFirst; ActAppendLast; ActRemoveFirst; ActRemoveLast].
(** [is_append]; compiler/compiler_action.py:17-31. *)
Definition is_append (a : action) : bool :=
  match a with ActAppendFirst | ActAppendLast => true | _ => false end.

(** The random choice of the action; compiler/compiler.py:323-331, 357-365. *)
Definition choose_action (append_probability : R) : RM action :=
  let count_append := List.length (filter is_append actions) in
  let count_non_append := (List.length actions - count_append)%nat in
  let p_append := (append_probability / INR count_append)%R in
  let p_non_append := ((1 - append_probability) / INR count_non_append)%R in
  i <-- choice_p (List.length actions)
          (map (fun a => if is_append a then p_append else p_non_append) actions) ;;
  se_ret (nth i actions ActRemoveLast).

(** [_make_random_change]; compiler/compiler.py:315-346. *)
Definition make_random_change (s : nat) : CM unit :=
  c <-- c_self ;;
  a <-- c_run (choose_action (c_append c)) ;;
  match a with
  | ActAppendFirst =>
      l <-- c_run (create_random_sequence_entry (c_dim c) (c_prims c) (c_probs c)) ;;
      c_run (call (AppendFirst s l true)) ;;; se_ret tt
  | ActAppendLast =>
      l <-- c_run (create_random_sequence_entry (c_dim c) (c_prims c) (c_probs c)) ;;
      c_run (call (AppendLast s l true)) ;;; se_ret tt
  | ActRemoveFirst => c_run (call (RemoveFirst s true)) ;;; se_ret tt
  | ActRemoveLast => c_run (call (RemoveLast s true)) ;;; se_ret tt
  end.

(** [for i, entry in enumerate(layer): append(entry, save_undo=(i == 0))], where
    [first] stands for [i == 0]; compiler/compiler.py:375-382. *)
Fixpoint append_all (mk : nat -> bool -> op) (ls : list nat) (first : bool) : RM unit :=
  match ls with
  | [] => se_ret tt
  | l :: t => call (mk l first) ;;; append_all mk t false
  end.

(** [for i in range(layer_length): remove(save_undo=(i == 0))];
    compiler/compiler.py:383-388. *)
Fixpoint remove_all (mk : bool -> op) (k : nat) (first : bool) : RM unit :=
  match k with
  | O => se_ret tt
  | S k' => call (mk first) ;;; remove_all mk k' false
  end.

(** [sum(unitary_primitive_counts.values())]; compiler/compiler.py:367. *)
Definition layer_length (counts : list (primitive * Z)) : Z :=
  fold_right (fun pc n => (snd pc + n)%Z) 0%Z counts.

(** [_make_random_change_layered]; compiler/compiler.py:348-388. *)
Definition make_random_change_layered (counts : list (primitive * Z)) (s : nat) : CM unit :=
  c <-- c_self ;;
  a <-- c_run (choose_action (c_append c)) ;;
  match a with
  | ActAppendFirst =>
      ls <-- c_run (create_random_layer (c_dim c) counts) ;;
      c_run (append_all (AppendFirst s) ls true)
  | ActAppendLast =>
      ls <-- c_run (create_random_layer (c_dim c) counts) ;;
      c_run (append_all (AppendLast s) ls true)
  | ActRemoveFirst => c_run (remove_all (RemoveFirst s) (Z.to_nat (layer_length counts)) true)
  | ActRemoveLast => c_run (remove_all (RemoveLast s) (Z.to_nat (layer_length counts)) true)
  end.

(** [_accept_proposed_change]; compiler/compiler.py:390-402. *)
Definition accept_proposed_change (current_cost proposed_cost : R) : CM bool :=
  c <-- c_self ;;
  let cost_difference := (proposed_cost - current_cost)%R in
  let acceptance_probability := Rmin 1 (exp (- c_beta c * cost_difference)) in
  x <-- c_run draw_unif ;;
  se_ret (Rltb x acceptance_probability).

(** The body of the loop: returns the cost it appends to [cost_by_step];
    compiler/compiler.py:173-185 and, word for word the same except for the change
    made, 263-276. *)
Definition compile_step (change : nat -> CM unit) (s : nat) (target : unitary) : CM R :=
  anneal ;;;
  product_before_change <-- c_run (call_unitary (Product s)) ;;
  change s ;;;
  current_cost <-- se_lift (u_distance_from eps target product_before_change) ;;
  p <-- c_run (call_unitary (Product s)) ;;
  proposed_cost <-- se_lift (u_distance_from eps target p) ;;
  accept <-- accept_proposed_change current_cost proposed_cost ;;
  if (accept : bool) then se_ret proposed_cost
  else c_run (call (Undo s)) ;;; se_ret current_cost.

(** The loop; compiler/compiler.py:170-187, 260-278. *)
Fixpoint compile_loop (change : nat -> CM unit) (s : nat) (target : unitary) (threshold : option R)
    (max_step_count : Z) (cost_by_step : list R) (fuel : nat) : CM (list R) :=
  match fuel with
  | O => se_raise OutOfFuel
  | S fuel' =>
      p <-- c_run (call_unitary (Product s)) ;;
      close <-- se_lift (u_close_to eps p target threshold) ;;
      if (close : bool) then se_ret cost_by_step
      else if Z.ltb (Z.of_nat (List.length cost_by_step)) max_step_count then
        cost <-- compile_step change s target ;;
        compile_loop change s target threshold max_step_count (cost_by_step ++ [cost]) fuel'
      else se_ret cost_by_step
  end.

(** [_compile] / [_compile_layered]; compiler/compiler.py:157-187, 246-278.  The
    loop makes at most [max_step_count] rounds, so this fuel is enough. *)
Definition compile_with (change : nat -> CM unit) (target : unitary) (threshold : option R)
    (max_step_count : Z) : CM (nat * list R) :=
  c <-- c_self ;;
  s <-- c_run (call_sequence (NewSequence (c_dim c) false [])) ;;
  costs <-- compile_loop change s target threshold max_step_count [] (S (Z.to_nat max_step_count)) ;;
  se_ret (s, costs).

(** [assert self.unitary_primitives]: a list must not be empty; a numpy array
    with two or more elements has no truth value ([ValueError]);
    compiler/compiler.py:101. *)
Definition assert_primitives (c : compiler) : res unit :=
  if c_array c && Nat.ltb 1 (List.length (c_prims c)) then Raise ValueError
  else assert (negb (Nat.eqb (List.length (c_prims c)) 0)).

(** [compile]; compiler/compiler.py:74-110.  The result is the compiled sequence
    and [cost_by_step] (compiler_result.py:22-33); for the elapsed time see ModelResult.v. *)
Definition compile (target : unitary) (threshold : option R) (max_step_count : Z)
  : CM (nat * list R) :=
  c <-- c_self ;;
  se_lift (assert_primitives c) ;;;
  compile_with make_random_change target threshold max_step_count.

(** [compile_layered]; compiler/compiler.py:112-155. *)
Definition compile_layered (target : unitary) (counts : list (primitive * Z))
    (threshold : option R) (max_step_count : Z) : CM (nat * list R) :=
  compile_with (make_random_change_layered counts) target threshold max_step_count.

End Compiler.
End Random.
