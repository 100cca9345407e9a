(** The weighted random choices in double precision: compiler/compiler.py:224-225, 323-331, 357-365,
    hamiltonian/hamiltonian.py:174-180.  Definitions only.

    [rn] of ModelRound64.v rounds to nearest even after every operation; overflow is left out, so this is meant for
    numbers whose sum is below the largest double. *)
From Coq Require Import Reals List Arith Bool ZArith.
From Verif Require Import Base CMat ModelUnitary ModelRound64 ModelCompiler.
Import ListNotations.
Open Scope R_scope.

(** The loop of numpy's [kahan_sum], which [np.random.choice] uses on [p]; compiler/compiler.py:224-225, 329-331,
    hamiltonian/hamiltonian.py:180 (inside [choice]). *)
Fixpoint kahan_loop (sum c : R) (l : list R) : R :=
  match l with
  | [] => sum
  | p :: l' =>
      let y := rn (p - c) in
      let t := rn (sum + y) in
      kahan_loop t (rn (rn (t - sum) - y)) l'
  end.

(** numpy's [kahan_sum]; compiler/compiler.py:224-225, 329-331, hamiltonian/hamiltonian.py:180 (inside [choice]). *)
Definition kahan_sum (l : list R) : R := match l with [] => 0 | p :: l' => kahan_loop p 0 l' end.

(** [p.cumsum()]; compiler/compiler.py:224-225, 329-331, hamiltonian/hamiltonian.py:180 (inside [choice]). *)
Fixpoint cumsum64 (acc : R) (l : list R) : list R :=
  match l with [] => [] | x :: l' => rn (acc + x) :: cumsum64 (rn (acc + x)) l' end.

(** [np.random.choice] with [p] among [n] things where [random_sample()] gives [sample]; compiler/compiler.py:224-225,
    329-331, hamiltonian/hamiltonian.py:180.  The counterpart of [choice_p] of ModelCompiler.v. *)
Definition choice64 (n : nat) (p : list R) (sample : R) : res nat :=
  if Nat.eqb n 0 then Raise ValueError
  else if negb (Nat.eqb (List.length p) n) then Raise ValueError
  else if existsb (fun x => Rltb x 0) p then Raise ValueError
  else if Rltb choice_tol (Rabs (rn (kahan_sum p - 1))) then Raise ValueError
  else
    let cdf := cumsum64 0 p in
    let cdf := map (fun c => rn (c / last cdf 0)) cdf in
    Ok (searchsorted cdf sample).

(** The order in which [np.sum] adds, which depends on the number of summands; hamiltonian/hamiltonian.py:175. *)
Inductive summation : Type := Item (x : R) | Add (l r : summation).

(** What is added; hamiltonian/hamiltonian.py:175. *)
Fixpoint items (t : summation) : list R := match t with Item x => [x] | Add l r => items l ++ items r end.

(** [np.sum]; hamiltonian/hamiltonian.py:175. *)
Fixpoint sum64 (t : summation) : R := match t with Item x => x | Add l r => rn (sum64 l + sum64 r) end.

(** [coefficients / sum_coefficients]; hamiltonian/hamiltonian.py:176. *)
Definition prob_coefficients64 (t : summation) (coefficients : list R) : list R :=
  map (fun c => rn (c / sum64 t)) coefficients.

(** The choice of a term in [get_qdrift_sequence]; hamiltonian/hamiltonian.py:174-180. *)
Definition qdrift_choice64 (t : summation) (coefficients : list R) (sample : R) : res nat :=
  choice64 (List.length coefficients) (prob_coefficients64 t coefficients) sample.

(** The choice of the action; compiler/compiler.py:323-331, 357-365.  The number of the action in [actions]. *)
Definition action_choice64 (append_probability sample : R) : res nat :=
  let count_append := List.length (filter is_append actions) in
  let count_non_append := (List.length actions - count_append)%nat in
  let p_append := rn (append_probability / INR count_append) in
  let p_non_append := rn (rn (1 - append_probability) / INR count_non_append) in
  choice64 (List.length actions) (map (fun a => if is_append a then p_append else p_non_append) actions) sample.
