(** The weighted random choices in double precision: C113.

    [double]: Flocq's numbers with 53 bits, without a largest one; [total]: the exact sum.  [chosen delta w x i]: number
    [i] has a positive weight and is the one that belongs to the sample [x], up to [delta] (SpecChoice.v).  [summation]: an
    order of adding up, [items] what is added. *)
From Coq Require Import Reals List Arith Bool ZArith Permutation.
From Verif Require Import Base ModelUnitary ModelRound64 ModelCompiler ModelChoice64 SpecChoice PChoice64 PChoice64Ex.
Import ListNotations.
Open Scope R_scope.

(** C113: numpy's choice accepts up to a million weights that add up to 1 within 2^-27; it never gives a number outside
    the list or one with weight 0, and it inverts the distribution of the weights up to 2^-48 for each of them. *)
Theorem C113_choice : forall p x, (0 < List.length p)%nat -> INR (List.length p) <= 10 ^ 6 ->
  List.Forall (fun y => 0 <= y) p -> Rabs (total p - 1) <= / 2 ^ 27 -> 0 <= x < 1 ->
  exists i, choice64 (List.length p) p x = Ok i /\ chosen (INR (List.length p) * / 2 ^ 48) p x i.
Proof. exact C113_choice_lemma. Qed.
Print Assumptions C113_choice.

(** Ten times the double next to 0.1. *)
Example C113_choice_case : exists p, p = repeat (rn (/ 10)) 10 /\ List.Forall double p /\
  (0 < List.length p)%nat /\ INR (List.length p) <= 10 ^ 6 /\
  List.Forall (fun y => 0 <= y) p /\ Rabs (total p - 1) <= / 2 ^ 27 /\ 0 <= / 2 < 1.
Proof. exact ex_choice_lemma. Qed.

(** C113: so it gives what the choice with real numbers (ModelCompiler.v) gives, unless the sample is that close to the
    border between two numbers. *)
Theorem C113_agrees : forall g st p, let n := List.length p in let x := g_unif g (r_draws st) in
  (0 < n)%nat -> INR n <= 10 ^ 6 -> List.Forall (fun y => 0 <= y) p -> Rabs (total p - 1) <= / 2 ^ 27 -> 0 <= x < 1 ->
  (forall k, (0 < k < n)%nat -> INR n * / 2 ^ 48 < Rabs (x - total (firstn k p) / total p)) ->
  snd (choice_p g n p st) = choice64 n p x.
Proof. exact C113_agrees_lemma. Qed.
Print Assumptions C113_agrees.

(** The same weights and the sample 1/4. *)
Example C113_agrees_case : exists p, p = repeat (rn (/ 10)) 10 /\
  let n := List.length p in let x := 1 / 4 in
  (0 < n)%nat /\ INR n <= 10 ^ 6 /\ List.Forall (fun y => 0 <= y) p /\ Rabs (total p - 1) <= / 2 ^ 27 /\ 0 <= x < 1 /\
  forall k, (0 < k < n)%nat -> INR n * / 2 ^ 48 < Rabs (x - total (firstn k p) / total p).
Proof. exact ex_agrees_lemma. Qed.

(** C113: it raises ValueError for no weights, a wrong number of weights, a negative weight, or a sum away from 1. *)
Theorem C113_refused : forall n p x, INR n <= 10 ^ 6 ->
  n = O \/ List.length p <> n \/ (exists y, In y p /\ y < 0) \/ / 2 ^ 25 <= Rabs (total p - 1) ->
  choice64 n p x = Raise ValueError.
Proof. exact C113_refused_lemma. Qed.
Print Assumptions C113_refused.

(** Weights 1/2 and 1/4. *)
Example C113_refused_case : INR 2 <= 10 ^ 6 /\ / 2 ^ 25 <= Rabs (total [/ 2; / 4] - 1).
Proof. exact ex_refused_lemma. Qed.

(** C113: in get_qdrift_sequence() the rounded quotients always pass numpy's check, in whatever order np.sum adds the
    coefficients, and a term is chosen in proportion to its coefficient. *)
Theorem C113_qdrift : forall t coefs x, Permutation (items t) coefs ->
  List.Forall double coefs -> List.Forall (fun y => 0 <= y) coefs -> 0 < total coefs ->
  INR (List.length coefs) <= 10 ^ 6 -> 0 <= x < 1 ->
  exists i, qdrift_choice64 t coefs x = Ok i /\ chosen (INR (List.length coefs) * / 2 ^ 48) coefs x i.
Proof. exact C113_qdrift_lemma. Qed.
Print Assumptions C113_qdrift.

(** Coefficients 1 and the doubles next to 0.1 and 1/3, added in another order. *)
Example C113_qdrift_case : exists t coefs, coefs = [rn (/ 10); 1; rn (/ 3)] /\
  t = Add (Item 1) (Add (Item (rn (/ 3))) (Item (rn (/ 10)))) /\
  Permutation (items t) coefs /\ List.Forall double coefs /\ List.Forall (fun y => 0 <= y) coefs /\ 0 < total coefs /\
  INR (List.length coefs) <= 10 ^ 6.
Proof. exact ex_qdrift_lemma. Qed.

(** C113: the compiler's choice of an action never fails; with append_probability 0 nothing is appended, with 1 nothing is
    removed. *)
Theorem C113_action : forall ap x, 0 <= ap <= 1 -> 0 <= x < 1 ->
  exists i, action_choice64 ap x = Ok i /\ chosen (/ 2 ^ 46) [ap / 2; ap / 2; (1 - ap) / 2; (1 - ap) / 2] x i.
Proof. exact C113_action_lemma. Qed.
Print Assumptions C113_action.

(** append_probability 1/5 and the sample 1/2. *)
Example C113_action_case : 0 <= / 5 <= 1 /\ 0 <= / 2 < 1.
Proof. exact ex_action_lemma. Qed.

