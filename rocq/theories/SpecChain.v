(** Vocabulary for statements about the chances of random steps. *)
From Coq Require Import Reals List Arith ZArith ClassicalEpsilon.
From Coquelicot Require Import Coquelicot.
From Verif Require Import Base CMat ModelUnitary ModelEntry ModelPrimitive ModelSequence ModelCompiler Spec SpecModel
  SpecCompiler.
Import ListNotations.
Open Scope R_scope.

(** * Averages over an ideal random generator *)

(** The arithmetic mean of [F] over a list. *)
Definition meanl {A} (l : list A) (F : A -> R) : R := fold_right Rplus 0 (map F l) / INR (List.length l).

(** All orders of the elements of a list. *)
Fixpoint insertions {A} (x : A) (l : list A) : list (list A) :=
  (x :: l) :: match l with [] => [] | y :: t => map (cons y) (insertions x t) end.
Fixpoint orders {A} (l : list A) : list (list A) :=
  match l with [] => [[]] | x :: t => flat_map (insertions x) (orders t) end.

(** What a program may ask the generator for: a number of [0, 1), an integer below
    [n], an order of [0 .. n-1]. *)
Inductive question : Type := QUnif | QInt (n : nat) | QPerm (n : nat).
Inductive answer : Type := AReal (x : R) | AInt (k : nat) | AList (l : list nat).

(** The answers a question can have. *)
Definition possible (q : question) (a : answer) : Prop :=
  match q, a with
  | QUnif, AReal x => 0 <= x < 1
  | QInt n, AInt k => (k < n)%nat
  | QPerm n, AList l => In l (orders (seq 0 n))
  | _, _ => False
  end.

(** [m] is the mean of [F] over the answers: uniform in each case. *)
Definition mean_answer (q : question) (F : answer -> R) (m : R) : Prop :=
  match q with
  | QUnif => is_RInt (fun x => F (AReal x)) 0 1 m
  | QInt n => (0 < n)%nat /\ m = meanl (seq 0 n) (fun k => F (AInt k))
  | QPerm n => m = meanl (orders (seq 0 n)) (fun l => F (AList l))
  end.

(** The generator's answer to its [k]-th question is [a]. *)
Definition replies (g : rng) (k : nat) (qa : question * answer) : Prop :=
  match qa with
  | (QUnif, AReal x) => g_unif g k = x
  | (QInt n, AInt i) => g_int g k n = i
  | (QPerm n, AList l) => g_perm g k n = l
  | _ => False
  end.
(** Its answers from the [r]-th question on are those listed. *)
Definition tells (g : rng) (r : nat) (h : list (question * answer)) : Prop :=
  forall i qa, nth_error h i = Some qa -> replies g (r + i) qa.

(** [m] is the mean of [f] over the generator's answers from the [r]-th question
    on, given the answers [h] to the first of them; [f] may depend on finitely many
    of them, and which question comes next may depend on the answers so far. *)
Inductive average (r : nat) (f : rng -> R) : list (question * answer) -> R -> Prop :=
| average_known h m : (forall g, rng_ok g -> tells g r h -> f g = m) -> average r f h m
| average_ask h q F m :
    (forall a, possible q a -> average r f (h ++ [(q, a)]) (F a)) -> mean_answer q F m -> average r f h m.

(** 1 if the statement holds, else 0. *)
Definition ind (P : Prop) : R := if excluded_middle_informative P then 1 else 0.

(** The chance of an event. *)
Definition chance (r : nat) (E : rng -> Prop) (p : R) : Prop := average r (fun g => ind (E g)) [] p.

(** * The offered gates *)
Notation gate_on := (unitary * list nat)%type.

(** The places of a primitive on [n] qubits, for a gate of [k] qubits: the listed
    ones, or the first [k] qubits of any order. *)
Definition places (n k : nat) (p : primitive) : list (list nat) :=
  match p_allowed p with Some ls => ls | None => map (firstn k) (orders (seq 0 n)) end.

(** The mean of [F] over the gates of a primitive, for a primitive with one gate. *)
Definition gate_mean (n : nat) (p : primitive) (F : gate_on -> R) : R :=
  match p_source p with
  | Fixed u => meanl (places n (Nat.log2 (u_dim u)) p) (fun qs => F (u, qs))
  | Family _ => 0
  end.

(** The mean of [F] over the gates a compiler may append: primitives by their
    probabilities (equal ones if none are given), then places with equal
    probabilities. *)
Definition offer_mean (n : nat) (ps : list primitive) (probs : option (list R)) (F : gate_on -> R) : R :=
  let us := filter has_place ps in
  match probs with
  | None => meanl us (fun p => gate_mean n p F)
  | Some q => fold_right Rplus 0 (map (fun pq => snd pq * gate_mean n (fst pq) F) (List.combine us q))
              / fold_right Rplus 0 q
  end.

(** The probability that the offered gate is [gt]. *)
Definition gate_chance (n : nat) (c : compiler) (gt : gate_on) : R :=
  offer_mean n (c_prims c) (c_probs c) (fun g => ind (g = gt)).

(** * One step *)

(** The cost of a sequence. *)
Definition cost_of (n : nat) (target : unitary) (gs : list gate_on) : R :=
  1 - overlap (2 ^ n) (u_mat target) (ordered n gs).

(** The chance that [gs'] is proposed when the sequence is [gs]: a random gate at
    the first or the last place, or the first or the last gate taken away. *)
Definition proposed (n : nat) (c : compiler) (gs gs' : list gate_on) : R :=
  c_append c / 2 * offer_mean n (c_prims c) (c_probs c) (fun g => ind (g :: gs = gs')) +
  c_append c / 2 * offer_mean n (c_prims c) (c_probs c) (fun g => ind (gs ++ [g] = gs')) +
  (1 - c_append c) / 2 * ind (tl gs = gs') +
  (1 - c_append c) / 2 * ind (removelast gs = gs').

(** The mean of [F] when [gs1] is proposed and accepted by Metropolis' rule. *)
Definition accept_mean (n : nat) (beta : R) (target : unitary) (F : list gate_on -> R) (gs gs1 : list gate_on) : R :=
  let a := metropolis beta (cost_of n target gs1 - cost_of n target gs) in a * F gs1 + (1 - a) * F gs.

(** The mean of [F] over the proposals from [gs]. *)
Definition single_mean (n : nat) (c : compiler) (gs : list gate_on) (F : list gate_on -> R) : R :=
  c_append c / 2 * offer_mean n (c_prims c) (c_probs c) (fun g => F (g :: gs)) +
  c_append c / 2 * offer_mean n (c_prims c) (c_probs c) (fun g => F (gs ++ [g])) +
  (1 - c_append c) / 2 * F (tl gs) +
  (1 - c_append c) / 2 * F (removelast gs).

(** The mean of [F] over the sequences after one step from [gs]. *)
Definition step_mean (n : nat) (c : compiler) (beta : R) (target : unitary) (F : list gate_on -> R)
    (gs : list gate_on) : R :=
  single_mean n c gs (accept_mean n beta target F gs).

(** The contents after one step of compile(). *)
Definition step_contents (st : rstate) (c : compiler) (s : nat) (target : unitary) (g : rng) : list gate_on :=
  contents (r_world (fst (fst (compile_step g 0 (make_random_change g 0) s target (st, c))))) s.

(** The weight of a sequence at inverse temperature [beta]: Boltzmann's factor times,
    for each gate, its probability and the odds of appending. *)
Definition boltzmann (n : nat) (c : compiler) (beta : R) (target : unitary) (gs : list gate_on) : R :=
  exp (- beta * cost_of n target gs) *
  fold_right Rmult 1 (map (fun g => c_append c / (1 - c_append c) * gate_chance n c g) gs).

(** Every primitive is one fixed gate. *)
Definition fixed_gates (c : compiler) : Prop :=
  forall p, In p (c_prims c) -> exists u, p_source p = Fixed u.

(** * The whole compilation *)

(** How far from the target a sequence may be for the compiler to stop: [1 - thr]
    with a threshold, numpy's absolute tolerance without one. *)
Definition tolerance (thr : option R) : R := match thr with Some t => 1 - t | None => / 10 ^ 8 end.

(** The mean of [F] over the final sequence and the recorded costs, after at most
    [k] steps from [gs] and costs [costs]; [P gs] is the mean over the proposals
    from [gs].  Before each step the inverse temperature rises by the rate, up to
    its maximum. *)
Fixpoint run_mean (P : list gate_on -> (list gate_on -> R) -> R) (n : nat) (c : compiler) (target : unitary)
    (thr : option R) (F : list gate_on -> list R -> R) (k : nat) (beta : R) (gs : list gate_on) (costs : list R) : R :=
  if Rle_dec (cost_of n target gs) (tolerance thr) then F gs costs
  else match k with
       | O => F gs costs
       | S k' =>
           let beta' := Rmin (beta + c_rate c) (c_max_beta c) in
           P gs (accept_mean n beta' target
                   (fun gs' => run_mean P n c target thr F k' beta' gs' (costs ++ [cost_of n target gs'])) gs)
       end.

(** What compile() returns, with the contents of the sequence in place of its
    reference. *)
Definition compiled (st : rstate) (c : compiler) (target : unitary) (thr : option R) (max : Z) (g : rng)
  : option (list gate_on * list R) :=
  match compile g 0 target thr max (st, c) with
  | ((st', _), Ok (s, costs)) => Some (contents (r_world st') s, costs)
  | _ => None
  end.

(** * Layers *)

(** The primitives of a layer, each as often as its count says. *)
Definition table_list (counts : list (primitive * Z)) : list primitive :=
  flat_map (fun pc => repeat (fst pc) (Z.to_nat (snd pc))) counts.

(** The mean of [F] over lists with one gate of each primitive, chosen independently. *)
Fixpoint gates_mean (n : nat) (ps : list primitive) (F : list gate_on -> R) : R :=
  match ps with
  | [] => F []
  | p :: t => gate_mean n p (fun g => gates_mean n t (fun l => F (g :: l)))
  end.

(** The mean of [F] over layers: such lists in random order. *)
Definition layer_mean (n : nat) (counts : list (primitive * Z)) (F : list gate_on -> R) : R :=
  gates_mean n (table_list counts) (fun l => meanl (orders l) F).

(** The chance of a layer. *)
Definition layer_chance (n : nat) (counts : list (primitive * Z)) (layer : list gate_on) : R :=
  layer_mean n counts (fun l => ind (l = layer)).

(** The mean of [F] over the proposals of compile_layered() from [gs]: a layer is put
    in front gate by gate, so in reverse, or behind; removing takes as many gates as the
    counts sum up to. *)
Definition layered_mean (n : nat) (c : compiler) (counts : list (primitive * Z)) (gs : list gate_on)
    (F : list gate_on -> R) : R :=
  let size := Z.to_nat (fold_right Z.add 0%Z (map snd counts)) in
  c_append c / 2 * layer_mean n counts (fun l => F (rev l ++ gs)) +
  c_append c / 2 * layer_mean n counts (fun l => F (gs ++ l)) +
  (1 - c_append c) / 2 * F (skipn size gs) +
  (1 - c_append c) / 2 * F (firstn (List.length gs - size) gs).

(** Every primitive of the table is one fixed gate. *)
Definition fixed_table (counts : list (primitive * Z)) : Prop :=
  forall pc, In pc counts -> exists u, p_source (fst pc) = Fixed u.

(** What compile_layered() returns. *)
Definition compiled_layered (st : rstate) (c : compiler) (target : unitary) (counts : list (primitive * Z)) (thr : option R)
    (max : Z) (g : rng) : option (list gate_on * list R) :=
  match compile_layered g 0 target counts thr max (st, c) with
  | ((st', _), Ok (s, costs)) => Some (contents (r_world st') s, costs)
  | _ => None
  end.
