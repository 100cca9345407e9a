(** What a compilation gives depends on nothing but its arguments and the random answers: C108.

    [same_answers g1 d1 g2 d2]: from those questions on the two generators answer alike (the same seed was set).
    [same_compilation]: the same costs, annealing state, number of questions and sequence, or the same exception
    (SpecRepro.v). *)
From Coq Require Import Reals List Arith Bool String ZArith.
From Coquelicot Require Import Complex.
From Verif Require Import Base CMat ModelUnitary ModelEntry ModelPrimitive ModelSequence ModelCompiler ModelRound Spec SpecModel
  SpecCompiler SpecAgree SpecRepro PRepro PReproEx.
Import ListNotations.
Open Scope R_scope.

(** C108: two calls of compile() with the same arguments, compiler and random answers end alike, whatever sequences and entries
    other code made before, at every clean-up threshold, also when they end with an exception. *)
Theorem C108_compile : forall g1 g2 eps target thr K c st1 st2,
  rng_ok g1 -> same_answers g1 (r_draws st1) g2 (r_draws st2) ->
  reachable eps (r_world st1) -> reachable eps (r_world st2) ->
  same_compilation (r_draws st1) (r_draws st2) (compile g1 eps target thr K (st1, c)) (compile g2 eps target thr K (st2, c)).
Proof. exact compile_repro. Qed.
Print Assumptions C108_compile.

(** C108: the same for compile_layered(). *)
Theorem C108_layered : forall g1 g2 eps target counts thr K c st1 st2,
  rng_ok g1 -> same_answers g1 (r_draws st1) g2 (r_draws st2) ->
  reachable eps (r_world st1) -> reachable eps (r_world st2) ->
  same_compilation (r_draws st1) (r_draws st2) (compile_layered g1 eps target counts thr K (st1, c)) (compile_layered g2 eps target counts thr K (st2, c)).
Proof. exact layered_repro. Qed.
Print Assumptions C108_layered.

(** A run of one step, repeated after another sequence was made and five random numbers were drawn. *)
Example C108_case : exists g1 g2 c target st1 st2 st1' st2' c' s1 s2 costs,
  rng_ok g1 /\ rng_ok g2 /\ same_answers g1 (r_draws st1) g2 (r_draws st2) /\
  reachable 0 (r_world st1) /\ reachable 0 (r_world st2) /\
  r_draws st1 <> r_draws st2 /\ List.length (w_seqs (r_world st1)) <> List.length (w_seqs (r_world st2)) /\
  compile g1 0 target (Some 2%R) 1 (st1, c) = ((st1', c'), Ok (s1, costs)) /\
  compile g2 0 target (Some 2%R) 1 (st2, c) = ((st2', c'), Ok (s2, costs)) /\
  List.length costs = 1%nat /\ List.length (contents (r_world st1') s1) = 1%nat /\
  contents (r_world st2') s2 = contents (r_world st1') s1.
Proof. exact ex_C108_lemma. Qed.

(** The same with a layer of three gates. *)
Example C108_layered_case : exists g1 g2 c target counts st1 st2 st1' st2' c' s1 s2 costs,
  rng_ok g1 /\ rng_ok g2 /\ same_answers g1 (r_draws st1) g2 (r_draws st2) /\
  reachable 0 (r_world st1) /\ reachable 0 (r_world st2) /\
  r_draws st1 <> r_draws st2 /\ List.length (w_seqs (r_world st1)) <> List.length (w_seqs (r_world st2)) /\
  compile_layered g1 0 target counts (Some 2%R) 1 (st1, c) = ((st1', c'), Ok (s1, costs)) /\
  compile_layered g2 0 target counts (Some 2%R) 1 (st2, c) = ((st2', c'), Ok (s2, costs)) /\
  List.length costs = 1%nat /\ List.length (contents (r_world st1') s1) = 3%nat /\
  contents (r_world st2') s2 = contents (r_world st1') s1.
Proof. exact ex_C108_layered_lemma. Qed.

