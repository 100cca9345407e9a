(** What the sequence generators give depends on nothing but their arguments and the random answers: C109.

    [same_answers], [same_made], [same_run]: see SpecRepro.v and PropsRepro.v. *)
From Coq Require Import Reals List Arith Bool String ZArith.
From Coquelicot Require Import Complex.
From Verif Require Import Base CMat Det Norms Expm ModelUnitary ModelEntry ModelPrimitive ModelSequence ModelCompiler ModelVerification
  ModelGates ModelHamiltonian ModelRound Spec SpecModel SpecCompiler SpecGates SpecHamiltonian SpecChannel SpecAgree SpecRepro PCompCases PVerifyProps
  PReproHam PReproHamEx.
Import ListNotations.
Open Scope R_scope.

(** C109: get_ideal_sequence() gives the same sequence (or the same exception) in every world. *)
Theorem C109_ideal : forall eps h time n st1 st2, reachable eps (r_world st1) -> reachable eps (r_world st2) ->
  same_made (r_draws st1) (r_draws st2) (ideal_sequence eps h time n st1) (ideal_sequence eps h time n st2).
Proof. exact ideal_repro. Qed.
Print Assumptions C109_ideal.

(** C109: get_trotter_sequence() gives the same sequence for the same random answers, with and without random orders. *)
Theorem C109_trotter : forall g1 g2 eps h time n randomize st1 st2,
  same_answers g1 (r_draws st1) g2 (r_draws st2) -> reachable eps (r_world st1) -> reachable eps (r_world st2) ->
  same_made (r_draws st1) (r_draws st2) (trotter_sequence eps g1 h time n randomize st1) (trotter_sequence eps g2 h time n randomize st2).
Proof. exact trotter_repro. Qed.
Print Assumptions C109_trotter.

(** C109: so does get_qdrift_sequence(). *)
Theorem C109_qdrift : forall g1 g2 eps h time n st1 st2,
  same_answers g1 (r_draws st1) g2 (r_draws st2) -> reachable eps (r_world st1) -> reachable eps (r_world st2) ->
  same_made (r_draws st1) (r_draws st2) (qdrift_sequence eps g1 h time n st1) (qdrift_sequence eps g2 h time n st2).
Proof. exact qdrift_repro. Qed.
Print Assumptions C109_qdrift.

(** C109: compile_stoq_sequence() gives the same sequence and costs. *)
Theorem C109_stoq : forall g1 g2 eps h time max_t threshold simultaneous st1 st2,
  rng_ok g1 -> same_answers g1 (r_draws st1) g2 (r_draws st2) -> reachable eps (r_world st1) -> reachable eps (r_world st2) ->
  same_run (r_draws st1) (r_draws st2) (compile_stoq_sequence eps g1 h time max_t threshold simultaneous st1)
    (compile_stoq_sequence eps g2 h time max_t threshold simultaneous st2).
Proof. exact stoq_repro. Qed.
Print Assumptions C109_stoq.

(** C109: compile_rav_sequence() too: the random part, the compiled inverse and their combination. *)
Theorem C109_hamiltonian_rav : forall g1 g2 eps fuel h time max_t threshold simultaneous st1 st2,
  rng_ok g1 -> same_answers g1 (r_draws st1) g2 (r_draws st2) -> reachable eps (r_world st1) -> reachable eps (r_world st2) ->
  same_run (r_draws st1) (r_draws st2) (compile_rav_sequence eps g1 fuel h time max_t threshold simultaneous st1)
    (compile_rav_sequence eps g2 fuel h time max_t threshold simultaneous st2).
Proof. exact ham_rav_repro. Qed.
Print Assumptions C109_hamiltonian_rav.

(** C109: generate_rav_sequence() too. *)
Theorem C109_rav : forall g1 g2 eps d is_array ps len threshold append probs max st1 st2,
  rng_ok g1 -> same_answers g1 (r_draws st1) g2 (r_draws st2) -> reachable eps (r_world st1) -> reachable eps (r_world st2) ->
  same_run (r_draws st1) (r_draws st2) (generate_rav_sequence g1 eps d is_array ps len threshold append probs max st1)
    (generate_rav_sequence g2 eps d is_array ps len threshold append probs max st2).
Proof. exact rav_repro. Qed.
Print Assumptions C109_rav.

(** C109: generate_layered_rav_sequence() too. *)
Theorem C109_layered_rav : forall g1 g2 eps d counts n threshold append max st1 st2,
  rng_ok g1 -> same_answers g1 (r_draws st1) g2 (r_draws st2) -> reachable eps (r_world st1) -> reachable eps (r_world st2) ->
  same_run (r_draws st1) (r_draws st2) (generate_layered_rav_sequence g1 eps d counts n threshold append max st1)
    (generate_layered_rav_sequence g2 eps d counts n threshold append max st2).
Proof. exact layered_rav_repro. Qed.
Print Assumptions C109_layered_rav.

(** C109: generate_xeb_sequence() too. *)
Theorem C109_xeb : forall g1 g2 eps d counts n st1 st2,
  rng_ok g1 -> same_answers g1 (r_draws st1) g2 (r_draws st2) -> reachable eps (r_world st1) -> reachable eps (r_world st2) ->
  same_run (r_draws st1) (r_draws st2) (generate_xeb_sequence g1 eps d counts n st1) (generate_xeb_sequence g2 eps d counts n st2).
Proof. exact xeb_repro. Qed.
Print Assumptions C109_xeb.

(** X and Z, ten steps, at the threshold of the code, repeated after another sequence was made and five numbers were drawn. *)
Example C109_made_case : exists g1 g2 h st1 st2, hamiltonian_of (2 ^ 1) [pauli_x; pauli_z] h /\
  same_answers g1 (r_draws st1) g2 (r_draws st2) /\ reachable eps_code (r_world st1) /\ reachable eps_code (r_world st2) /\
  r_draws st1 <> r_draws st2 /\ List.length (w_seqs (r_world st1)) <> List.length (w_seqs (r_world st2)) /\
  (exists t1 t2 s1 s2, trotter_sequence eps_code g1 h 1 10 true st1 = (t1, Ok s1) /\
     trotter_sequence eps_code g2 h 1 10 true st2 = (t2, Ok s2) /\ contents (r_world t2) s2 = contents (r_world t1) s1) /\
  (exists t1 t2 s1 s2, qdrift_sequence eps_code g1 h 1 10 st1 = (t1, Ok s1) /\
     qdrift_sequence eps_code g2 h 1 10 st2 = (t2, Ok s2) /\ contents (r_world t2) s2 = contents (r_world t1) s1).
Proof. exact ex_C109_made_lemma. Qed.

(** The same for compile_rav_sequence(). *)
Example C109_hamiltonian_case : exists g1 g2 h st1 st2 t1 t2 s1 s2 costs fuel, rng_ok g1 /\ hamiltonian_of (2 ^ 1) [pauli_x; pauli_z] h /\
  same_answers g1 (r_draws st1) g2 (r_draws st2) /\ reachable 0 (r_world st1) /\ reachable 0 (r_world st2) /\
  r_draws st1 <> r_draws st2 /\ List.length (w_seqs (r_world st1)) <> List.length (w_seqs (r_world st2)) /\
  compile_rav_sequence 0 g1 fuel h 1 (1 / 10) (1 / 100) false st1 = (t1, Ok (s1, costs)) /\
  compile_rav_sequence 0 g2 fuel h 1 (1 / 10) (1 / 100) false st2 = (t2, Ok (s2, costs)) /\
  contents (r_world t2) s2 = contents (r_world t1) s1.
Proof. exact ex_C109_ham_lemma. Qed.

(** The same for generate_layered_rav_sequence(). *)
Example C109_rav_case : exists g1 g2 u st1 st2 t1 t2 s1 s2 costs, rng_ok g1 /\
  same_answers g1 (r_draws st1) g2 (r_draws st2) /\ reachable 0 (r_world st1) /\ reachable 0 (r_world st2) /\
  r_draws st1 <> r_draws st2 /\ List.length (w_seqs (r_world st1)) <> List.length (w_seqs (r_world st2)) /\
  generate_layered_rav_sequence g1 0 (2 ^ 1) (rot_table u) 2 (9 / 10) (1 / 2) 5 st1 = (t1, Ok (s1, costs)) /\
  generate_layered_rav_sequence g2 0 (2 ^ 1) (rot_table u) 2 (9 / 10) (1 / 2) 5 st2 = (t2, Ok (s2, costs)) /\
  (6 <= List.length (contents (r_world t1) s1))%nat /\ contents (r_world t2) s2 = contents (r_world t1) s1.
Proof. exact ex_C109_rav_lemma. Qed.

