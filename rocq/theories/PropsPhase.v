(** A compilation does not see the global phase of its target: C110.

    [phase_twins eps t1 t2]: the two targets differ by a global phase, and either the clean-up changes neither of them or
    they act on one or two qubits.  [same_compilation]: the same costs, annealing state, number of questions and sequence,
    or the same exception (SpecRepro.v). *)
From Coq Require Import Reals List Arith Bool String ZArith.
From Coquelicot Require Import Complex.
From Verif Require Import Base CMat Det ModelUnitary ModelEntry ModelPrimitive ModelSequence ModelCompiler ModelRound Spec SpecModel
  SpecCompiler SpecAgree SpecRepro PPhase PPhaseEx.
Import ListNotations.
Open Scope R_scope.
Open Scope C_scope.

(** C110: two calls of compile() whose targets differ by a global phase, with the other arguments and the random answers equal,
    end alike. *)
Theorem C110_compile : forall g1 g2 eps t1 t2 thr K c st1 st2, phase_twins eps t1 t2 ->
  rng_ok g1 -> same_answers g1 (r_draws st1) g2 (r_draws st2) ->
  reachable eps (r_world st1) -> reachable eps (r_world st2) ->
  same_compilation (r_draws st1) (r_draws st2) (compile g1 eps t1 thr K (st1, c)) (compile g2 eps t2 thr K (st2, c)).
Proof. exact compile_phase. Qed.
Print Assumptions C110_compile.

(** C110: the same for compile_layered(). *)
Theorem C110_layered : forall g1 g2 eps t1 t2 counts thr K c st1 st2, phase_twins eps t1 t2 ->
  rng_ok g1 -> same_answers g1 (r_draws st1) g2 (r_draws st2) ->
  reachable eps (r_world st1) -> reachable eps (r_world st2) ->
  same_compilation (r_draws st1) (r_draws st2) (compile_layered g1 eps t1 counts thr K (st1, c)) (compile_layered g2 eps t2 counts thr K (st2, c)).
Proof. exact layered_phase. Qed.
Print Assumptions C110_layered.

(** C110: without the clean-up, a matrix the constructor takes gives such a pair with each multiple of it by a number of
    modulus 1, which the constructor then takes as well. *)
Theorem C110_arrays : forall d M c nm ps iv ap nm' ps' iv' ap' t1, Cmod c = 1%R ->
  mk_unitary 0 d (Some (square d M)) nm ps iv ap = Ok t1 ->
  exists t2, mk_unitary 0 d (Some (square d (mscale c M))) nm' ps' iv' ap' = Ok t2 /\ phase_twins 0 t1 t2.
Proof. exact arrays_phase. Qed.
Print Assumptions C110_arrays.

(** C110: at every clean-up threshold the same holds on one and two qubits for the phases 1, i, -1 and -i. *)
Theorem C110_small : forall eps d M c nm ps iv ap nm' ps' iv' ap' t1, d = 2%nat \/ d = 4%nat -> cpow c 4 = 1 ->
  mk_unitary eps d (Some (square d M)) nm ps iv ap = Ok t1 ->
  exists t2, mk_unitary eps d (Some (square d (mscale c M))) nm' ps' iv' ap' = Ok t2 /\ phase_twins eps t1 t2.
Proof. exact small_phase. Qed.
Print Assumptions C110_small.

(** A run of one step to a rotation and one to its negative. *)
Example C110_case : exists g1 g2 c t1 t2 st1 st2 st1' st2' c' s1 s2 costs,
  rng_ok g1 /\ same_answers g1 (r_draws st1) g2 (r_draws st2) /\ reachable 0 (r_world st1) /\ reachable 0 (r_world st2) /\
  built 0 t1 /\ built 0 t2 /\ phase_twins 0 t1 t2 /\ ~ meq 2 (u_mat t2) (u_mat t1) /\
  compile g1 0 t1 (Some 2%R) 1 (st1, c) = ((st1', c'), Ok (s1, costs)) /\
  compile g2 0 t2 (Some 2%R) 1 (st2, c) = ((st2', c'), Ok (s2, costs)) /\
  List.length costs = 1%nat /\ List.length (contents (r_world st1') s1) = 1%nat /\
  contents (r_world st2') s2 = contents (r_world st1') s1.
Proof. exact ex_C110_lemma. Qed.

(** The same with a layer of three gates. *)
Example C110_layered_case : exists g1 g2 c t1 t2 counts st1 st2 st1' st2' c' s1 s2 costs,
  rng_ok g1 /\ same_answers g1 (r_draws st1) g2 (r_draws st2) /\ reachable 0 (r_world st1) /\ reachable 0 (r_world st2) /\
  built 0 t1 /\ built 0 t2 /\ phase_twins 0 t1 t2 /\ ~ meq 2 (u_mat t2) (u_mat t1) /\
  compile_layered g1 0 t1 counts (Some 2%R) 1 (st1, c) = ((st1', c'), Ok (s1, costs)) /\
  compile_layered g2 0 t2 counts (Some 2%R) 1 (st2, c) = ((st2', c'), Ok (s2, costs)) /\
  contents (r_world st2') s2 = contents (r_world st1') s1.
Proof. exact ex_C110_layered_lemma. Qed.

(** A small rotation and its negative. *)
Example C110_arrays_case : exists d M c t1, Cmod c = 1 /\ c <> 1%C /\
  mk_unitary 0 d (Some (square d M)) None [] false [] = Ok t1.
Proof. exact ex_C110_arrays_lemma. Qed.

(** A rotation whose off-diagonal entries the clean-up removes, at the threshold of the code, and the phase i. *)
Example C110_small_case : exists M t1, unitary_mx 2 M /\ ~ eps_clean eps_code 2 M /\ cpow Ci 4 = 1%C /\
  mk_unitary eps_code 2 (Some (square 2 M)) None [] false [] = Ok t1.
Proof. exact ex_C110_small_lemma. Qed.

