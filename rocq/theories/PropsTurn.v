(** A compilation does not see the global phases of its primitives: C114.

    [turned eps u v]: [v] is [u] times 1, i, -1 or -i, or times any number of modulus 1 when nothing is cleaned up.
    [turned_compiler]: the same compiler but for such phases of its primitives.  [turned_compilation]: the same costs, annealing
    state and number of questions and the same gates but for such phases, or the same exception (SpecTurn.v). *)
From Coq Require Import Reals List Arith Bool String ZArith.
From Coquelicot Require Import Complex.
From Verif Require Import Base CMat Det ModelUnitary ModelEntry ModelPrimitive ModelSequence ModelCompiler ModelRound Spec SpecModel
  SpecCompiler SpecAgree SpecRepro SpecTurn PTurn2 PTurnEx PTurnSeq.
Import ListNotations.
Open Scope R_scope.

(** C114: two calls of compile() with compilers that differ by phases of the primitives only, the other arguments and the random
    answers equal, end alike but for such phases of the gates, at every clean-up threshold. *)
Theorem C114_compile : forall g1 g2 eps n target thr K c d st1 st2,
  rng_ok g1 -> same_answers g1 (r_draws st1) g2 (r_draws st2) -> reachable eps (r_world st1) -> reachable eps (r_world st2) ->
  turned_compiler eps c d -> c_dim c = (2 ^ n)%nat ->
  turned_compilation eps (r_draws st1) (r_draws st2) (compile g1 eps target thr K (st1, c)) (compile g2 eps target thr K (st2, d)).
Proof. exact compile_turned. Qed.
Print Assumptions C114_compile.

(** C114: the same for compile_layered() and the table of its layers. *)
Theorem C114_layered : forall g1 g2 eps n target x y thr K c d st1 st2,
  rng_ok g1 -> same_answers g1 (r_draws st1) g2 (r_draws st2) -> reachable eps (r_world st1) -> reachable eps (r_world st2) ->
  turned_compiler eps c d -> c_dim c = (2 ^ n)%nat -> turned_table eps x y ->
  turned_compilation eps (r_draws st1) (r_draws st2) (compile_layered g1 eps target x thr K (st1, c)) (compile_layered g2 eps target y thr K (st2, d)).
Proof. exact layered_turned. Qed.
Print Assumptions C114_layered.

(** C114: the targets may differ by a global phase as well. *)
Theorem C114_both : forall g1 g2 eps n t1 t2 thr K c d st1 st2, phase_twins eps t1 t2 ->
  rng_ok g1 -> same_answers g1 (r_draws st1) g2 (r_draws st2) -> reachable eps (r_world st1) -> reachable eps (r_world st2) ->
  turned_compiler eps c d -> c_dim c = (2 ^ n)%nat ->
  turned_compilation eps (r_draws st1) (r_draws st2) (compile g1 eps t1 thr K (st1, c)) (compile g2 eps t2 thr K (st2, d)).
Proof. exact all_turned. Qed.
Print Assumptions C114_both.

(** C114: a matrix on n qubits and its multiple by such a phase are both refused by the constructor, with the same exception, or
    they give such a pair of gates. *)
Theorem C114_arrays : forall eps n M c nm ps iv ap nm' ps' iv' ap', plain_phase eps c ->
  same_res (turned eps) (mk_unitary eps (2 ^ n) (Some (square (2 ^ n) M)) nm ps iv ap)
    (mk_unitary eps (2 ^ n) (Some (square (2 ^ n) (mscale c M))) nm' ps' iv' ap').
Proof. exact arrays_turned. Qed.
Print Assumptions C114_arrays.

(** C114: two gates on one or two qubits that the constructor made and that differ by any global phase are such a pair. *)
Theorem C114_gates : forall eps u v, constructed eps u -> constructed eps v -> u_dim u = 2%nat \/ u_dim u = 4%nat ->
  u_dim v = u_dim u -> phase_eq (u_dim u) (u_mat v) (u_mat u) -> turned eps u v.
Proof. exact gates_turned. Qed.
Print Assumptions C114_gates.

(** C114: after the same calls on two new sequences, with gates that differ by such phases, the gates and the products differ by such
    phases, or the same exception was raised. *)
Theorem C114_calls : forall eps n ops ops', List.Forall2 (turned_call eps) ops ops' ->
  same_res (fun q r => turned_gates eps (rs_entries q) (rs_entries r) /\
      same_res (turned eps) (r_product exact_arith eps q) (r_product exact_arith eps r))
    (r_run exact_arith eps (r_empty (2 ^ n)) ops) (r_run exact_arith eps (r_empty (2 ^ n)) ops').
Proof. exact calls_turned. Qed.
Print Assumptions C114_calls.

(** A run of one step with a rotation as the only primitive, and one with the negative of the rotation, made later in the program. *)
Example C114_case : exists g1 g2 u v c d t st1 st2 st1' st2' c' d' s1 s2 costs,
  rng_ok g1 /\ same_answers g1 (r_draws st1) g2 (r_draws st2) /\ reachable 0 (r_world st1) /\ reachable 0 (r_world st2) /\
  built 0 u /\ built 0 v /\ ~ meq 2 (u_mat v) (u_mat u) /\
  map p_source (c_prims c) = [Fixed u] /\ map p_source (c_prims d) = [Fixed v] /\
  turned_compiler 0 c d /\ c_dim c = (2 ^ 1)%nat /\
  compile g1 0 t (Some 2%R) 1 (st1, c) = ((st1', c'), Ok (s1, costs)) /\
  compile g2 0 t (Some 2%R) 1 (st2, d) = ((st2', d'), Ok (s2, costs)) /\
  turned_gates 0 (contents (r_world st1') s1) (contents (r_world st2') s2).
Proof. exact ex_C114_lemma. Qed.

(** The same with a layer of three gates. *)
Example C114_layered_case : exists g1 g2 u v c d x y t st1 st2 st1' st2' c' d' s1 s2 costs,
  rng_ok g1 /\ same_answers g1 (r_draws st1) g2 (r_draws st2) /\ reachable 0 (r_world st1) /\ reachable 0 (r_world st2) /\
  built 0 u /\ built 0 v /\ ~ meq 2 (u_mat v) (u_mat u) /\
  map (fun p => p_source (fst p)) x = [Fixed u; Fixed u] /\ map (fun p => p_source (fst p)) y = [Fixed v; Fixed v] /\
  turned_compiler 0 c d /\ c_dim c = (2 ^ 1)%nat /\ turned_table 0 x y /\
  compile_layered g1 0 t x (Some 2%R) 1 (st1, c) = ((st1', c'), Ok (s1, costs)) /\
  compile_layered g2 0 t y (Some 2%R) 1 (st2, d) = ((st2', d'), Ok (s2, costs)) /\
  List.length (contents (r_world st1') s1) = 3%nat /\
  turned_gates 0 (contents (r_world st1') s1) (contents (r_world st2') s2).
Proof. exact ex_C114_layered_lemma. Qed.

(** The same with a target and its negative. *)
Example C114_both_case : exists g1 g2 u v c d t t2 st1 st2 st1' st2' c' d' s1 s2 costs,
  rng_ok g1 /\ same_answers g1 (r_draws st1) g2 (r_draws st2) /\ reachable 0 (r_world st1) /\ reachable 0 (r_world st2) /\
  built 0 u /\ built 0 v /\ ~ meq 2 (u_mat v) (u_mat u) /\
  map p_source (c_prims c) = [Fixed u] /\ map p_source (c_prims d) = [Fixed v] /\
  phase_twins 0 t t2 /\ ~ meq 2 (u_mat t2) (u_mat t) /\ turned_compiler 0 c d /\ c_dim c = (2 ^ 1)%nat /\
  compile g1 0 t (Some 2%R) 1 (st1, c) = ((st1', c'), Ok (s1, costs)) /\
  compile g2 0 t2 (Some 2%R) 1 (st2, d) = ((st2', d'), Ok (s2, costs)) /\
  turned_gates 0 (contents (r_world st1') s1) (contents (r_world st2') s2).
Proof. exact ex_C114_both_lemma. Qed.

(** A rotation whose off-diagonal entries the clean-up removes, at the threshold of the code, and its multiple by i: for the last
    two theorems. *)
Example C114_gates_case : exists M u v, unitary_mx 2 M /\ ~ eps_clean eps_code 2 M /\ plain_phase eps_code Ci /\
  mk_unitary eps_code 2 (Some (square 2 M)) None [] false [] = Ok u /\
  mk_unitary eps_code 2 (Some (square 2 (mscale Ci M))) None [] false [] = Ok v /\
  constructed eps_code u /\ constructed eps_code v /\ phase_eq 2 (u_mat v) (u_mat u) /\ turned eps_code u v.
Proof. exact ex_C114_gates_lemma. Qed.

(** Five calls on two qubits: appends, the product, an undo and a removal. *)
Example C114_calls_case : exists u v ops ops', built 0 u /\ built 0 v /\ ~ meq 2 (u_mat v) (u_mat u) /\
  List.Forall2 (turned_call 0) ops ops' /\
  ops = [RLast (u, [0%nat]) true; RProduct; RFirst (u, [1%nat]) true; RUndo; RPopLast false] /\
  ops' = [RLast (v, [0%nat]) true; RProduct; RFirst (v, [1%nat]) true; RUndo; RPopLast false].
Proof. exact ex_C114_calls_lemma. Qed.

