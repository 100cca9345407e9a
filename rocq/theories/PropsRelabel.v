(** A compilation does not see the numbers of the qubits: C115.

    [relabelling n f]: [f] gives the [n] qubits new numbers.  [relabelled_unitary]: the same matrix with the qubits renumbered.
    [relabelled_compiler]: the same compiler, its primitives allowed on the renumbered qubits; the allowed qubits are listed
    explicitly.  [relabelled_compilation]: the same costs, annealing state and number of questions and the same gates on the
    renumbered qubits, or the same exception.  [renumbered_answers]: equal answers, but for drawn orders of the qubits, which are
    renumbered (SpecRelabel.v). *)
From Coq Require Import Reals List Arith Bool String ZArith.
From Coquelicot Require Import Complex.
From Verif Require Import Base CMat Det ModelUnitary ModelEntry ModelPrimitive ModelSequence ModelCompiler ModelRound Spec SpecModel
  SpecCompiler SpecAgree SpecRepro SpecTurn SpecRelabel PRelabel2 PRelabelEx PRelabelNone PRelabelSeq PRelabelFree PRelabelFreeEx.
Import ListNotations.
Open Scope R_scope.

(** C115: two calls of compile() whose targets and allowed qubits differ by a renumbering of the qubits, the other arguments and the
    random answers equal, end alike but for this renumbering, at every clean-up threshold. *)
Theorem C115_compile : forall g1 g2 eps n f t1 t2 thr K c d st1 st2, (0 < n)%nat -> relabelling n f ->
  relabelled_unitary n f t1 t2 ->
  rng_ok g1 -> same_answers g1 (r_draws st1) g2 (r_draws st2) -> reachable eps (r_world st1) -> reachable eps (r_world st2) ->
  relabelled_compiler n f c d -> c_dim c = (2 ^ n)%nat ->
  relabelled_compilation f (r_draws st1) (r_draws st2) (compile g1 eps t1 thr K (st1, c)) (compile g2 eps t2 thr K (st2, d)).
Proof. exact compile_moved. Qed.
Print Assumptions C115_compile.

(** C115: the same for compile_layered() and the table of its layers. *)
Theorem C115_layered : forall g1 g2 eps n f t1 t2 x y thr K c d st1 st2, (0 < n)%nat -> relabelling n f ->
  relabelled_unitary n f t1 t2 ->
  rng_ok g1 -> same_answers g1 (r_draws st1) g2 (r_draws st2) -> reachable eps (r_world st1) -> reachable eps (r_world st2) ->
  relabelled_compiler n f c d -> c_dim c = (2 ^ n)%nat -> relabelled_table n f x y ->
  relabelled_compilation f (r_draws st1) (r_draws st2) (compile_layered g1 eps t1 x thr K (st1, c)) (compile_layered g2 eps t2 y thr K (st2, d)).
Proof. exact layered_moved. Qed.
Print Assumptions C115_layered.

(** C115: a matrix and the same matrix with the qubits renumbered are both refused by the constructor, with the same exception, or
    they give two such unitaries. *)
Theorem C115_arrays : forall eps n f A B nm ps iv ap nm' ps' iv' ap', (0 < n)%nat -> relabelling n f -> relabelled n f A B ->
  same_res (relabelled_unitary n f) (mk_unitary eps (2 ^ n) (Some (square (2 ^ n) A)) nm ps iv ap)
    (mk_unitary eps (2 ^ n) (Some (square (2 ^ n) B)) nm' ps' iv' ap').
Proof. exact arrays_moved. Qed.
Print Assumptions C115_arrays.

(** C115: a gate on the renumbered qubits is the renumbered full gate. *)
Theorem C115_embed : forall n f qs U, (0 < n)%nat -> relabelling n f -> placement n qs ->
  relabelled n f (embed n qs U) (embed n (map f qs) U).
Proof. exact embed_moved. Qed.
Print Assumptions C115_embed.

(** C115: the same for the ordered product of a list of gates. *)
Theorem C115_products : forall n f gs, (0 < n)%nat -> relabelling n f -> (forall g, In g gs -> placement n (snd g)) ->
  relabelled n f (ordered n gs) (ordered n (map (relabel f) gs)).
Proof. exact products_moved. Qed.
Print Assumptions C115_products.

(** C115: after any calls on a new sequence and the same calls with the qubits renumbered, the gates are the same on the renumbered
    qubits and the products are renumbered, at every clean-up threshold, or the same exception was raised. *)
Theorem C115_calls : forall eps n f ops, (0 < n)%nat -> relabelling n f -> List.Forall (fitting_call n) ops ->
  same_res (fun q r => rs_entries r = map (relabel f) (rs_entries q) /\
      same_res (relabelled_unitary n f) (r_product exact_arith eps q) (r_product exact_arith eps r))
    (r_run exact_arith eps (r_empty (2 ^ n)) ops) (r_run exact_arith eps (r_empty (2 ^ n)) (map (relabel_call f) ops)).
Proof. exact calls_moved. Qed.
Print Assumptions C115_calls.

(** C115: with primitives whose qubits are not listed, compile() behaves in the same way when the orders of the qubits that the
    generator draws are renumbered as well. *)
Theorem C115_unlisted : forall g1 g2 eps n f t1 t2 thr K c d st1 st2, (0 < n)%nat -> relabelling n f ->
  relabelled_unitary n f t1 t2 ->
  rng_ok g1 -> renumbered_answers n f g1 (r_draws st1) g2 (r_draws st2) -> reachable eps (r_world st1) -> reachable eps (r_world st2) ->
  renumbered_compiler n f c d -> c_dim c = (2 ^ n)%nat ->
  relabelled_compilation f (r_draws st1) (r_draws st2) (compile g1 eps t1 thr K (st1, c)) (compile g2 eps t2 thr K (st2, d)).
Proof. exact compile_free. Qed.
Print Assumptions C115_unlisted.

(** C115: the allowed qubits must be listed.  With primitives that may act anywhere, the two qubits exchanged in the target only and
    equal random answers, the second run does not give the gates of the first on the exchanged qubits. *)
Theorem C115_unlisted_refuted : exists g t1 t2 c st, rng_ok g /\ reachable 0 (r_world st) /\ relabelling 2 exchange /\
  relabelled_unitary 2 exchange t1 t2 /\ (forall p, In p (c_prims c) -> p_allowed p = None) /\ c_dim c = (2 ^ 2)%nat /\
  ~ relabelled_compilation exchange (r_draws st) (r_draws st) (compile g 0 t1 (Some 2%R) 1 (st, c)) (compile g 0 t2 (Some 2%R) 1 (st, c)).
Proof. exact unlisted_lemma. Qed.
Print Assumptions C115_unlisted_refuted.

(** A run of one step on two qubits with a rotation on qubit 0, and one with the qubits exchanged, made later in the program. *)
Example C115_case : exists g1 g2 u c d t t2 st1 st2 st1' st2' c' d' s1 s2 costs,
  rng_ok g1 /\ same_answers g1 (r_draws st1) g2 (r_draws st2) /\ reachable 0 (r_world st1) /\ reachable 0 (r_world st2) /\
  relabelling 2 exchange /\ relabelled_unitary 2 exchange t t2 /\ ~ meq 4 (u_mat t2) (u_mat t) /\
  c_prims c = [only u 0] /\ c_prims d = [only u 1] /\ relabelled_compiler 2 exchange c d /\ c_dim c = (2 ^ 2)%nat /\
  compile g1 0 t (Some 2%R) 1 (st1, c) = ((st1', c'), Ok (s1, costs)) /\
  compile g2 0 t2 (Some 2%R) 1 (st2, d) = ((st2', d'), Ok (s2, costs)) /\
  contents (r_world st2') s2 = map (relabel exchange) (contents (r_world st1') s1).
Proof. exact ex_C115_lemma. Qed.

(** The same with a layer of three gates. *)
Example C115_layered_case : exists g1 g2 u c d x y t t2 st1 st2 st1' st2' c' d' s1 s2 costs,
  rng_ok g1 /\ same_answers g1 (r_draws st1) g2 (r_draws st2) /\ reachable 0 (r_world st1) /\ reachable 0 (r_world st2) /\
  relabelling 2 exchange /\ relabelled_unitary 2 exchange t t2 /\ ~ meq 4 (u_mat t2) (u_mat t) /\
  x = [(only u 0, 2%Z); (only u 1, 1%Z)] /\ y = [(only u 1, 2%Z); (only u 0, 1%Z)] /\
  relabelled_compiler 2 exchange c d /\ c_dim c = (2 ^ 2)%nat /\ relabelled_table 2 exchange x y /\
  compile_layered g1 0 t x (Some 2%R) 1 (st1, c) = ((st1', c'), Ok (s1, costs)) /\
  compile_layered g2 0 t2 y (Some 2%R) 1 (st2, d) = ((st2', d'), Ok (s2, costs)) /\
  List.length (contents (r_world st1') s1) = 3%nat /\
  contents (r_world st2') s2 = map (relabel exchange) (contents (r_world st1') s1).
Proof. exact ex_C115_layered_lemma. Qed.

(** The rotation on qubit 0 and on qubit 1 of two: for C115_arrays and C115_embed. *)
Example C115_arrays_case : exists t t2, relabelling 2 exchange /\ placement 2 [0%nat] /\
  relabelled 2 exchange (embed 2 [0%nat] rot345) (embed 2 [1%nat] rot345) /\
  mk_unitary 0 4 (Some (square 4 (embed 2 [0%nat] rot345))) None [] false [] = Ok t /\
  mk_unitary 0 4 (Some (square 4 (embed 2 [1%nat] rot345))) None [] false [] = Ok t2 /\
  built 0 t /\ u_dim t = 4%nat /\ relabelled_unitary 2 exchange t t2 /\ ~ meq 4 (u_mat t2) (u_mat t).
Proof. exact two_targets. Qed.

(** Three gates on two qubits. *)
Example C115_products_case : exists u gs, built 0 u /\ gs = [(u, [0%nat]); (u, [1%nat]); (u, [0%nat])] /\ relabelling 2 exchange /\
  (forall g, In g gs -> placement 2 (snd g)) /\ map (relabel exchange) gs = [(u, [1%nat]); (u, [0%nat]); (u, [1%nat])].
Proof. exact ex_C115_products_lemma. Qed.

(** Five calls on two qubits: appends, the product, an undo and a removal. *)
Example C115_calls_case : exists u ops, built 0 u /\ relabelling 2 exchange /\ List.Forall (fitting_call 2) ops /\
  ops = [RLast (u, [0%nat]) true; RProduct; RFirst (u, [1%nat]) true; RUndo; RPopLast false] /\
  map (relabel_call exchange) ops = [RLast (u, [1%nat]) true; RProduct; RFirst (u, [0%nat]) true; RUndo; RPopLast false].
Proof. exact ex_C115_calls_lemma. Qed.

(** A run of one step with a rotation anywhere on two qubits, and one with the qubits exchanged in the target and in the drawn order. *)
Example C115_unlisted_case : exists g1 g2 u c d t t2 st1 st2 st1' st2' c' d' s1 s2 costs,
  rng_ok g1 /\ rng_ok g2 /\ renumbered_answers 2 exchange g1 (r_draws st1) g2 (r_draws st2) /\
  reachable 0 (r_world st1) /\ reachable 0 (r_world st2) /\
  relabelling 2 exchange /\ relabelled_unitary 2 exchange t t2 /\ ~ meq 4 (u_mat t2) (u_mat t) /\
  map p_allowed (c_prims c) = [None] /\ renumbered_compiler 2 exchange c d /\ c_dim c = (2 ^ 2)%nat /\
  compile g1 0 t (Some 2%R) 1 (st1, c) = ((st1', c'), Ok (s1, costs)) /\
  compile g2 0 t2 (Some 2%R) 1 (st2, d) = ((st2', d'), Ok (s2, costs)) /\
  contents (r_world st1') s1 = [(u, [0%nat])] /\ contents (r_world st2') s2 = [(u, [1%nat])].
Proof. exact ex_C115_unlisted_lemma. Qed.

