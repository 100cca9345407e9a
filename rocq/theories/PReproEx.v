(** Concrete cases for C108. *)
From Coq Require Import Reals List Arith Lia Lra Bool String ZArith Permutation.
From Coquelicot Require Import Complex.
From Verif Require Import Base CMat ModelUnitary ModelEntry ModelPrimitive ModelSequence ModelCompiler ModelRound Spec SpecModel
  SpecCompiler SpecAgree SpecRound SpecRepro PCompEx PGateCountEx PRepro.
Import ListNotations.
Open Scope R_scope.

(** The generator that answers five questions first. *)
Definition later (g : rng) : rng :=
  {| g_unif := fun n => g_unif g (n - 5); g_int := fun n => g_int g (n - 5); g_perm := fun n => g_perm g (n - 5) |}.
Lemma later_ok g : rng_ok g -> rng_ok (later g).
Proof. intros (A & B & C). split; [|split]; intros; cbn; auto. Qed.
Lemma later_same g d : same_answers g d (later g) (d + 5).
Proof. intros k. cbn. replace (d + 5 + k - 5)%nat with (d + k)%nat by lia. auto. Qed.

(** The same, with one more sequence made and five more questions asked. *)
Definition busy (st : rstate) : rstate :=
  {| r_world := fst (step 0 (NewSequence 3 false []) (r_world st)); r_draws := r_draws st + 5 |}.
Lemma exec_last eps os o : forall w, exec eps (os ++ [o]) w = fst (step eps o (exec eps os w)).
Proof. induction os as [|x t IH]; intros w; cbn; [reflexivity|apply IH]. Qed.
Lemma busy_reachable eps st : reachable eps (r_world st) -> reachable eps (r_world (busy st)).
Proof. intros [os E]. exists (os ++ [NewSequence 3 false []]). rewrite exec_last, <- E. reflexivity. Qed.
Lemma busy_more st : List.length (w_seqs (r_world (busy st))) = S (List.length (w_seqs (r_world st))).
Proof. cbn. rewrite app_length. cbn. lia. Qed.

Lemma ex_C108_lemma : exists g1 g2 c target st1 st2 st1' st2' c' s1 s2 costs,
  rng_ok g1 /\ rng_ok g2 /\ same_answers g1 (r_draws st1) g2 (r_draws st2) /\
  reachable 0 (r_world st1) /\ reachable 0 (r_world st2) /\
  r_draws st1 <> r_draws st2 /\ List.length (w_seqs (r_world st1)) <> List.length (w_seqs (r_world st2)) /\
  compile g1 0 target (Some 2%R) 1 (st1, c) = ((st1', c'), Ok (s1, costs)) /\
  compile g2 0 target (Some 2%R) 1 (st2, c) = ((st2', c'), Ok (s2, costs)) /\
  List.length costs = 1%nat /\ List.length (contents (r_world st1') s1) = 1%nat /\
  contents (r_world st2') s2 = contents (r_world st1') s1.
Proof.
  destruct ex_run_lemma as (g & c & target & st & st' & c' & s & costs & G & _ & R & _ & _ & _ & _ & E & L & L').
  assert (X := compile_repro g (later g) 0 target (Some 2%R) 1 c st (busy st) G (later_same g _) R (busy_reachable 0 st R)).
  rewrite E in X. destruct (compile (later g) 0 target (Some 2%R) 1 (busy st, c)) as [[st2 c2] [[s2 costs2]|e]] eqn:E2;
    unfold same_compilation in X; cbn [fst snd] in X; [|contradiction].
  destruct X as (<- & <- & _ & HC & _).
  exists g, (later g), c, target, st, (busy st), st', st2, c', s, s2, costs.
  split; [exact G|]. split; [now apply later_ok|]. split; [apply later_same|]. split; [exact R|]. split; [now apply busy_reachable|].
  split; [cbn; lia|]. split; [rewrite busy_more; lia|]. now rewrite <- HC.
Qed.

Lemma ex_C108_layered_lemma : exists g1 g2 c target counts st1 st2 st1' st2' c' s1 s2 costs,
  rng_ok g1 /\ rng_ok g2 /\ same_answers g1 (r_draws st1) g2 (r_draws st2) /\
  reachable 0 (r_world st1) /\ reachable 0 (r_world st2) /\
  r_draws st1 <> r_draws st2 /\ List.length (w_seqs (r_world st1)) <> List.length (w_seqs (r_world st2)) /\
  compile_layered g1 0 target counts (Some 2%R) 1 (st1, c) = ((st1', c'), Ok (s1, costs)) /\
  compile_layered g2 0 target counts (Some 2%R) 1 (st2, c) = ((st2', c'), Ok (s2, costs)) /\
  List.length costs = 1%nat /\ List.length (contents (r_world st1') s1) = 3%nat /\
  contents (r_world st2') s2 = contents (r_world st1') s1.
Proof.
  destruct ex_C107_layered_lemma as (g & c & target & counts & st & st' & c' & s & costs & G & R & _ & _ & _ & _ & E & _ & _ & L & L').
  assert (X := layered_repro g (later g) 0 target counts (Some 2%R) 1 c st (busy st) G (later_same g _) R (busy_reachable 0 st R)).
  rewrite E in X. destruct (compile_layered (later g) 0 target counts (Some 2%R) 1 (busy st, c)) as [[st2 c2] [[s2 costs2]|e]] eqn:E2;
    unfold same_compilation in X; cbn [fst snd] in X; [|contradiction].
  destruct X as (<- & <- & _ & HC & _).
  exists g, (later g), c, target, counts, st, (busy st), st', st2, c', s, s2, costs.
  split; [exact G|]. split; [now apply later_ok|]. split; [apply later_same|]. split; [exact R|]. split; [now apply busy_reachable|].
  split; [cbn; lia|]. split; [rewrite busy_more; lia|]. now rewrite <- HC.
Qed.
