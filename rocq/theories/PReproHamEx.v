(** Concrete cases for C109. *)
From Coq Require Import Reals List Arith Lia Lra Bool String ZArith Permutation.
From Coquelicot Require Import Complex.
From Verif Require Import Base CMat Det Norms Expm ModelUnitary ModelEntry ModelPrimitive ModelSequence ModelCompiler ModelVerification
  ModelGates ModelHamiltonian ModelRound Spec SpecModel SpecCompiler SpecGates SpecHamiltonian SpecChannel SpecAgree SpecRepro PGates PCompCases PVerifyProps
  PHamRun PHamTrot PHamQd PHamStoq PHamRav PHamEx PRepro PReproEx PReproHam.
Import ListNotations.
Open Scope R_scope.

Lemma again_run eps (m : rng -> RM (nat * list R)) g st st' s costs :
  (forall g1 g2 st1 st2, rng_ok g1 -> same_answers g1 (r_draws st1) g2 (r_draws st2) -> reachable eps (r_world st1) ->
     reachable eps (r_world st2) -> same_run (r_draws st1) (r_draws st2) (m g1 st1) (m g2 st2)) ->
  rng_ok g -> reachable eps (r_world st) -> m g st = (st', Ok (s, costs)) ->
  exists st2' s2, m (later g) (busy st) = (st2', Ok (s2, costs)) /\ contents (r_world st2') s2 = contents (r_world st') s.
Proof.
  intros H G R E. assert (X := H g (later g) st (busy st) G (later_same g _) R (busy_reachable eps st R)).
  rewrite E in X. unfold same_run in X. destruct (m (later g) (busy st)) as [st2 [[s2 costs2]|e]]; cbn [fst snd] in X; [|contradiction].
  destruct X as (<- & _ & HC & _). exists st2, s2. auto.
Qed.
Lemma again_made eps (m : rng -> RM nat) g st st' s :
  (forall g1 g2 st1 st2, same_answers g1 (r_draws st1) g2 (r_draws st2) -> reachable eps (r_world st1) ->
     reachable eps (r_world st2) -> same_made (r_draws st1) (r_draws st2) (m g1 st1) (m g2 st2)) ->
  reachable eps (r_world st) -> m g st = (st', Ok s) ->
  exists st2' s2, m (later g) (busy st) = (st2', Ok s2) /\ contents (r_world st2') s2 = contents (r_world st') s.
Proof.
  intros H R E. assert (X := H g (later g) st (busy st) (later_same g _) R (busy_reachable eps st R)).
  rewrite E in X. unfold same_made in X. destruct (m (later g) (busy st)) as [st2 [s2|e]]; cbn [fst snd] in X; [|contradiction].
  destruct X as (_ & HC & _). exists st2, s2. auto.
Qed.
Lemma two_starts eps st : reachable eps (r_world st) -> reachable eps (r_world (busy st)) /\ r_draws st <> r_draws (busy st) /\
  List.length (w_seqs (r_world st)) <> List.length (w_seqs (r_world (busy st))).
Proof. intros R. split; [now apply busy_reachable|]. rewrite busy_more. split; [cbn; lia|lia]. Qed.

Lemma ex_C109_made_lemma : exists g1 g2 h st1 st2, hamiltonian_of (2 ^ 1) [pauli_x; pauli_z] h /\
  same_answers g1 (r_draws st1) g2 (r_draws st2) /\ reachable eps_code (r_world st1) /\ reachable eps_code (r_world st2) /\
  r_draws st1 <> r_draws st2 /\ List.length (w_seqs (r_world st1)) <> List.length (w_seqs (r_world st2)) /\
  (exists t1 t2 s1 s2, trotter_sequence eps_code g1 h 1 10 true st1 = (t1, Ok s1) /\
     trotter_sequence eps_code g2 h 1 10 true st2 = (t2, Ok s2) /\ contents (r_world t2) s2 = contents (r_world t1) s1) /\
  (exists t1 t2 s1 s2, qdrift_sequence eps_code g1 h 1 10 st1 = (t1, Ok s1) /\
     qdrift_sequence eps_code g2 h 1 10 st2 = (t2, Ok s2) /\ contents (r_world t2) s2 = contents (r_world t1) s1).
Proof.
  destruct ex_sequences_lemma as (g & h & G & H & L & D1 & D2 & N & R).
  exists g, (later g), h, start, (busy start). destruct (two_starts _ _ R) as (R2 & X).
  split; [exact H|]. split; [apply later_same|]. split; [exact R|]. split; [exact R2|]. split; [apply X|]. split; [apply X|]. split.
  - destruct (C42_lemma g eps_code 1 _ h 1 10 true start G (le_n 1) L D2 H R) as (t1 & s1 & _ & _ & _ & E & _).
    destruct (again_made eps_code (fun g => trotter_sequence eps_code g h 1 10 true) g start t1 s1) as (t2 & s2 & E2 & C); auto.
    { intros. now apply trotter_repro. }
    exists t1, t2, s1, s2. auto.
  - destruct (C43_lemma g eps_code 1 _ _ h 1 10 start G (le_n 1) (small_drift_le eps_code 1 (2 * 10) 1 ltac:(lia) D1) H N R) as (t1 & s1 & E & _).
    destruct (again_made eps_code (fun g => qdrift_sequence eps_code g h 1 10) g start t1 s1) as (t2 & s2 & E2 & C); auto.
    { intros. now apply qdrift_repro. }
    exists t1, t2, s1, s2. auto.
Qed.

Lemma ex_C109_ham_lemma : exists g1 g2 h st1 st2 t1 t2 s1 s2 costs fuel, rng_ok g1 /\ hamiltonian_of (2 ^ 1) [pauli_x; pauli_z] h /\
  same_answers g1 (r_draws st1) g2 (r_draws st2) /\ reachable 0 (r_world st1) /\ reachable 0 (r_world st2) /\
  r_draws st1 <> r_draws st2 /\ List.length (w_seqs (r_world st1)) <> List.length (w_seqs (r_world st2)) /\
  compile_rav_sequence 0 g1 fuel h 1 (1 / 10) (1 / 100) false st1 = (t1, Ok (s1, costs)) /\
  compile_rav_sequence 0 g2 fuel h 1 (1 / 10) (1 / 100) false st2 = (t2, Ok (s2, costs)) /\
  contents (r_world t2) s2 = contents (r_world t1) s1.
Proof.
  destruct ex_rav_lemma as (g & h & st & fuel & t1 & s1 & costs & G & H & _ & R & _ & E).
  destruct (again_run 0 (fun g => compile_rav_sequence 0 g fuel h 1 (1 / 10) (1 / 100) false) g st t1 s1 costs) as (t2 & s2 & E2 & C); auto.
  { intros. now apply ham_rav_repro. }
  exists g, (later g), h, st, (busy st), t1, t2, s1, s2, costs, fuel. destruct (two_starts _ _ R) as (R2 & X).
  split; [exact G|]. split; [exact H|]. split; [apply later_same|]. split; [exact R|]. split; [exact R2|]. split; [apply X|]. split; [apply X|]. auto.
Qed.

Lemma ex_C109_rav_lemma : exists g1 g2 u st1 st2 t1 t2 s1 s2 costs, rng_ok g1 /\
  same_answers g1 (r_draws st1) g2 (r_draws st2) /\ reachable 0 (r_world st1) /\ reachable 0 (r_world st2) /\
  r_draws st1 <> r_draws st2 /\ List.length (w_seqs (r_world st1)) <> List.length (w_seqs (r_world st2)) /\
  generate_layered_rav_sequence g1 0 (2 ^ 1) (rot_table u) 2 (9 / 10) (1 / 2) 5 st1 = (t1, Ok (s1, costs)) /\
  generate_layered_rav_sequence g2 0 (2 ^ 1) (rot_table u) 2 (9 / 10) (1 / 2) 5 st2 = (t2, Ok (s2, costs)) /\
  (6 <= List.length (contents (r_world t1) s1))%nat /\ contents (r_world t2) s2 = contents (r_world t1) s1.
Proof.
  destruct ex_C37_lemma as (g & u & st & t1 & s1 & costs & G & _ & R & _ & _ & _ & E & L).
  destruct (again_run 0 (fun g => generate_layered_rav_sequence g 0 (2 ^ 1) (rot_table u) 2 (9 / 10) (1 / 2) 5) g st t1 s1 costs) as (t2 & s2 & E2 & C); auto.
  { intros. now apply layered_rav_repro. }
  exists g, (later g), u, st, (busy st), t1, t2, s1, s2, costs. destruct (two_starts _ _ R) as (R2 & X).
  split; [exact G|]. split; [apply later_same|]. split; [exact R|]. split; [exact R2|]. split; [apply X|]. split; [apply X|]. auto.
Qed.
