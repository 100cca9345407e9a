(** Further facts and concrete cases for C115. *)
From Coq Require Import Reals List Arith Lia Lra Bool String ZArith.
From Coquelicot Require Import Complex.
From Verif Require Import Base CMat CMatFacts Det DetFacts ModelUnitary ModelEntry ModelPrimitive ModelSequence ModelCompiler ModelRound
  Spec SpecModel SpecCompiler SpecAgree SpecRepro SpecTurn SpecRelabel PUnitary PUnitaryProps PEmbed PCompView PCompRun PCompLoop PCompTotal PCompProps
  PCompMore PCompCases PSeqEx PCompEx PLongRun PReproEx PSeqCases PReachEx PTurn PTurn2 PRelabel PRelabel2.
Import ListNotations.
Open Scope R_scope.

Theorem embed_moved : forall n f qs U, (0 < n)%nat -> relabelling n f -> placement n qs ->
  relabelled n f (embed n qs U) (embed n (map f qs) U).
Proof. intros n f qs U N0 RL HP. apply (relabelled_rel n f N0 RL). apply (embed_phi n f N0 RL). apply HP. Qed.
Theorem arrays_moved : forall eps n f A B nm ps iv ap nm' ps' iv' ap', (0 < n)%nat -> relabelling n f -> relabelled n f A B ->
  same_res (relabelled_unitary n f) (mk_unitary eps (2 ^ n) (Some (square (2 ^ n) A)) nm ps iv ap)
    (mk_unitary eps (2 ^ n) (Some (square (2 ^ n) B)) nm' ps' iv' ap').
Proof.
  intros eps n f A B nm ps iv ap nm' ps' iv' ap' N0 RL H. apply (relabelled_rel n f N0 RL) in H.
  eapply same_mono; [apply (mk_moved eps _ _ (fun i _ => phi_lt n f N0 RL i) (phi_inj n f N0 RL) _ _ _ _ _ _ _ _ _ _ H)|].
  intros u v X. now apply (unitary_urel n f N0 RL).
Qed.

Theorem products_moved : forall n f gs, (0 < n)%nat -> relabelling n f -> (forall g, In g gs -> placement n (snd g)) ->
  relabelled n f (ordered n gs) (ordered n (map (relabel f) gs)).
Proof.
  intros n f gs N0 RL H. apply (relabelled_rel n f N0 RL). unfold ordered.
  assert (K : forall A B, rel (2 ^ n) (phi n f) A B -> rel (2 ^ n) (phi n f)
    (fold_left (fun P g => mmul (2 ^ n) (embed n (snd g) (u_mat (fst g))) P) gs A)
    (fold_left (fun P g => mmul (2 ^ n) (embed n (snd g) (u_mat (fst g))) P) (map (relabel f) gs) B)).
  { induction gs as [|g gs IH]; intros A B X; cbn [map fold_left]; [exact X|]. apply IH; [intros; apply H; now right|].
    apply rel_mmul; [intros; apply (phi_lt n f N0 RL)|apply (phi_inj n f N0 RL)| |exact X].
    cbn [relabel fst snd]. apply (embed_phi n f N0 RL). apply (H g). now left. }
  apply K. apply rel_mid. apply (phi_inj n f N0 RL).
Qed.

(** The two qubits exchanged. *)
Definition exchange (q : nat) : nat := (1 - q)%nat.
Lemma exchange_ok : relabelling 2 exchange.
Proof. split; intros; unfold exchange in *; lia. Qed.
Definition only (u : unitary) (q : nat) : primitive := {| p_source := Fixed u; p_allowed := Some [[q]] |}.
Definition only_compiler (u : unitary) (q : nat) : compiler :=
  {| c_dim := 4; c_array := false; c_prims := [only u q]; c_probs := None; c_max_beta := ((2 ^ 4) ^ 2)%R; c_beta := 0; c_rate := 1;
     c_append := (1 / 2)%R |}.
Lemma only_moved u q : (q < 2)%nat -> relabelled_primitive 2 exchange (only u q) (only u (exchange q)).
Proof. intros H. split; [reflexivity|]. exists [[q]]. split; [reflexivity|]. split; [reflexivity|]. intros qs [<-|[]]. now apply placement_one. Qed.
Lemma only_good u q : built 0 u -> u_dim u = 2%nat -> (q < 2)%nat -> good_primitive 0 2 (only u q).
Proof.
  intros B D H. split; [exact (built_made _ _ B)|]. intros qs [<-|[]]. split; [now apply placement_one|]. simpl. now rewrite D.
Qed.
Lemma only_compilers u : relabelled_compiler 2 exchange (only_compiler u 0) (only_compiler u 1).
Proof. split; [|reflexivity]. apply List.Forall2_cons; [now apply (only_moved u 0); lia|apply List.Forall2_nil]. Qed.

(** The rotation on qubit 0 and on qubit 1 of two. *)
Lemma two_targets : exists t t2, relabelling 2 exchange /\ placement 2 [0%nat] /\
  relabelled 2 exchange (embed 2 [0%nat] rot345) (embed 2 [1%nat] rot345) /\
  mk_unitary 0 4 (Some (square 4 (embed 2 [0%nat] rot345))) None [] false [] = Ok t /\
  mk_unitary 0 4 (Some (square 4 (embed 2 [1%nat] rot345))) None [] false [] = Ok t2 /\
  built 0 t /\ u_dim t = 4%nat /\ relabelled_unitary 2 exchange t t2 /\ ~ meq 4 (u_mat t2) (u_mat t).
Proof.
  assert (S0 := embed_special 2 [0%nat] (placement_one 0 ltac:(lia)) rot345 rot345_special).
  assert (S1 := embed_special 2 [1%nat] (placement_one 1 ltac:(lia)) rot345 rot345_special).
  destruct (mk_special 0 4 _ None [] false [] ltac:(lia) S0 (eps_clean_0 _ _)) as (t & E & D & _ & _ & _ & _ & M).
  destruct (mk_special 0 4 _ None [] false [] ltac:(lia) S1 (eps_clean_0 _ _)) as (t2 & E2 & D2 & _ & _ & _ & _ & M2).
  exists t, t2. split; [exact exchange_ok|]. split; [apply placement_one; lia|].
  split; [exact (embed_moved 2 exchange [0%nat] rot345 ltac:(lia) exchange_ok (placement_one 0 ltac:(lia)))|].
  split; [exact E|]. split; [exact E2|]. split; [exists 4%nat, (embed 2 [0%nat] rot345), None, [], false, []; split; [apply S0|]; split; [apply eps_clean_0|exact E]|].
  split; [exact D|]. split.
  - assert (X := arrays_moved 0 2 exchange _ _ None [] false [] None [] false [] ltac:(lia) exchange_ok
      (embed_moved 2 exchange [0%nat] rot345 ltac:(lia) exchange_ok (placement_one 0 ltac:(lia)))).
    change (2 ^ 2)%nat with 4%nat in X. cbn [map exchange Nat.sub] in X. rewrite E, E2 in X. exact X.
  - intros X. specialize (X 0%nat 2%nat ltac:(lia) ltac:(lia)). rewrite (M2 0%nat 2%nat), (M 0%nat 2%nat) in X by lia.
    vm_compute in X. apply (f_equal fst) in X. cbn in X. lra.
Qed.

Lemma ex_C115_products_lemma : exists u gs, built 0 u /\ gs = [(u, [0%nat]); (u, [1%nat]); (u, [0%nat])] /\ relabelling 2 exchange /\
  (forall g, In g gs -> placement 2 (snd g)) /\ map (relabel exchange) gs = [(u, [1%nat]); (u, [0%nat]); (u, [1%nat])].
Proof.
  destruct (rot345_built 0 ltac:(lra)) as (u & B & D & _). exists u, [(u, [0%nat]); (u, [1%nat]); (u, [0%nat])].
  split; [exact B|]. split; [reflexivity|]. split; [exact exchange_ok|]. split; [|reflexivity].
  intros g [<-|[<-|[<-|[]]]]; apply placement_one; lia.
Qed.

Lemma ex_C115_lemma : exists g1 g2 u c d t t2 st1 st2 st1' st2' c' d' s1 s2 costs,
  rng_ok g1 /\ same_answers g1 (r_draws st1) g2 (r_draws st2) /\ reachable 0 (r_world st1) /\ reachable 0 (r_world st2) /\
  relabelling 2 exchange /\ relabelled_unitary 2 exchange t t2 /\ ~ meq 4 (u_mat t2) (u_mat t) /\
  c_prims c = [only u 0] /\ c_prims d = [only u 1] /\ relabelled_compiler 2 exchange c d /\ c_dim c = (2 ^ 2)%nat /\
  compile g1 0 t (Some 2%R) 1 (st1, c) = ((st1', c'), Ok (s1, costs)) /\
  compile g2 0 t2 (Some 2%R) 1 (st2, d) = ((st2', d'), Ok (s2, costs)) /\
  contents (r_world st2') s2 = map (relabel exchange) (contents (r_world st1') s1).
Proof.
  destruct (rot345_built 0 ltac:(lra)) as (u & B & D & _). destruct two_targets as (t & t2 & _ & _ & _ & _ & _ & Bt & Dt & RT & NT).
  set (g := const_rng 0 0). assert (G : rng_ok g) by (apply const_rng_ok; lra).
  assert (GC : good_compiler 0 2 (only_compiler u 0)).
  { split; [reflexivity|]. split; [simpl; lra|]. split; [intros p [<-|[]]; now apply only_good; auto|].
    exists (only u 0). split; [now left|discriminate]. }
  assert (HR : reachable 0 (r_world start)) by now exists [].
  destruct (C28_lemma g start (only_compiler u 0) t (Some 2%R) 1 2 G empty_exact GC (or_introl eq_refl) Bt Dt) as (st' & c' & s & costs & E).
  assert (X := compile_moved g (later g) 0 2 exchange t t2 (Some 2%R) 1 _ _ start (busy start) ltac:(lia) exchange_ok RT G (later_same g _) HR
    (busy_reachable 0 start HR) (only_compilers u) eq_refl).
  rewrite E in X. destruct (compile (later g) 0 t2 (Some 2%R) 1 (busy start, only_compiler u 1)) as [[st2 d'] [[s2 costs2]|e]] eqn:F;
    unfold relabelled_compilation in X; cbn [fst snd] in X; [|contradiction].
  destruct X as (<- & _ & _ & HC).
  exists g, (later g), u, (only_compiler u 0), (only_compiler u 1), t, t2, start, (busy start), st', st2, c', d', s, s2, costs.
  split; [exact G|]. split; [apply later_same|]. split; [exact HR|]. split; [now apply busy_reachable|]. split; [exact exchange_ok|].
  split; [exact RT|]. split; [exact NT|]. split; [reflexivity|]. split; [reflexivity|]. split; [apply only_compilers|]. auto.
Qed.

Lemma ex_C115_layered_lemma : exists g1 g2 u c d x y t t2 st1 st2 st1' st2' c' d' s1 s2 costs,
  rng_ok g1 /\ same_answers g1 (r_draws st1) g2 (r_draws st2) /\ reachable 0 (r_world st1) /\ reachable 0 (r_world st2) /\
  relabelling 2 exchange /\ relabelled_unitary 2 exchange t t2 /\ ~ meq 4 (u_mat t2) (u_mat t) /\
  x = [(only u 0, 2%Z); (only u 1, 1%Z)] /\ y = [(only u 1, 2%Z); (only u 0, 1%Z)] /\
  relabelled_compiler 2 exchange c d /\ c_dim c = (2 ^ 2)%nat /\ relabelled_table 2 exchange x y /\
  compile_layered g1 0 t x (Some 2%R) 1 (st1, c) = ((st1', c'), Ok (s1, costs)) /\
  compile_layered g2 0 t2 y (Some 2%R) 1 (st2, d) = ((st2', d'), Ok (s2, costs)) /\
  List.length (contents (r_world st1') s1) = 3%nat /\
  contents (r_world st2') s2 = map (relabel exchange) (contents (r_world st1') s1).
Proof.
  destruct (rot345_built 0 ltac:(lra)) as (u & B & D & _). destruct two_targets as (t & t2 & _ & _ & _ & _ & _ & Bt & Dt & RT & NT).
  set (g := const_rng 0 0). assert (G : rng_ok g) by (apply const_rng_ok; lra).
  set (x := [(only u 0, 2%Z); (only u 1, 1%Z)]). set (y := [(only u 1, 2%Z); (only u 0, 1%Z)]).
  assert (TX : relabelled_table 2 exchange x y).
  { apply List.Forall2_cons; [split; [apply (only_moved u 0); lia|reflexivity]|].
    apply List.Forall2_cons; [split; [apply (only_moved u 1); lia|reflexivity]|]. apply List.Forall2_nil. }
  assert (GT : good_table 0 2 x).
  { apply List.Forall_cons; [split; [apply only_good; auto|discriminate]|].
    apply List.Forall_cons; [split; [apply only_good; auto|discriminate]|]. apply List.Forall_nil. }
  assert (HR : reachable 0 (r_world start)) by now exists [].
  destruct (C33_general_lemma g start (only_compiler u 0) t x 2 G (fun _ => eq_refl) empty_exact eq_refl ltac:(simpl; lra) GT Bt Dt)
    as (st' & c' & s & costs & E & L).
  assert (X := layered_moved g (later g) 0 2 exchange t t2 x y (Some 2%R) 1 _ _ start (busy start) ltac:(lia) exchange_ok RT G (later_same g _) HR
    (busy_reachable 0 start HR) (only_compilers u) eq_refl TX).
  rewrite E in X. destruct (compile_layered (later g) 0 t2 y (Some 2%R) 1 (busy start, only_compiler u 1)) as [[st2 d'] [[s2 costs2]|e]] eqn:F;
    unfold relabelled_compilation in X; cbn [fst snd] in X; [|contradiction].
  destruct X as (<- & _ & _ & HC).
  exists g, (later g), u, (only_compiler u 0), (only_compiler u 1), x, y, t, t2, start, (busy start), st', st2, c', d', s, s2, costs.
  split; [exact G|]. split; [apply later_same|]. split; [exact HR|]. split; [now apply busy_reachable|]. split; [exact exchange_ok|].
  split; [exact RT|]. split; [exact NT|]. split; [reflexivity|]. split; [reflexivity|]. split; [apply only_compilers|]. auto 10.
Qed.
