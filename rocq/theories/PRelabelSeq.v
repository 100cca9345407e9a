(** Any calls on a sequence, with the qubits renumbered: C115. *)
From Coq Require Import Reals List Arith Lia Lra Bool String ZArith.
From Coquelicot Require Import Complex.
From Verif Require Import Base CMat CMatFacts ModelUnitary ModelEntry ModelPrimitive ModelSequence ModelCompiler ModelRound Spec SpecModel
  SpecTurn SpecRelabel PUnitary PSeqCases PReachEx PTurn PRelabel PRelabelEx.
Import ListNotations.
Open Scope R_scope.

Theorem calls_moved : forall eps n f ops, (0 < n)%nat -> relabelling n f -> List.Forall (fitting_call n) ops ->
  same_res (fun q r => rs_entries r = map (relabel f) (rs_entries q) /\
      same_res (relabelled_unitary n f) (r_product exact_arith eps q) (r_product exact_arith eps r))
    (r_run exact_arith eps (r_empty (2 ^ n)) ops) (r_run exact_arith eps (r_empty (2 ^ n)) (map (relabel_call f) ops)).
Proof.
  intros eps n f ops N0 RL HF.
  assert (K : forall q r, seq_moved n f q r -> same_res (seq_moved n f) (r_run exact_arith eps q ops) (r_run exact_arith eps r (map (relabel_call f) ops))).
  { induction HF as [|o ops HO HF IH]; intros q r H; cbn [r_run map]; [exact H|].
    eapply same_bind; [apply (step_moved n f N0 RL eps q r o (relabel_call f o) H)|exact IH].
    destruct o; cbn in HO |- *; auto; (split; [|reflexivity]; split; [reflexivity|exact HO]). }
  eapply same_mono; [apply K|].
  - unfold seq_moved. cbn. repeat split; constructor.
  - intros q r H. split.
    + destruct H as (_ & _ & T & _). clear - T. induction T as [|g h gs hs (E & _) _ IH]; cbn [map]; [reflexivity|]. now rewrite E, IH.
    + eapply same_mono; [apply (product_moved n f N0 RL eps q r H)|]. intros u v X. now apply (unitary_urel n f N0 RL).
Qed.

Lemma ex_C115_calls_lemma : exists u ops, built 0 u /\ relabelling 2 exchange /\ List.Forall (fitting_call 2) ops /\
  ops = [RLast (u, [0%nat]) true; RProduct; RFirst (u, [1%nat]) true; RUndo; RPopLast false] /\
  map (relabel_call exchange) ops = [RLast (u, [1%nat]) true; RProduct; RFirst (u, [0%nat]) true; RUndo; RPopLast false].
Proof.
  destruct (rot345_built 0 ltac:(lra)) as (u & B & D & _). eexists u, _.
  split; [exact B|]. split; [exact exchange_ok|]. split; [|split; [reflexivity|reflexivity]].
  assert (X : forall q, (q < 2)%nat -> placement 2 [q] /\ (2 ^ List.length [q])%nat = u_dim u).
  { intros q Hq. split; [now apply placement_one|]. now rewrite D. }
  repeat apply List.Forall_cons; try apply List.Forall_nil; cbn [fitting_call snd fst]; try exact I; apply X; lia.
Qed.
