(** Any calls on a sequence, with gates that differ by global phases: C114. *)
From Coq Require Import Reals List Arith Lia Lra Bool String ZArith.
From Coquelicot Require Import Complex.
From Verif Require Import Base CMat CMatFacts ModelUnitary ModelEntry ModelPrimitive ModelSequence ModelCompiler ModelRound Spec SpecModel
  SpecTurn PUnitary PSeqCases PReachEx PPhaseEx PTurn PTurnEx.
Import ListNotations.
Open Scope R_scope.

Theorem calls_turned : forall eps n ops ops', List.Forall2 (turned_call eps) ops ops' ->
  same_res (fun q r => turned_gates eps (rs_entries q) (rs_entries r) /\
      same_res (turned eps) (r_product exact_arith eps q) (r_product exact_arith eps r))
    (r_run exact_arith eps (r_empty (2 ^ n)) ops) (r_run exact_arith eps (r_empty (2 ^ n)) ops').
Proof.
  intros eps n ops ops' HF.
  assert (K : forall q r, seq_turned eps n q r -> same_res (seq_turned eps n) (r_run exact_arith eps q ops) (r_run exact_arith eps r ops')).
  { induction HF as [|o p ops ops' HO HF IH]; intros q r H; cbn [r_run]; [exact H|].
    eapply same_bind; [apply (step_turned eps n q r o p H HO)|exact IH]. }
  eapply same_mono; [apply K|].
  - unfold seq_turned. cbn. repeat split; constructor.
  - intros q r H. split; [apply H|]. eapply same_mono; [apply (product_turned eps n q r H)|]. intros u v X. apply X.
Qed.

Lemma ex_C114_calls_lemma : exists u v ops ops', built 0 u /\ built 0 v /\ ~ meq 2 (u_mat v) (u_mat u) /\
  List.Forall2 (turned_call 0) ops ops' /\
  ops = [RLast (u, [0%nat]) true; RProduct; RFirst (u, [1%nat]) true; RUndo; RPopLast false] /\
  ops' = [RLast (v, [0%nat]) true; RProduct; RFirst (v, [1%nat]) true; RUndo; RPopLast false].
Proof.
  destruct (rot345_built 0 ltac:(lra)) as (u & B & D & _).
  destruct (opposite u B D) as (v & B2 & (D2 & _) & E2 & N). rewrite D in D2.
  assert (T : turned 0 u v) by now apply opposite_turned.
  eexists u, v, _, _. split; [exact B|]. split; [exact B2|]. split; [exact N|]. split; [|split; reflexivity].
  repeat apply List.Forall2_cons; try apply List.Forall2_nil; cbn; auto.
Qed.
