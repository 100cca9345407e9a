(** Concrete histories that meet the hypotheses of the sequence theorems. *)
From Coq Require Import Reals List Arith Lia Lra Psatz Bool String ZArith Setoid Morphisms.
From Coquelicot Require Import Rcomplements Complex.
From Verif Require Import Base CMat CMatFacts Det DetFacts CRoot Norms ModelUnitary ModelEntry
  ModelSequence Spec SpecModel PUnitary PBits PEmbed PEntry PDrift PUnitaryProps PSeqHeap PSeqMeth PSeqNear PSeqWorld
  PSeqUndo PSeqInv PSeqHist PSeqProps PSeqCases.
Import ListNotations.
Open Scope R_scope.
Open Scope C_scope.
Open Scope se_scope.

(** Two entries of one gate, and sequences of them on two qubits. *)
Definition two (u : unitary) : list op := [NewEntry u [0%Z]; NewEntry u [1%Z]].

(** Makes the concrete part of a history compute. *)
Ltac conc u D := let H := fresh in
  destruct u as [d m nm ps iv ap]; assert (H := D); simpl in H; subst d.

Lemma ex_C14_lemma :
  exists u os, built 0 u /\ meq 2 (u_mat u) rot345 /\
    os = [NewEntry u [0%Z]; NewEntry u [1%Z]; NewSequence 4 false [0; 0]%nat; AppendLast 0 1 true;
          Product 0; RemoveFirst 0 false; AppendFirst 0 1 true; Undo 0] /\
    history 0 (built 0) odd_entries os w_empty /\ has_dim (exec 0 os w_empty) 0 (2 ^ 2) /\
    contents (exec 0 (firstn 4 os) w_empty) 0 = [(u, [0%nat]); (u, [0%nat]); (u, [1%nat])].
Proof.
  destruct (rot345_built 0 ltac:(lra)) as (u & B & D & M & _).
  exists u. eexists. split; [exact B|]. split; [exact M|]. split; [reflexivity|]. split.
  { cbn [history]. auto 20. }
  split.
  - change (?a :: ?b :: ?c :: ?t) with ([a; b; c] ++ t). apply (has_dim_exec 0).
    conc u D. eexists. split; reflexivity.
  - cbn [firstn]. conc u D. reflexivity.
Qed.

Lemma ex_C15_lemma :
  exists u os, built eps_code u /\ eps_clean eps_code (u_dim u) (u_mat u) /\ meq 2 (u_mat u) rot345 /\
    os = [NewEntry u [0%Z]; NewEntry u [1%Z]; NewSequence 4 false [0; 0]%nat; Product 0; AppendLast 0 1 true;
          RemoveFirst 0 false; AppendFirst 0 1 true; Undo 0] /\
    history eps_code (fun u => built eps_code u /\ eps_clean eps_code (u_dim u) (u_mat u)) (fun _ _ => False) os w_empty /\
    has_dim (exec eps_code os w_empty) 0 (2 ^ 2) /\
    let D := (14 * INR (updates os 0) * INR (2 ^ 2) * (sqrt (INR (2 ^ 2)) + 1) * eps_code)%R in
    (0 < D <= 45 / 10 ^ 10)%R /\ (INR (2 ^ 2) * D <= / 100)%R.
Proof.
  assert (S := eps_code_small).
  destruct (rot345_built eps_code ltac:(lra)) as (u & B & D & M & Cl).
  exists u. eexists. split; [exact B|]. split; [now rewrite D|]. split; [exact M|]. split; [reflexivity|]. split.
  { cbn [history]. rewrite D. auto 20. }
  split.
  - change (?a :: ?b :: ?c :: ?t) with ([a; b; c] ++ t). apply (has_dim_exec eps_code).
    conc u D. eexists. split; reflexivity.
  - match goal with |- context [updates ?l 0] => change (updates l 0) with 5%nat end. cbv zeta.
    replace (INR (2 ^ 2)) with 4%R by (simpl; ring).
    replace (sqrt 4) with 2%R by (rewrite <- (sqrt_square 2) by lra; f_equal; ring).
    replace (INR 5) with 5%R by (simpl; ring).
    unfold eps_code. replace (10 ^ 12)%R with 1000000000000%R by ring.
    replace (10 ^ 10)%R with 10000000000%R by ring. lra.
Qed.

(** A rotation so small that its off-diagonal components are below the code's
    threshold: the constructor does not store it exactly. *)
Definition tiny : R := (/ 10 ^ 13)%R.
Definition tiny_rotation : mat :=
  mat22 (RtoC ((1 - tiny * tiny) / (1 + tiny * tiny))) (RtoC (- (2 * tiny) / (1 + tiny * tiny)))
        (RtoC (2 * tiny / (1 + tiny * tiny))) (RtoC ((1 - tiny * tiny) / (1 + tiny * tiny))).
Lemma tiny_pos : (0 < tiny <= / 10)%R.
Proof. unfold tiny. replace (10 ^ 13)%R with 10000000000000%R by ring. lra. Qed.
Lemma tiny_unitary : unitary_mx 2 tiny_rotation.
Proof.
  assert (H := tiny_pos). assert (0 < 1 + tiny * tiny)%R by nra.
  intros i j Hi Hj. destruct i as [|[|i]]; destruct j as [|[|j]]; try lia;
  unfold mmul, adj, mid, tiny_rotation, mat22, Cconj; cbn -[Rdiv RtoC tiny]; apply C_eq; simpl; field; lra.
Qed.
Lemma tiny_not_clean : ~ eps_clean eps_code 2 tiny_rotation.
Proof.
  intros H. specialize (H 1%nat 0%nat ltac:(lia) ltac:(lia)). destruct H as [H _].
  cbn [tiny_rotation mat22 fst RtoC] in H.
  assert (T := tiny_pos). assert (P : (0 < 1 + tiny * tiny)%R) by nra.
  assert (Q : (0 < 2 * tiny / (1 + tiny * tiny))%R) by (apply Rdiv_lt_0_compat; lra).
  assert (U : (2 * tiny / (1 + tiny * tiny) <= 2 * tiny)%R).
  { apply Rmult_le_reg_r with (1 + tiny * tiny)%R; auto. unfold Rdiv. rewrite Rmult_assoc, Rinv_l by lra. nra. }
  rewrite Rabs_pos_eq in H by lra.
  assert (L : (2 * tiny < eps_code)%R).
  { unfold tiny, eps_code. replace (10 ^ 13)%R with 10000000000000%R by ring. replace (10 ^ 12)%R with 1000000000000%R by ring. lra. }
  assert (H' := H ltac:(lra)). lra.
Qed.

Lemma ex_C15_unclean_lemma :
  exists u os, mk_unitary eps_code 2 (Some (square 2 tiny_rotation)) None [] false [] = Ok u /\
    unitary_mx 2 tiny_rotation /\ ~ eps_clean eps_code 2 tiny_rotation /\
    os = [NewEntry u [0%Z]; NewEntry u [1%Z]; NewSequence 4 false [0; 0]%nat; Product 0; AppendLast 0 1 true;
          RemoveFirst 0 false; AppendFirst 0 1 true; Undo 0] /\
    history eps_code (made eps_code) (fun _ _ => False) os w_empty /\
    has_dim (exec eps_code os w_empty) 0 (2 ^ 2) /\
    let D := (14 * INR (updates os 0) * INR (2 ^ 2) * (sqrt (INR (2 ^ 2)) + 1) * eps_code)%R in
    (0 < D <= 45 / 10 ^ 10)%R /\ (INR (2 ^ 2) * D <= / 100)%R.
Proof.
  assert (S := eps_code_small). assert (EC : eps_code = (/ 1000000000000)%R) by (unfold eps_code; lra).
  assert (TT : tame eps_code 2).
  { assert (Q : (sqrt (INR 2) <= 2)%R).
    { rewrite <- (sqrt_square 2) by lra. apply sqrt_le_1; simpl; lra. }
    assert (Q0 := sqrt_pos (INR 2)). unfold tame, kappa0. rewrite EC. change (INR 2) with 2%R in *.
    split; lra. }
  assert (U := tiny_unitary).
  destruct (made_ok eps_code ltac:(lra) 2 tiny_rotation None [] false [] ltac:(lia) (or_introl U) TT) as (u & E & D).
  assert (B : made eps_code u).
  { exists 2%nat, tiny_rotation, None, [], false, []. split; auto. now left. }
  exists u. eexists. split; [exact E|]. split; [exact U|]. split; [apply tiny_not_clean|]. split; [reflexivity|]. split.
  { cbn [history]. auto 20. }
  split.
  - change (?a :: ?b :: ?c :: ?t) with ([a; b; c] ++ t). apply (has_dim_exec eps_code).
    conc u D. eexists. split; reflexivity.
  - match goal with |- context [updates ?l 0] => change (updates l 0) with 5%nat end. cbv zeta.
    replace (INR (2 ^ 2)) with 4%R by (simpl; ring).
    replace (sqrt 4) with 2%R by (rewrite <- (sqrt_square 2) by lra; f_equal; ring).
    replace (INR 5) with 5%R by (simpl; ring). rewrite EC.
    replace (10 ^ 10)%R with 10000000000%R by ring. lra.
Qed.

Lemma ex_C16_lemma :
  exists u os o os', built 0 u /\ meq 2 (u_mat u) rot345 /\
    os = [NewEntry u [0%Z]; NewEntry u [1%Z]; NewSequence 4 false [0; 0]%nat] /\
    o = AppendLast 0 1 true /\
    os' = [RemoveFirst 0 false; Product 0; AppendFirst 0 1 false; Combine [0%nat]; RemoveLast 0 false] /\
    history 0 (built 0) odd_entries (os ++ o :: os') w_empty /\
    has_dim (exec 0 os w_empty) 0 (2 ^ 2) /\ saves (exec 0 os w_empty) 0 o /\
    quiet_history 0 0 os' (fst (step 0 o (exec 0 os w_empty))) /\
    exists p, answers 0 (exec 0 os w_empty) 0 p.
Proof.
  destruct (rot345_built 0 ltac:(lra)) as (u & B & D & M & _).
  exists u. eexists _, _, _. split; [exact B|]. split; [exact M|]. split; [reflexivity|].
  split; [reflexivity|]. split; [reflexivity|].
  assert (HD : has_dim (exec 0 [NewEntry u [0%Z]; NewEntry u [1%Z]; NewSequence 4 false [0; 0]%nat] w_empty) 0 (2 ^ 2)).
  { clear B M. conc u D. eexists. split; reflexivity. }
  split; [cbn [history app]; auto 20|].
  split; [exact HD|]. split.
  { split; [reflexivity|]. split; [reflexivity|]. split; [|exists (2 ^ 2)%nat; split; [exact HD|]].
    - clear HD B M. conc u D. cbn. lia.
    - clear HD B M. conc u D. split; [apply Nat.leb_le; reflexivity|]. intros q [<-|[]]. apply Nat.leb_le. reflexivity. }
  split; [cbn [quiet_history quiet]; auto 20|].
  destruct (C14_lemma [NewEntry u [0%Z]; NewEntry u [1%Z]; NewSequence 4 false [0; 0]%nat] 0 2) as (p & A & _).
  - cbn [history]. auto 20.
  - exact HD.
  - exists p. exact A.
Qed.

Lemma ex_C16_once_lemma :
  exists os os', snd (step 0 (Undo 0) (exec 0 os w_empty)) = Ok VNone /\
    os' = [AppendLast 0 1 false; RemoveFirst 0 false; Product 0; NewSequence 4 true [0; 1]%nat] /\
    quiet_history 0 0 os' (fst (step 0 (Undo 0) (exec 0 os w_empty))).
Proof.
  destruct ex_C16_lemma as (u & os & o & os' & _ & _ & _ & _ & _ & _ & _ & HS & HQ & _).
  exists (os ++ o :: os'). eexists. split; [apply (C16_undo_lemma 0 os o os' 0 HS HQ)|].
  split; [reflexivity|]. cbn [quiet_history quiet]. auto 20.
Qed.

Lemma ex_C16_new_lemma :
  exists os', snd (step 0 (NewSequence 4 false []) (exec 0 [] w_empty)) = Ok (VSequence 0) /\
    os' = [RemoveFirst 0 true; Product 0; NewSequence 4 true []] /\
    quiet_history 0 0 os' (fst (step 0 (NewSequence 4 false []) (exec 0 [] w_empty))).
Proof.
  eexists. split; [reflexivity|]. split; [reflexivity|]. cbn [quiet_history quiet]. auto 20.
Qed.

Lemma ex_C17_lemma :
  exists u os ss, built 0 u /\ meq 2 (u_mat u) rot345 /\
    os = [NewEntry u [0%Z]; NewEntry u [1%Z]; NewSequence 4 false [0; 0]%nat; NewSequence 4 true [1]%nat] /\
    ss = [1; 0; 1]%nat /\
    history 0 (built 0) odd_entries os w_empty /\
    (forall s, In s ss -> has_dim (exec 0 os w_empty) s (2 ^ 2)) /\
    List.concat (map (contents (exec 0 os w_empty)) ss) =
      [(u, [1%nat]); (u, [0%nat]); (u, [0%nat]); (u, [1%nat])].
Proof.
  destruct (rot345_built 0 ltac:(lra)) as (u & B & D & M & _).
  exists u. eexists _, _. split; [exact B|]. split; [exact M|]. split; [reflexivity|]. split; [reflexivity|].
  split; [cbn [history]; auto 20|]. clear B M. conc u D. split.
  - intros s [<-|[<-|[<-|[]]]]; eexists; split; reflexivity.
  - reflexivity.
Qed.

Lemma ex_C17_reject_lemma :
  exists w, has_dim w 0 2 /\ has_dim w 1 4 /\ forall s, In s [0; 1]%nat -> exists d, has_dim w s d.
Proof.
  exists (exec 0 [NewSequence 2 false []; NewSequence 4 false []] w_empty).
  assert (H0 : has_dim (exec 0 [NewSequence 2 false []; NewSequence 4 false []] w_empty) 0 2)
    by (eexists; split; reflexivity).
  assert (H1 : has_dim (exec 0 [NewSequence 2 false []; NewSequence 4 false []] w_empty) 1 4)
    by (eexists; split; reflexivity).
  split; auto. split; auto. intros s [<-|[<-|[]]]; eauto.
Qed.

Lemma ex_C18_lemma :
  exists u os, built 0 u /\ meq 2 (u_mat u) rot345 /\
    os = [NewEntry u [0%Z]; NewEntry u [1%Z]; NewSequence 4 false [0; 1; 0; 0]%nat] /\
    history 0 (built 0) odd_entries os w_empty /\
    has_dim (exec 0 os w_empty) 0 (2 ^ 2) /\ from_array (exec 0 os w_empty) 0 false /\
    odd_entries (exec 0 os w_empty) 0 /\
    contents (exec 0 os w_empty) 0 = [(u, [0%nat]); (u, [1%nat]); (u, [0%nat]); (u, [0%nat])].
Proof.
  destruct (rot345_built 0 ltac:(lra)) as (u & B & D & M & _).
  exists u. eexists. split; [exact B|]. split; [exact M|]. split; [reflexivity|].
  split; [cbn [history]; auto 20|]. clear B M. conc u D.
  split; [eexists; split; reflexivity|]. split; [eexists; split; reflexivity|]. split; [|reflexivity].
  intros q [= <-] l Hl. cbn [s_entries In] in Hl. intuition (subst; reflexivity).
Qed.

Lemma ex_C20_lemma :
  exists u os os', built 0 u /\ meq 2 (u_mat u) rot345 /\
    os = [NewEntry u [0%Z]; NewSequence 4 false [0]%nat; NewSequence 4 false [0; 0]%nat] /\
    os' = [AppendFirst 1 0 true; Product 0; Inverse 0; Inverse 1; Combine [0; 1; 0]%nat; Undo 1; GetEntries 0] /\
    has_dim (exec 0 os w_empty) 0 4 /\ forall o, In o os' -> mutates o 0 = false.
Proof.
  destruct (rot345_built 0 ltac:(lra)) as (u & B & D & M & _).
  exists u. eexists _, _. split; [exact B|]. split; [exact M|]. split; [reflexivity|]. split; [reflexivity|].
  clear B M. conc u D. split; [eexists; split; reflexivity|]. cbn [In]. intuition (subst; reflexivity).
Qed.

Lemma ex_C21_lemma :
  exists u os, built 0 u /\ meq 2 (u_mat u) rot345 /\
    os = [NewEntry u [1%Z]; NewSequence 2 false []] /\
    has_dim (exec 0 os w_empty) 0 2 /\ (0 < List.length (w_heap (exec 0 os w_empty)))%nat /\
    ~ fits (exec 0 os w_empty) 2 0.
Proof.
  destruct (rot345_built 0 ltac:(lra)) as (u & B & D & M & _).
  exists u. eexists. split; [exact B|]. split; [exact M|]. split; [reflexivity|].
  clear B M. conc u D. split; [eexists; split; reflexivity|]. split; [apply Nat.ltb_lt; reflexivity|].
  intros [_ F]. specialize (F 1%nat (or_introl eq_refl)). apply Nat.leb_le in F. discriminate F.
Qed.

Lemma ex_C22_lemma :
  exists u os, built 0 u /\ meq 2 (u_mat u) rot345 /\
    os = [NewEntry u [1%Z]; NewSequence 4 false [0]%nat] /\
    history 0 (built 0) odd_entries os w_empty /\
    has_dim (exec 0 os w_empty) 0 (2 ^ 2) /\ from_array (exec 0 os w_empty) 0 false /\
    (0 < List.length (w_heap (exec 0 os w_empty)))%nat /\ fits (exec 0 os w_empty) (2 ^ 2) 0.
Proof.
  destruct (rot345_built 0 ltac:(lra)) as (u & B & D & M & _).
  exists u. eexists. split; [exact B|]. split; [exact M|]. split; [reflexivity|].
  split; [cbn [history]; auto 20|].
  clear B M. conc u D. split; [eexists; split; reflexivity|]. split; [eexists; split; reflexivity|].
  split; [apply Nat.ltb_lt; reflexivity|]. split; [apply Nat.leb_le; reflexivity|]. intros q [<-|[]]. apply Nat.leb_le. reflexivity.
Qed.

Lemma ex_C22_other_lemma :
  exists u os p, built eps_code u /\ meq 2 (u_mat u) rot345 /\
    os = [NewEntry u [1%Z]; NewSequence 6 false []] /\
    answers eps_code (exec eps_code os w_empty) 0 p /\
    has_dim (exec eps_code os w_empty) 0 6 /\ (forall n, 6 <> 2 ^ n)%nat /\
    from_array (exec eps_code os w_empty) 0 false /\
    (0 < List.length (w_heap (exec eps_code os w_empty)))%nat /\ fits (exec eps_code os w_empty) 6 0.
Proof.
  assert (S := eps_code_small).
  destruct (rot345_built eps_code ltac:(lra)) as (u & B & D & M & Cl).
  destruct (mk_special eps_code 6 mid None [] false [] ltac:(lia) (special_mid 6) (eps_clean_mid eps_code 6 ltac:(lra)))
    as (p & E0 & _).
  exists u. eexists. exists p. split; [exact B|]. split; [exact M|]. split; [reflexivity|].
  assert (HW := W_exec eps_code [NewEntry u [1%Z]; NewSequence 6 false []]).
  clear B M Cl. conc u D. split.
  - eapply (answers_iff eps_code _ 0 _ p HW); [reflexivity|].
    unfold reported, pure_product. cbn [s_product s_dim s_entries gates map].
    change (mk_unitary eps_code 6 None None [] false []) with (mk_unitary eps_code 6 (Some (square 6 mid)) None [] false []).
    rewrite E0. reflexivity.
  - split; [eexists; split; reflexivity|]. split.
    { intros n. destruct n as [|[|[|n]]]; try discriminate. rewrite !Nat.pow_succ_r'.
      assert (2 ^ n <> 0)%nat by (apply Nat.pow_nonzero; lia). lia. }
    split; [eexists; split; reflexivity|].
    split; [apply Nat.ltb_lt; reflexivity|]. split; [apply Nat.leb_le; reflexivity|]. intros q [<-|[]]. apply Nat.leb_le. reflexivity.
Qed.

Lemma ex_C23_lemma :
  exists u os, built 0 u /\ meq 2 (u_mat u) rot345 /\
    os = [NewEntry u [1%Z]; NewSequence 4 true [0]%nat] /\
    history 0 (built 0) odd_entries os w_empty /\
    has_dim (exec 0 os w_empty) 0 (2 ^ 2) /\ from_array (exec 0 os w_empty) 0 true /\
    effective (exec 0 os w_empty) 0 (RemoveLast 0 true) /\ effective (exec 0 os w_empty) 0 (AppendFirst 0 0 true).
Proof.
  destruct (rot345_built 0 ltac:(lra)) as (u & B & D & M & _).
  exists u. eexists. split; [exact B|]. split; [exact M|]. split; [reflexivity|].
  split; [cbn [history]; auto 20|].
  clear B M. conc u D. split; [eexists; split; reflexivity|]. split; [eexists; split; reflexivity|].
  split; [split; [reflexivity|discriminate]|]. split; [reflexivity|]. split; [apply Nat.ltb_lt; reflexivity|].
  exists 4%nat. split; [eexists; split; reflexivity|]. split; [apply Nat.leb_le; reflexivity|]. intros q [<-|[]]. apply Nat.leb_le. reflexivity.
Qed.
