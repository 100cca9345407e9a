(** Cases for the choices in double precision. *)
From Coq Require Import Reals List Arith Bool ZArith Lia Lra Psatz Permutation.
From Flocq Require Import Core.Core.
From Verif Require Import Base ModelUnitary ModelRound64 ModelCompiler ModelChoice64 SpecChoice PRound64 PChoice64.
Import ListNotations.
Open Scope R_scope.

Lemma tenth : 0 <= rn (/ 10) /\ Rabs (rn (/ 10) - / 10) <= / 2 ^ 50.
Proof.
  split; [apply rn_pos; lra|]. eapply Rle_trans; [apply rn_near|]. rewrite u64_value, Rabs_pos_eq by lra. lra.
Qed.

Lemma ex_choice_lemma : exists p, p = repeat (rn (/ 10)) 10 /\ List.Forall double p /\
  (0 < List.length p)%nat /\ INR (List.length p) <= 10 ^ 6 /\
  List.Forall (fun y => 0 <= y) p /\ Rabs (total p - 1) <= / 2 ^ 27 /\ 0 <= / 2 < 1.
Proof.
  destruct tenth as [T1 T2]. apply Rabs_le_inv in T2.
  eexists. split; [reflexivity|]. split; [|split; [|split; [|split; [|split]]]].
  - apply Forall_forall. intros y Hy. apply repeat_spec in Hy. subst. apply rn_double.
  - cbn. lia.
  - rewrite repeat_length. cbn. lra.
  - apply Forall_forall. intros y Hy. apply repeat_spec in Hy. now subst.
  - cbn [repeat]. unfold total. cbn [fold_right]. apply Rabs_le. lra.
  - lra.
Qed.

Lemma ex_refused_lemma : INR 2 <= 10 ^ 6 /\ / 2 ^ 25 <= Rabs (total [/ 2; / 4] - 1).
Proof.
  split; [cbn; lra|]. unfold total. cbn [fold_right]. rewrite Rabs_left by lra. lra.
Qed.

Lemma ex_qdrift_lemma : exists t coefs, coefs = [rn (/ 10); 1; rn (/ 3)] /\
  t = Add (Item 1) (Add (Item (rn (/ 3))) (Item (rn (/ 10)))) /\
  Permutation (items t) coefs /\ List.Forall double coefs /\ List.Forall (fun y => 0 <= y) coefs /\ 0 < total coefs /\
  INR (List.length coefs) <= 10 ^ 6.
Proof.
  destruct tenth as [T1 _]. assert (T3 := rn_pos (/ 3) ltac:(lra)).
  do 2 eexists. split; [reflexivity|]. split; [reflexivity|]. split; [|split; [|split; [|split]]].
  - cbn [items List.app]. apply perm_trans with [1; rn (/ 10); rn (/ 3)]; [apply perm_skip, perm_swap|apply perm_swap].
  - repeat apply List.Forall_cons; auto; try apply rn_double. apply double_1.
  - repeat apply List.Forall_cons; auto; lra.
  - unfold total. cbn [fold_right]. lra.
  - cbn. lra.
Qed.

Lemma ex_action_lemma : 0 <= / 5 <= 1 /\ 0 <= / 2 < 1.
Proof. lra. Qed.

Lemma ex_agrees_lemma : exists p, p = repeat (rn (/ 10)) 10 /\
  let n := List.length p in let x := 1 / 4 in
  (0 < n)%nat /\ INR n <= 10 ^ 6 /\ List.Forall (fun y => 0 <= y) p /\ Rabs (total p - 1) <= / 2 ^ 27 /\ 0 <= x < 1 /\
  forall k, (0 < k < n)%nat -> INR n * / 2 ^ 48 < Rabs (x - total (firstn k p) / total p).
Proof.
  destruct ex_choice_lemma as (p & E & _ & H1 & H2 & H3 & H4 & _). exists p. split; auto. cbv zeta.
  do 5 (split; [auto; lra|]). destruct tenth as [T1 T2]. apply Rabs_le_inv in T2. intros k Hk.
  assert (TF : forall m c, total (repeat c m) = INR m * c).
  { unfold total. induction m as [|m IH]; intros c; cbn [repeat fold_right]; [cbn; ring|]. rewrite IH, S_INR. ring. }
  assert (L : List.length p = 10%nat) by (rewrite E; apply repeat_length).
  assert (F : firstn k p = repeat (rn (/ 10)) k).
  { rewrite E. replace 10%nat with (k + (10 - k))%nat by lia. rewrite repeat_app.
    rewrite firstn_app, repeat_length, Nat.sub_diag, firstn_O, app_nil_r.
    rewrite <- (repeat_length (rn (/ 10)) k) at 1. apply firstn_all. }
  rewrite F, L. subst p. rewrite !TF. replace (INR 10) with 10 by (cbn; lra).
  replace (INR k * rn (/ 10) / (10 * rn (/ 10))) with (INR k / 10) by (field; lra).
  destruct (Nat.le_gt_cases k 2) as [G|G].
  - apply le_INR in G. replace (INR 2) with 2 in G by (cbn; lra). rewrite Rabs_pos_eq by lra. lra.
  - assert (G' : (3 <= k)%nat) by lia. apply le_INR in G'. replace (INR 3) with 3 in G' by (cbn; lra).
    rewrite Rabs_left by lra. lra.
Qed.
