(** Proofs: the fidelity of the paper's notebooks for circuits run by the noisy emulator, and
    sequences accepted for their cost. *)
From Coq Require Import Reals List Arith Bool Lia Lra.
From Coquelicot Require Import Complex.
From Verif Require Import Base CMat CMatFacts Spec SpecModel SpecGates ModelUnitary ModelNoise SpecNoise PNoise4
  ModelPaper SpecPaper PPaper PPaper3.
Import ListNotations.
Open Scope R_scope.

Lemma emulated_lemma : forall e c t i, circuit_ok 1 c -> survives e (2 * total_duration c) t -> (i < 2)%nat ->
  let measured k := Re (emulate e 1 (c ++ mirror c) (unit_mx i i) k k) in
  (forall k, (k < 2)%nat ->
     measured k = output_probs 2 (fun j => if Nat.eqb j i then 1 else 0) (1 - t) k) /\
  rav_fidelity 2 (measured i) 1 = Some t.
Proof.
  intros e c t i Hc Ht Hi measured.
  assert (E : forall k, (k < 2)%nat ->
     measured k = output_probs 2 (fun j => if Nat.eqb j i then 1 else 0) (1 - t) k).
  { intros k Hk. unfold measured.
    rewrite (one_qubit_mirror_lemma e c t (unit_mx i i) Hc Ht k k Hk Hk).
    unfold depolarise, output_probs, unit_mx, mtrace, mid. rewrite Nat.eqb_refl.
    destruct i as [| [| i]]; [| | lia]; (destruct k as [| [| k]]; [| | lia]); simpl; field. }
  split; [exact E |]. rewrite (E i Hi). unfold output_probs, rav_fidelity. rewrite Nat.eqb_refl.
  change (INR 2) with 2. rewrite np_div_some by lra. f_equal. field.
Qed.

Lemma accepted_lemma : forall d c, (2 <= d)%nat -> 2 / INR d <= c -> exists u I c',
  built 0 u /\ u_dim u = d /\ u_identity 0 d = Ok I /\
  u_distance_from 0 u I = Ok c' /\ c' <= c /\ ideal_output_probs (u_mat u) 0 0 = 0.
Proof.
  intros d c Hd Hc. destruct (low_cost_lemma d Hd) as (u & I & H1 & H2 & H3 & H4 & H5).
  exists u, I, (2 / INR d). repeat (split; [assumption |]). exact H5.
Qed.
