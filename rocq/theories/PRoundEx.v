(** Theorems about double precision, and concrete cases. *)
From Coq Require Import Reals List Arith Bool Lia Lra Psatz String.
From Coquelicot Require Import Rcomplements Complex.
From Verif Require Import Base CMat CMatFacts Det DetFacts CRoot Norms ModelUnitary ModelEntry
  ModelRound ModelRound64 Spec SpecModel SpecGates SpecRound PUnitary PEntry PDrift PRound PRoundProps
  PRound64 PGatesEx.
Import ListNotations.
Open Scope R_scope.
Open Scope C_scope.

Lemma double_product : forall eps n ops es, (n <= 23)%nat ->
  small_round eps (mu64 n) n (List.length ops) ->
  r_ops_ok arith64 eps (mu64 n) n ops -> holds_after [] None ops = Some es ->
  exists q p, r_run arith64 eps (r_empty (2 ^ n)) ops = Ok q /\ rs_entries q = es /\
    r_product arith64 eps q = Ok p /\ u_dim p = (2 ^ n)%nat /\
    (fro (2 ^ n) (mminus (u_mat p) (ordered n es)) <= round_bound eps (mu64 n) n (List.length ops))%R.
Proof.
  intros eps n ops es. intros Hn HS Ho HH. apply round_product; auto. intros k Hk. now apply mu64_accurate. Qed.

Lemma double_distance : forall eps n ops es t, (n <= 23)%nat ->
  small_round eps (mu64 n) n (List.length ops) ->
  r_ops_ok arith64 eps (mu64 n) n ops -> holds_after [] None ops = Some es ->
  r_gate arith64 eps (mu64 n) t -> u_dim t = (2 ^ n)%nat ->
  exists q p x, r_run arith64 eps (r_empty (2 ^ n)) ops = Ok q /\ r_product arith64 eps q = Ok p /\
    r_distance_from arith64 eps t p = Ok x /\
    (Rabs (x - (1 - overlap (2 ^ n) (u_mat t) (ordered n es)))
       <= round_bound eps (mu64 n) n (List.length ops))%R.
Proof.
  intros eps n ops es t. intros Hn HS Ho HH Ht Hd. apply round_distance; auto. intros k Hk. now apply mu64_accurate. Qed.

Lemma small_code_1 K : (K <= 30)%nat -> small_round eps_code (mu64 1) 1 K.
Proof.
  intros HK. assert (B := sqrt2_bounds).
  assert (IK : (0 <= INR (K + 1) <= 31)%R).
  { split; [apply pos_INR|]. replace 31%R with (INR 31) by (simpl; ring). apply le_INR. lia. }
  assert (D : INR (2 ^ 1) = 2%R) by (simpl; ring).
  assert (M : mu64 1 = (512 / 9007199254740992)%R).
  { unfold mu64. rewrite D. replace (2 ^ 53)%R with 9007199254740992%R by (simpl; ring). field. }
  assert (RB : (round_bound eps_code (mu64 1) 1 K <= 45 / 10 ^ 10)%R).
  { unfold round_bound. rewrite D, M. unfold eps_code.
    replace (10 ^ 12)%R with 1000000000000%R by ring. replace (10 ^ 10)%R with 10000000000%R by ring.
    set (e := (/ 1000000000000 + 9 * (512 / 9007199254740992))%R).
    assert (E : (0 <= e <= 1512 / 1000000000000000)%R) by (unfold e; lra).
    apply Rle_trans with (16 * 31 * 2 * (1415 / 1000 + 1) * (1512 / 1000000000000000))%R; [|lra].
    apply Rmult_le_compat; try lra.
    - apply Rmult_le_pos; [|lra]. apply Rmult_le_pos; [|lra]. lra.
    - apply Rmult_le_compat; lra. }
  repeat split; auto.
  - unfold eps_code. left. apply Rinv_0_lt_compat, pow_lt. lra.
  - rewrite M. lra.
  - rewrite D. replace (10 ^ 10)%R with 10000000000%R in RB by ring. lra.
Qed.

(** The Hadamard gate with double-precision entries. *)
Definition hadamard64 : mat := fun i j => c_round (hadamard i j).

Lemma hadamard64_within : unitary_mx 2 hadamard -> within (mu64 1) 2 hadamard64 hadamard.
Proof.
  intros HU i j Hi Hj. unfold hadamard64. eapply Rle_trans; [apply c_round_near|].
  assert (H := near_bounded 2 hadamard hadamard 0 HU ltac:(rewrite fro_minus_self by reflexivity; lra) ltac:(lra) i j Hi Hj). unfold mu64. fold u64. assert (U := u64_pos).
  assert (D : INR (2 ^ 1) = 2%R) by (simpl; ring). rewrite D. nra.
Qed.

Definition had_ops (g : unitary) : list rop :=
  [RLast (g, [0%nat]) true; RFirst (g, [0%nat]) false; RProduct; RPopLast true; RUndo; RProduct].

Lemma ex_C75_lemma : small_round eps_code (mu64 1) 1 30 /\
  exists g, r_gate arith64 eps_code (mu64 1) g /\ u_dim g = 2%nat /\ u_name g = "H"%string /\
    r_ops_ok arith64 eps_code (mu64 1) 1 (had_ops g) /\
    holds_after [] None (had_ops g) = Some [(g, [0%nat]); (g, [0%nat])] /\
    holds_after [] None (had_ops g ++ [RUndo]) = None.
Proof.
  split; [apply small_code_1; lia|].
  assert (HU : unitary_mx 2 hadamard) by apply ex_reach_lemma.
  assert (HW := hadamard64_within HU).
  destruct (round_gate arith64 eps_code (mu64 1) 1 hadamard hadamard64 (Some "H"%string) [] false [])
    as (g & c & E & _ & D & _); auto.
  { apply small_code_1. lia. }
  { apply mu64_accurate; lia. }
  assert (G : r_gate arith64 eps_code (mu64 1) g).
  { left. exists 2%nat, hadamard64, hadamard, (Some "H"%string), [], false, []. auto. }
  exists g. split; auto. split; auto. split.
  { unfold r_unitary in E. cbv zeta in E. repeat (match type of E with context [bind ?x _] => destruct x; cbn [bind] in E; [|discriminate] end).
    destruct (Ceq_dec _ _); [discriminate|]. inversion E. reflexivity. }
  split; [|split; reflexivity].
  intros o h Ho Hh. assert (h = (g, [0%nat])) as ->.
  { unfold had_ops in Ho. cbn [In] in Ho.
    destruct Ho as [<-|[<-|[<-|[<-|[<-|[<-|[]]]]]]]; cbn in Hh; intuition congruence. }
  cbn [fst snd List.length]. split; auto. split; auto.
  split; [repeat constructor; simpl; auto|]. split; [discriminate|]. intros x [<-|[]]. lia.
Qed.
