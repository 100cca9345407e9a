(** The lemmas behind C67: [Unitary.random]. *)
From Coq Require Import Reals List Arith Lia Lra Bool String Setoid Morphisms.
From Coquelicot Require Import Complex.
From Verif Require Import Base CMat CMatFacts Det DetFacts Norms CRoot ModelUnitary Spec SpecModel PUnitary
  PUnitaryProps PDrift.
Import ListNotations.
Open Scope R_scope.
Open Scope C_scope.

Lemma C67_lemma : forall eps rvs d M, (0 < d)%nat -> (0 <= eps)%R ->
  rvs d = Ok (square d M) -> unitary_mx d M ->
  let e := (8 / 5 * INR d * (sqrt (INR d) + 1) * eps)%R in
  (e <= 45 / 10 ^ 10)%R -> (INR d * e <= / 100)%R ->
  exists u c, u_random eps rvs d = Ok u /\ u_dim u = d /\ det d (u_mat u) = 1 /\
    Cmod c = 1%R /\ (fro d (mminus (u_mat u) (mscale c M)) <= e)%R /\
    u_name u = "U"%string /\ u_params u = [] /\ u_inv u = false /\ u_apply u = [].
Proof.
  intros eps rvs d M Hd He Hr HU e H1 H2. unfold u_random. rewrite Hr. cbn [bind].
  assert (Z : (fro d (mminus M M) <= 0)%R).
  { apply Req_le. rewrite <- (fro_mzero d). apply fro_proper. intros i j _ _. unfold mminus, mzero. ring. }
  assert (E : (0 + kappa0 d * eps = e)%R) by (unfold kappa0, e; ring).
  destruct (normalise_gen eps d M M 0 None [] false [] Hd He HU (unitary_det_mod d M HU) Z)
    as (p & c & Ep & Dp & De & En & Ea & Ei & Eq & Cc & _ & _ & F).
  - rewrite E. auto.
  - rewrite E. auto.
  - exists p, c. rewrite E in F. repeat split; auto.
Qed.

Lemma C67_raises_lemma : forall eps rvs d e, rvs d = Raise e -> u_random eps rvs d = Raise e.
Proof. intros eps rvs d e H. unfold u_random. now rewrite H. Qed.

Lemma random_0 rvs d M : (0 < d)%nat -> rvs d = Ok (square d M) -> unitary_mx d M ->
  exists u, u_random 0 rvs d = Ok u /\ u_dim u = d /\
    meq d (u_mat u) (mscale (croot d (/ det d M)) M).
Proof.
  intros Hd Hr HU. unfold u_random. rewrite Hr. cbn [bind].
  assert (E := clean_id 0 d M (eps_clean_0 d M)).
  assert (N : det d M <> 0).
  { intros K. assert (X := unitary_det_mod d M HU). rewrite K, Cmod_0 in X. lra. }
  assert (N' : det d (clean 0 M) <> 0) by (now rewrite (@det_ext d _ _ E)).
  eexists. split; [apply mk_unitary_ok; auto|].
  - cbn [square elt]. intros i j Hi Hj. rewrite (mmul_proper d _ _ E _ _ (adj_proper d _ _ E) i j Hi Hj).
    now apply unitary_near.
  - cbn [square elt u_dim u_mat]. split; auto. rewrite (@det_ext d _ _ E).
    intros i j Hi Hj. unfold mscale. now rewrite E by auto.
Qed.

Lemma C67_invariant_lemma : forall rvs rvs' rvs'' d M W, (0 < d)%nat ->
  unitary_mx d M -> special d W ->
  rvs d = Ok (square d M) -> rvs' d = Ok (square d (mmul d W M)) ->
  rvs'' d = Ok (square d (mmul d M W)) ->
  exists u u' u'', u_random 0 rvs d = Ok u /\ u_random 0 rvs' d = Ok u' /\ u_random 0 rvs'' d = Ok u'' /\
    special d (u_mat u) /\
    meq d (u_mat u') (mmul d W (u_mat u)) /\ meq d (u_mat u'') (mmul d (u_mat u) W).
Proof.
  intros r r' r'' d M W Hd HU [HW DW] E E' E''.
  destruct (random_0 r d M Hd E HU) as (u & A1 & A2 & A3).
  destruct (random_0 r' d _ Hd E' (unitary_mmul _ _ _ HW HU)) as (u' & B1 & B2 & B3).
  destruct (random_0 r'' d _ Hd E'' (unitary_mmul _ _ _ HU HW)) as (u'' & D1 & D2 & D3).
  exists u, u', u''. split; [auto|]. split; [auto|]. split; [auto|].
  rewrite det_mmul, DW, Cmult_1_l in B3. rewrite det_mmul, DW, Cmult_1_r in D3.
  split; [|split].
  - destruct (phase_special d M Hd HU) as [_ [S1 S2]]. split.
    + unfold unitary_mx. rewrite A3. exact S1.
    + rewrite (@det_ext d _ _ A3). exact S2.
  - rewrite B3, A3. now rewrite mmul_mscale_r.
  - rewrite D3, A3. now rewrite mmul_mscale_l.
Qed.

Lemma ex_C67_lemma :
  let rvs := fun d => if Nat.eqb d 2 then Ok (square 2 rot345) else Raise ValueError in
  rvs 2%nat = Ok (square 2 rot345) /\ unitary_mx 2 rot345 /\ special 2 rot345 /\
  let e := (8 / 5 * INR 2 * (sqrt (INR 2) + 1) * eps_code)%R in
  (e <= 45 / 10 ^ 10)%R /\ (INR 2 * e <= / 100)%R /\ rvs 1%nat = Raise ValueError.
Proof.
  intros rvs. split; [reflexivity|]. split; [apply rot345_unitary|]. split; [apply rot345_special|].
  intros e. assert (S := sqrt2_bounds).
  assert (B : (0 <= e <= 8 / 10 ^ 12)%R).
  { unfold e, eps_code. change (INR 2) with 2%R.
    assert (X : (0 < / 10 ^ 12)%R) by (apply Rinv_0_lt_compat, pow_lt; lra).
    set (t := (/ 10 ^ 12)%R) in *. replace (8 / 10 ^ 12)%R with (8 * t)%R by (unfold t; field).
    split; nra. }
  change (INR 2) with 2%R. replace (10 ^ 12)%R with 1000000000000%R in B by ring.
  replace (10 ^ 10)%R with 10000000000%R by ring.
  repeat split; try reflexivity; lra.
Qed.
