(** The lemmas behind [PropsUnitary.v] (C01-C08, C54). *)
From Coq Require Import Reals List Arith Bool String Lia Lra Setoid Morphisms.
From Coquelicot Require Import Complex.
From Verif Require Import Base CMat CMatFacts Det DetFacts Norms CRoot
  ModelUnitary Spec SpecModel PUnitary.
Import ListNotations.
Open Scope R_scope.
Open Scope C_scope.

(** ** Concrete matrices *)
Ltac mat2 := let i := fresh "i" in let j := fresh "j" in
  let Hi := fresh "Hi" in let Hj := fresh "Hj" in
  intros i j Hi Hj;
  destruct i as [|[|i]]; [| |exfalso; lia];
  (destruct j as [|[|j]]; [| |exfalso; lia]).

Lemma rot345_unitary : unitary_mx 2 rot345.
Proof.
  mat2; apply C_eq; unfold rot345, mat22, mmul, adj, mid; simpl; field.
Qed.

Lemma eps_code_small : (0 < eps_code < / 1000)%R.
Proof.
  unfold eps_code. split; [apply Rinv_0_lt_compat, pow_lt; lra|].
  apply Rinv_lt_contravar; [apply Rmult_lt_0_compat; [lra|apply pow_lt; lra]|].
  simpl. lra.
Qed.

Lemma Rabs_lt_absurd (x e : R) : (e <= Rabs x)%R -> (Rabs x < e)%R -> x = 0%R.
Proof. intros. lra. Qed.

Lemma rot345_clean eps : (eps <= 3 / 5)%R -> eps_clean eps 2 rot345.
Proof.
  intros He. mat2; unfold rot345, mat22; simpl; split; auto;
    apply Rabs_lt_absurd; unfold Rabs; destruct (Rcase_abs _); lra.
Qed.

(** ** C01 *)
Lemma C01_lemma : forall eps d M name params inv apply,
  (0 < d)%nat -> unitary_mx d M -> eps_clean eps d M ->
  exists u c,
    mk_unitary eps d (Some (square d M)) name params inv apply = Ok u /\
    u_dim u = d /\ Cmod c = 1%R /\ meq d (u_mat u) (mscale c M) /\
    det d (u_mat u) = 1 /\ unitary_mx d (u_mat u) /\
    u_name u = match name with Some s => s | None => "U"%string end /\
    u_params u = params /\ u_inv u = inv /\ u_apply u = apply.
Proof.
  intros eps d M nm ps iv ap Hd HU Hc.
  destruct (mk_unitary_exact eps d M nm ps iv ap Hd HU Hc)
    as (u & E & E1 & E2 & E3 & E4 & E5 & E6 & E7 & E8 & E9).
  exists u, (croot d (/ det d M)). repeat split; auto.
Qed.

Lemma C01_default_lemma : forall eps d name params inv apply,
  (0 < d)%nat -> (eps <= 1)%R ->
  exists u, mk_unitary eps d None name params inv apply = Ok u /\
    u_dim u = d /\ meq d (u_mat u) mid.
Proof.
  intros eps d nm ps iv ap Hd He. rewrite mk_unitary_none.
  destruct (mk_special eps d mid nm ps iv ap Hd (special_mid d) (eps_clean_mid eps d He))
    as (u & E & E1 & _ & _ & _ & _ & E2).
  exists u; auto.
Qed.

(** ** C02 *)
Lemma C02_rejects_lemma : forall eps d a name params inv apply,
  (d = 0%nat \/ nrows a <> d \/ ncols a <> d \/
   (exists B, cleared eps d (elt a) B /\ ~ near_unitary d B)) ->
  mk_unitary eps d (Some a) name params inv apply = Raise AssertionError.
Proof.
  intros eps d a nm ps iv ap H. unfold mk_unitary, assert, bind.
  destruct (Nat.ltb_spec 0 d) as [Hd|]; [|reflexivity].
  destruct (Nat.eqb_spec (nrows a) d) as [Hr|]; [|reflexivity].
  destruct (Nat.eqb_spec (ncols a) d) as [Hc|]; [|reflexivity].
  simpl andb. cbv iota. destruct (allclose _ _ _) eqn:E; [|reflexivity].
  exfalso. destruct H as [H|[H|[H|[B [HB HN]]]]]; try lia. apply HN.
  rewrite (cleared_unique eps d _ _ _ HB (clean_cleared eps d (elt a))).
  now apply allclose_near.
Qed.

Lemma C02_sound_lemma : forall eps d a name params inv apply u,
  mk_unitary eps d (Some a) name params inv apply = Ok u ->
  (0 < d)%nat /\ nrows a = d /\ ncols a = d /\ u_dim u = d /\
  det d (u_mat u) = 1 /\
  exists B c, cleared eps d (elt a) B /\ near_unitary d B /\ meq d (u_mat u) (mscale c B).
Proof.
  intros eps d a nm ps iv ap u H. assert (HD := mk_unitary_det _ _ _ _ _ _ _ _ H).
  apply mk_unitary_inv in H. destruct H as (H1 & H2 & H3 & H4 & H5 & ->).
  repeat split; auto; try tauto. simpl.
  exists (clean eps (elt a)), (croot d (/ det d (clean eps (elt a)))).
  split; [apply clean_cleared|]. split; [assumption|]. apply meq_refl.
Qed.

Lemma C02_decides_lemma : forall eps d a name params inv apply,
  (INR d * / 10 ^ 8 + / 10 ^ 5 < 1)%R ->
  ((exists u, mk_unitary eps d (Some a) name params inv apply = Ok u) <->
   ((0 < d)%nat /\ nrows a = d /\ ncols a = d /\
    forall B, cleared eps d (elt a) B -> near_unitary d B)) /\
  ((forall u, mk_unitary eps d (Some a) name params inv apply <> Ok u) ->
   mk_unitary eps d (Some a) name params inv apply = Raise AssertionError).
Proof.
  intros eps d a nm ps iv ap Hs.
  assert (K : (0 < d)%nat /\ nrows a = d /\ ncols a = d /\
    (forall B, cleared eps d (elt a) B -> near_unitary d B) ->
    exists u, mk_unitary eps d (Some a) nm ps iv ap = Ok u).
  { intros (H1 & H2 & H3 & H4). eexists. apply mk_unitary_ok; auto.
    - apply H4, clean_cleared.
    - apply near_unitary_det; auto. apply H4, clean_cleared. }
  split; [split; [|exact K]|].
  - intros [u H]. apply mk_unitary_inv in H. destruct H as (H1 & H2 & H3 & H4 & H5 & ->).
    repeat split; auto. intros B HB.
    now rewrite (cleared_unique eps d _ _ _ HB (clean_cleared eps d (elt a))).
  - intros H. unfold mk_unitary, assert, bind in *.
    destruct (Nat.ltb_spec 0 d) as [Hd|]; [|reflexivity].
    destruct (Nat.eqb_spec (nrows a) d) as [Hr|]; [|reflexivity].
    destruct (Nat.eqb_spec (ncols a) d) as [Hc|]; [|reflexivity].
    simpl andb in *. cbv iota in *. destruct (allclose _ _ _) eqn:E; [|reflexivity].
    destruct (Ceq_dec _ 0) as [Z|]; [|exfalso; eapply H; reflexivity].
    exfalso. apply allclose_near in E. revert Z. now apply near_unitary_det.
Qed.

Definition almost : R := (1 + / 10 ^ 6)%R.
Definition almost_id : mat := mat22 (RtoC almost) 0 0 (RtoC (/ almost)).

Lemma almost_bounds : (1 < almost < 1 + / 1000 /\ / 2 < / almost < 1 /\ almost * / almost = 1)%R.
Proof.
  assert (E : (10 ^ 6 = 1000000)%R) by ring.
  assert (1 < almost < 1 + / 1000)%R by (unfold almost; rewrite E; lra).
  assert (almost * / almost = 1)%R by (field; lra).
  repeat split; try lra; nra.
Qed.

Lemma almost_clean : eps_clean eps_code 2 almost_id.
Proof.
  assert (B := almost_bounds). assert (S := eps_code_small).
  mat2; unfold almost_id, mat22; simpl; split; auto;
    apply Rabs_lt_absurd; rewrite Rabs_pos_eq by lra; lra.
Qed.

Lemma almost_near : near_unitary 2 almost_id.
Proof.
  assert (E6 : (10 ^ 6 = 1000000)%R) by ring. assert (E5 : (10 ^ 5 = 100000)%R) by ring.
  assert (E8 : (10 ^ 8 = 100000000)%R) by ring.
  assert (B := almost_bounds).
  assert (D : (almost = 1 + / 1000000)%R) by (unfold almost; now rewrite E6).
  assert (L : (1 - / 1000000 <= / almost)%R) by nra.
  unfold near_unitary. rewrite E5, E8.
  mat2; unfold almost_id, mat22, mmul, adj, mid; simpl Nat.eqb; cbv iota; simpl csum;
    rewrite ?Cconj_R, <- ?RtoC_mult, <- ?RtoC_plus, <- ?RtoC_minus, Cmod_R.
  - rewrite Rabs_pos_eq; [rewrite D; lra|nra].
  - rewrite Rabs_pos_eq; lra.
  - rewrite Rabs_pos_eq; lra.
  - rewrite Rabs_left; nra.
Qed.

Lemma C02_not_exact_lemma :
  exists a u, mk_unitary eps_code 2 (Some a) None [] false [] = Ok u /\
    ~ unitary_mx 2 (u_mat u).
Proof.
  assert (B := almost_bounds).
  assert (E := clean_id _ _ _ almost_clean).
  assert (Hdet : det 2 almost_id <> 0).
  { apply near_unitary_det; [simpl; lra|apply almost_near]. }
  exists (square 2 almost_id). eexists. split.
  { apply mk_unitary_ok; simpl; auto; rewrite E; [apply almost_near|exact Hdet]. }
  simpl. set (c := croot 2 _). intros HU. unfold unitary_mx in HU.
  assert (E2 : meq 2 (mscale c (clean eps_code almost_id)) (mscale c almost_id))
    by (now rewrite E).
  rewrite E2 in HU. clearbody c.
  assert (H0 := HU 0%nat 0%nat ltac:(lia) ltac:(lia)).
  assert (H1 := HU 1%nat 1%nat ltac:(lia) ltac:(lia)).
  unfold mmul, adj, mscale, mid, almost_id, mat22 in H0, H1. simpl csum in H0, H1.
  simpl Nat.eqb in H0, H1. cbv iota in H0, H1.
  rewrite !Cconj_mult, !Cconj_R in H0, H1.
  assert (P := Cmult_conj c).
  assert (K0 : c * Cconj c * RtoC (almost * almost) = 1).
  { rewrite RtoC_mult. rewrite <- H0. ring. }
  assert (K1 : c * Cconj c * RtoC (/ almost * / almost) = 1).
  { rewrite RtoC_mult. rewrite <- H1. ring. }
  rewrite P, <- RtoC_mult in K0, K1. apply RtoC_inj in K0, K1.
  assert (0 <= Cmod c ^ 2)%R by apply pow2_ge_0. nra.
Qed.

(** ** C03 *)
Lemma C03_lemma : forall eps u,
  (eps <= 1)%R -> built eps u -> eps_clean eps (u_dim u) (u_mat u) ->
  exists v,
    u_inverse eps u = Ok v /\ u_dim v = u_dim u /\
    meq (u_dim u) (u_mat v) (adj (u_mat u)) /\
    (exists p, u_left_multiply eps u v = Ok p /\ u_dim p = u_dim u /\
               meq (u_dim u) (u_mat p) mid) /\
    (exists p, u_right_multiply eps u v = Ok p /\ u_dim p = u_dim u /\
               meq (u_dim u) (u_mat p) mid) /\
    (exists w, u_inverse eps v = Ok w /\ u_dim w = u_dim u /\
               meq (u_dim u) (u_mat w) (u_mat u) /\ u_name w = u_name u /\
               u_params w = u_params u /\ u_inv w = u_inv u /\ u_apply w = u_apply u).
Proof.
  intros eps u He Hb Hc. assert (Hw := built_wf _ _ Hb). destruct Hw as [Hd HS].
  destruct (u_inverse_ok eps u (conj Hd HS) Hc) as (v & E & E1 & E2 & E3 & E4 & E5 & E6).
  exists v. split; [exact E|]. split; [exact E1|]. split; [exact E6|].
  assert (Hv : wf v) by (apply (wf_of v (u_dim u) _ Hd E1 E6 (special_adj _ _ HS))).
  assert (L : meq (u_dim u) (mmul (u_dim u) (u_mat v) (u_mat u)) mid).
  { rewrite E6. apply unitary_left, HS. }
  assert (R : meq (u_dim u) (mmul (u_dim u) (u_mat u) (u_mat v)) mid).
  { rewrite E6. apply HS. }
  assert (Hcv : eps_clean eps (u_dim u) (u_mat v)).
  { rewrite E6. now apply eps_clean_adj. }
  repeat split.
  - destruct (u_left_multiply_ok eps u v (conj Hd HS) Hv (eq_sym E1)) as (p & F & F1 & _ & _ & _ & _ & F2).
    { rewrite L. now apply eps_clean_mid. }
    exists p. repeat split; auto. now rewrite F2.
  - destruct (u_right_multiply_ok eps u v (conj Hd HS) Hv (eq_sym E1)) as (p & F & F1 & _ & _ & _ & _ & F2).
    { rewrite R. now apply eps_clean_mid. }
    exists p. repeat split; auto. now rewrite F2.
  - rewrite <- E1 in Hcv. destruct (u_inverse_ok eps v Hv Hcv) as (w & F & F1 & F2 & F3 & F4 & F5 & F6).
    exists w. rewrite E1 in *. repeat split; auto; try congruence.
    + rewrite F6, E6. apply adj_adj.
    + rewrite F4, E4. apply negb_involutive.
Qed.

(** ** C04 *)
Lemma C04_left_lemma : forall eps u f,
  built eps u -> built eps f -> u_dim u = u_dim f ->
  eps_clean eps (u_dim u) (mmul (u_dim u) (u_mat f) (u_mat u)) ->
  exists p, u_left_multiply eps u f = Ok p /\ u_dim p = u_dim u /\
    meq (u_dim u) (u_mat p) (mmul (u_dim u) (u_mat f) (u_mat u)).
Proof.
  intros eps u f Hu Hf E Hc. apply built_wf in Hu. apply built_wf in Hf.
  destruct (u_left_multiply_ok eps u f Hu Hf E Hc) as (p & F & F1 & _ & _ & _ & _ & F2). eauto.
Qed.
Lemma C04_right_lemma : forall eps u f,
  built eps u -> built eps f -> u_dim u = u_dim f ->
  eps_clean eps (u_dim u) (mmul (u_dim u) (u_mat u) (u_mat f)) ->
  exists p, u_right_multiply eps u f = Ok p /\ u_dim p = u_dim u /\
    meq (u_dim u) (u_mat p) (mmul (u_dim u) (u_mat u) (u_mat f)).
Proof.
  intros eps u f Hu Hf E Hc. apply built_wf in Hu. apply built_wf in Hf.
  destruct (u_right_multiply_ok eps u f Hu Hf E Hc) as (p & F & F1 & _ & _ & _ & _ & F2). eauto.
Qed.
Lemma C04_assoc_lemma : forall u f g,
  built 0 u -> built 0 f -> built 0 g -> u_dim u = u_dim f -> u_dim f = u_dim g ->
  exists fu gfu gf gfu',
    u_left_multiply 0 u f = Ok fu /\ u_left_multiply 0 fu g = Ok gfu /\
    u_left_multiply 0 f g = Ok gf /\ u_left_multiply 0 u gf = Ok gfu' /\
    u_dim gfu = u_dim u /\ u_dim gfu' = u_dim u /\
    meq (u_dim u) (u_mat gfu) (u_mat gfu') /\
    meq (u_dim u) (u_mat gfu) (mmul (u_dim u) (u_mat g) (mmul (u_dim u) (u_mat f) (u_mat u))).
Proof.
  intros u f g Hu Hf Hg E1 E2. apply built_wf in Hu. apply built_wf in Hf. apply built_wf in Hg.
  destruct (u_left_multiply_ok 0 u f Hu Hf E1 (eps_clean_0 _ _)) as (fu & A & A1 & _ & _ & _ & _ & A2).
  destruct (u_left_multiply_ok 0 f g Hf Hg E2 (eps_clean_0 _ _)) as (gf & B & B1 & _ & _ & _ & _ & B2).
  destruct Hu as [Hd HU]. destruct Hf as [Hdf HF]. destruct Hg as [Hdg HG].
  rewrite <- E2, <- E1 in *.
  assert (Hfu : wf fu) by (apply (wf_of fu _ _ Hd A1 A2); now apply special_mmul).
  assert (Hgf : wf gf) by (apply (wf_of gf _ _ Hd B1 B2); now apply special_mmul).
  destruct (u_left_multiply_ok 0 fu g Hfu ltac:(split; rewrite <- E2; auto) ltac:(congruence) (eps_clean_0 _ _))
    as (gfu & G & G1 & _ & _ & _ & _ & G2).
  destruct (u_left_multiply_ok 0 u gf (conj Hd HU) Hgf ltac:(congruence) (eps_clean_0 _ _))
    as (gfu' & K & K1 & _ & _ & _ & _ & K2).
  rewrite A1 in *.
  exists fu, gfu, gf, gfu'. repeat split; auto.
  - rewrite G2, K2, A2, B2. apply mmul_assoc.
  - rewrite G2, A2. reflexivity.
Qed.
Lemma C04_mismatch_lemma : forall eps u f,
  u_dim u <> u_dim f ->
  u_left_multiply eps u f = Raise AssertionError /\
  u_right_multiply eps u f = Raise AssertionError.
Proof.
  intros eps u f H. unfold u_left_multiply, u_right_multiply.
  apply Nat.eqb_neq in H. rewrite H. auto.
Qed.

(** ** C05 *)
Lemma C05_lemma : forall eps u v,
  built eps u -> built eps v ->
  eps_clean eps (u_dim u * u_dim v) (kron (u_dim v) (u_mat u) (u_mat v)) ->
  exists p, u_tensor eps u v = Ok p /\ u_dim p = (u_dim u * u_dim v)%nat /\
    (forall i j k l, (i < u_dim u)%nat -> (j < u_dim u)%nat -> (k < u_dim v)%nat -> (l < u_dim v)%nat ->
       u_mat p (i * u_dim v + k)%nat (j * u_dim v + l)%nat = u_mat u i j * u_mat v k l) /\
    u_name p = (u_name u ++ "--" ++ u_name v)%string /\
    u_params p = u_params u /\ u_apply p = u_apply u /\ u_inv p = false.
Proof.
  intros eps u v Hu Hv Hc. apply built_wf in Hu. apply built_wf in Hv.
  destruct (u_tensor_ok eps u v Hu Hv Hc) as (p & E & E1 & E2 & E3 & E4 & E5 & E6).
  exists p. repeat split; auto. intros i j k l Hi Hj Hk Hl.
  rewrite E6 by nia. unfold kron.
  rewrite !Nat.div_add_l, !(Nat.div_small k), !(Nat.div_small l) by lia.
  rewrite !(Nat.add_comm (_ * u_dim v)), !Nat.mod_add, !Nat.mod_small by lia.
  now rewrite !Nat.add_0_r.
Qed.
Lemma C05_mixed_lemma : forall a b c d,
  built 0 a -> built 0 b -> built 0 c -> built 0 d ->
  u_dim a = u_dim c -> u_dim b = u_dim d ->
  exists ab cd abcd ac bd acbd,
    u_tensor 0 a b = Ok ab /\ u_tensor 0 c d = Ok cd /\ u_right_multiply 0 ab cd = Ok abcd /\
    u_right_multiply 0 a c = Ok ac /\ u_right_multiply 0 b d = Ok bd /\
    u_tensor 0 ac bd = Ok acbd /\
    u_dim abcd = u_dim acbd /\ meq (u_dim abcd) (u_mat abcd) (u_mat acbd).
Proof.
  intros a b c d Ha Hb Hc Hd E1 E2.
  apply built_wf in Ha. apply built_wf in Hb. apply built_wf in Hc. apply built_wf in Hd.
  destruct (u_tensor_ok 0 a b Ha Hb (eps_clean_0 _ _)) as (ab & A & A1 & _ & _ & _ & _ & A2).
  destruct (u_tensor_ok 0 c d Hc Hd (eps_clean_0 _ _)) as (cd & B & B1 & _ & _ & _ & _ & B2).
  destruct (u_right_multiply_ok 0 a c Ha Hc E1 (eps_clean_0 _ _)) as (ac & D & D1 & _ & _ & _ & _ & D2).
  destruct (u_right_multiply_ok 0 b d Hb Hd E2 (eps_clean_0 _ _)) as (bd & F & F1 & _ & _ & _ & _ & F2).
  destruct Ha as [Pa Sa]. destruct Hb as [Pb Sb]. destruct Hc as [Pc Sc]. destruct Hd as [Pd Sd].
  rewrite <- E1, <- E2 in *.
  assert (P : (0 < u_dim a * u_dim b)%nat) by nia.
  assert (Wab : wf ab) by (apply (wf_of ab _ _ P A1 A2); now apply special_kron).
  assert (Wcd : wf cd) by (apply (wf_of cd _ _ P B1 B2); now apply special_kron).
  assert (Wac : wf ac) by (apply (wf_of ac _ _ Pa D1 D2); now apply special_mmul).
  assert (Wbd : wf bd) by (apply (wf_of bd _ _ Pb F1 F2); now apply special_mmul).
  destruct (u_right_multiply_ok 0 ab cd Wab Wcd ltac:(congruence) (eps_clean_0 _ _)) as (x & G & G1 & _ & _ & _ & _ & G2).
  destruct (u_tensor_ok 0 ac bd Wac Wbd (eps_clean_0 _ _)) as (y & K & K1 & _ & _ & _ & _ & K2).
  exists ab, cd, x, ac, bd, y. repeat split; auto; [congruence|].
  rewrite G1, A1. rewrite A1 in G2. rewrite D1, F1 in K2.
  rewrite G2, K2, A2, B2, kron_mmul by exact Pb.
  apply kron_proper; auto; now symmetry.
Qed.

(** ** C06 *)
Lemma C06_range_lemma : forall eps u v,
  built eps u -> built eps v -> u_dim u = u_dim v -> eps_clean eps (u_dim u) (u_mat u) ->
  exists r, u_distance_from eps u v = Ok r /\
    r = (1 - overlap (u_dim u) (u_mat u) (u_mat v))%R /\
    (0 <= r <= 1)%R /\ (r = 0%R <-> phase_eq (u_dim u) (u_mat v) (u_mat u)).
Proof.
  intros eps u v Hu Hv E Hc. apply built_wf in Hu. apply built_wf in Hv.
  rewrite (overlap_inv u v eps Hu Hc (eq_sym E)).
  eexists. split; [reflexivity|]. split; [reflexivity|].
  destruct Hu as [Pu [Su _]]. destruct Hv as [Pv [Sv _]]. rewrite <- E in Sv.
  assert (A := overlap_nonneg _ (u_mat u) (u_mat v) Pu).
  assert (B := overlap_le_1 _ _ _ Pu Su Sv). split; [lra|].
  rewrite <- (overlap_1_iff _ _ _ Pu Su Sv). split; intros; lra.
Qed.
Lemma C06_sym_lemma : forall eps u v,
  built eps u -> built eps v -> u_dim u = u_dim v ->
  eps_clean eps (u_dim u) (u_mat u) -> eps_clean eps (u_dim v) (u_mat v) ->
  u_distance_from eps u v = u_distance_from eps v u.
Proof.
  intros eps u v Hu Hv E Hc Hc'. apply built_wf in Hu. apply built_wf in Hv.
  rewrite !overlap_inv by auto. rewrite <- E, overlap_sym. reflexivity.
Qed.
Lemma C06_phase_lemma : forall d M c nm ps iv ap u nm' ps' iv' ap' u' v,
  Cmod c = 1%R -> unitary_mx d M ->
  mk_unitary 0 d (Some (square d M)) nm ps iv ap = Ok u ->
  mk_unitary 0 d (Some (square d (mscale c M))) nm' ps' iv' ap' = Ok u' ->
  built 0 v -> u_dim v = d ->
  u_distance_from 0 u v = u_distance_from 0 u' v /\
  u_distance_from 0 v u = u_distance_from 0 v u' /\
  u_distance_from_array 0 v (square d M) = u_distance_from_array 0 v (square d (mscale c M)) /\
  u_distance_from_array 0 v (square d M) = u_distance_from 0 v u.
Proof.
  intros d M c nm ps iv ap u nm' ps' iv' ap' u' v Hc HM E E' Hv Ed.
  assert (Hd : (0 < d)%nat) by (apply mk_unitary_inv in E; tauto).
  destruct (mk_unitary_exact 0 d M nm ps iv ap Hd HM (eps_clean_0 _ _))
    as (x & F & F1 & _ & _ & _ & _ & F2 & F3 & F4). rewrite E in F. injection F as <-.
  assert (HM' : unitary_mx d (mscale c M)) by now apply unitary_mscale.
  destruct (mk_unitary_exact 0 d (mscale c M) nm' ps' iv' ap' Hd HM' (eps_clean_0 _ _))
    as (x & F' & F1' & _ & _ & _ & _ & F2' & F3' & F4'). rewrite E' in F'. injection F' as <-.
  apply built_wf in Hv.
  assert (W : wf u) by (split; congruence). assert (W' : wf u') by (split; congruence).
  rewrite !overlap_inv by (auto using eps_clean_0; congruence).
  rewrite !distance_array_ok by (auto using eps_clean_0). simpl elt.
  rewrite F1, F1', Ed, F2, F2'. rewrite !overlap_phase_l, !overlap_phase_r by auto. auto.
Qed.
Lemma C06_common_lemma : forall f u v,
  built 0 f -> built 0 u -> built 0 v -> u_dim u = u_dim f -> u_dim v = u_dim f ->
  exists fu fv uf vf,
    u_left_multiply 0 u f = Ok fu /\ u_left_multiply 0 v f = Ok fv /\
    u_right_multiply 0 u f = Ok uf /\ u_right_multiply 0 v f = Ok vf /\
    u_distance_from 0 fu fv = u_distance_from 0 u v /\
    u_distance_from 0 uf vf = u_distance_from 0 u v.
Proof.
  intros f u v Hf Hu Hv Eu Ev. apply built_wf in Hf. apply built_wf in Hu. apply built_wf in Hv.
  destruct (u_left_multiply_ok 0 u f Hu Hf Eu (eps_clean_0 _ _)) as (fu & A & A1 & _ & _ & _ & _ & A2).
  destruct (u_left_multiply_ok 0 v f Hv Hf Ev (eps_clean_0 _ _)) as (fv & B & B1 & _ & _ & _ & _ & B2).
  destruct (u_right_multiply_ok 0 u f Hu Hf Eu (eps_clean_0 _ _)) as (uf & D & D1 & _ & _ & _ & _ & D2).
  destruct (u_right_multiply_ok 0 v f Hv Hf Ev (eps_clean_0 _ _)) as (vf & F & F1 & _ & _ & _ & _ & F2).
  exists fu, fv, uf, vf. do 4 (split; [assumption|]).
  destruct Hf as [Pf Sf]. destruct Hu as [Pu Su]. destruct Hv as [Pv Sv].
  rewrite Eu, Ev in *.
  assert (Wfu : wf fu) by (apply (wf_of fu _ _ Pf A1 A2); now apply special_mmul).
  assert (Wuf : wf uf) by (apply (wf_of uf _ _ Pf D1 D2); now apply special_mmul).
  assert (Wu : wf u) by (split; congruence).
  rewrite !overlap_inv by (auto using eps_clean_0; congruence).
  rewrite A1, D1, Eu, A2, B2, D2, F2, overlap_left, overlap_right by apply Sf. auto.
Qed.
Lemma C06_mismatch_lemma : forall eps u v,
  u_dim u <> u_dim v -> u_distance_from eps u v = Raise AssertionError.
Proof.
  intros eps u v H. unfold u_distance_from, u_distance_from_array. simpl.
  assert (E : Nat.eqb (u_dim v) (u_dim u) = false) by (apply Nat.eqb_neq; auto).
  rewrite E. reflexivity.
Qed.

(** ** C07 *)
Lemma C07_lemma : forall eps u v,
  built eps u -> built eps v -> u_dim u = u_dim v -> eps_clean eps (u_dim u) (u_mat u) ->
  (forall t, exists b, u_close_to eps u v (Some t) = Ok b /\
     (b = true <-> (t <= overlap (u_dim u) (u_mat u) (u_mat v))%R) /\
     ((t <= 0)%R -> b = true) /\ ((1 < t)%R -> b = false)) /\
  (exists b, u_close_to eps u v (Some 1%R) = Ok b /\
     (b = true <-> phase_eq (u_dim u) (u_mat v) (u_mat u))) /\
  (exists b, u_close_to eps u v None = Ok b /\
     (b = true <-> (1 - overlap (u_dim u) (u_mat u) (u_mat v) <= / 10 ^ 8)%R)) /\
  (forall t t', (t' <= t)%R -> u_close_to eps u v (Some t) = Ok true ->
     u_close_to eps u v (Some t') = Ok true).
Proof.
  intros eps u v Hu Hv E Hc. apply built_wf in Hu. apply built_wf in Hv.
  unfold u_close_to. rewrite (overlap_inv u v eps Hu Hc (eq_sym E)). simpl bind.
  destruct Hu as [Pu [Su _]]. destruct Hv as [Pv [Sv _]]. rewrite <- E in Sv.
  assert (A := overlap_nonneg _ (u_mat u) (u_mat v) Pu).
  assert (B := overlap_le_1 _ _ _ Pu Su Sv).
  set (o := overlap _ _ _) in *.
  split; [|split; [|split]].
  - intros t. eexists. split; [reflexivity|]. rewrite Rleb_spec, Rleb_false.
    repeat split; intros; lra.
  - eexists. split; [reflexivity|]. rewrite Rleb_spec.
    rewrite <- (overlap_1_iff _ _ _ Pu Su Sv). fold o. split; intros; lra.
  - eexists. split; [reflexivity|]. rewrite isclose_spec, <- RtoC_minus, Cmod_R, Cmod_0.
    rewrite Rabs_pos_eq by lra. unfold atol. split; intros; lra.
  - intros t t' Ht H. injection H as H. apply Rleb_spec in H. f_equal. apply Rleb_spec. lra.
Qed.

Definition tiny : R := (/ 20000)%R.
Definition tc : R := ((1 - tiny * tiny) / (1 + tiny * tiny))%R.
Definition ts : R := (2 * tiny / (1 + tiny * tiny))%R.
Definition tiny_rot : mat := mat22 (tc, (- ts)%R) 0 0 (tc, ts).

Lemma tiny_facts : (tc * tc + ts * ts = 1 /\ 0 < 1 - tc <= / 100000000 /\ / 100000 < ts < 1)%R.
Proof.
  assert (H : (0 < 1 + tiny * tiny)%R) by (unfold tiny; lra).
  split; [unfold tc, ts; field; lra|].
  split.
  - unfold tc. replace (1 - (1 - tiny * tiny) / (1 + tiny * tiny))%R
      with (2 * (tiny * tiny) / (1 + tiny * tiny))%R by (field; lra).
    split.
    + apply Rdiv_lt_0_compat; [unfold tiny; lra|lra].
    + apply Rmult_le_reg_r with (1 + tiny * tiny)%R; auto.
      unfold Rdiv. rewrite Rmult_assoc, Rinv_l by lra. unfold tiny; lra.
  - unfold ts. split.
    + apply Rmult_lt_reg_r with (1 + tiny * tiny)%R; auto.
      unfold Rdiv. rewrite Rmult_assoc, Rinv_l by lra. unfold tiny; lra.
    + apply Rmult_lt_reg_r with (1 + tiny * tiny)%R; auto.
      unfold Rdiv. rewrite Rmult_assoc, Rinv_l by lra. unfold tiny; lra.
Qed.

Lemma tiny_unitary : unitary_mx 2 tiny_rot.
Proof.
  assert (T := tiny_facts). destruct T as [T _].
  mat2; apply C_eq; unfold tiny_rot, mat22, mmul, adj, mid, Cconj; simpl; lra.
Qed.
Lemma tiny_clean : eps_clean eps_code 2 tiny_rot.
Proof.
  assert (T := tiny_facts). assert (S := eps_code_small).
  assert (S' : (eps_code < / 100000)%R).
  { unfold eps_code. apply Rinv_lt_contravar; [apply Rmult_lt_0_compat; [lra|apply pow_lt; lra]|].
    simpl. lra. }
  mat2; unfold tiny_rot, mat22; simpl; split; auto;
    apply Rabs_lt_absurd; rewrite ?Rabs_Ropp, ?Rabs_pos_eq by lra; lra.
Qed.

Lemma overlap_mid_22 a b c d : overlap 2 mid (mat22 a b c d) = (Cmod (a + d) / 2)%R.
Proof.
  unfold overlap. f_equal. f_equal.
  assert (E : meq 2 (mmul 2 (adj mid) (mat22 a b c d)) (mat22 a b c d))
    by (rewrite adj_mid; apply mmul_1_l).
  rewrite E. unfold mtrace, mat22; simpl. ring.
Qed.

Lemma built_intro eps d M nm ps iv ap :
  (0 < d)%nat -> unitary_mx d M -> eps_clean eps d M ->
  exists u, built eps u /\ u_dim u = d /\ phase_eq d (u_mat u) M /\
    mk_unitary eps d (Some (square d M)) nm ps iv ap = Ok u.
Proof.
  intros Hd HU Hc.
  destruct (mk_unitary_exact eps d M nm ps iv ap Hd HU Hc)
    as (u & E & E1 & _ & _ & _ & _ & E6 & E7 & _).
  exists u. repeat split; auto.
  - exists d, M, nm, ps, iv, ap. auto.
  - exists (croot d (/ det d M)). auto.
Qed.

Lemma C07_none_is_not_one_lemma :
  exists u v, built eps_code u /\ built eps_code v /\
    u_close_to eps_code u v None = Ok true /\
    u_close_to eps_code u v (Some 1%R) = Ok false.
Proof.
  assert (S := eps_code_small). assert (T := tiny_facts).
  destruct (u_identity_ok eps_code 2 ltac:(lia) ltac:(lra)) as (u & E & E1 & _ & _ & _ & _ & E2).
  destruct (built_intro eps_code 2 tiny_rot None [] false [] ltac:(lia) tiny_unitary tiny_clean)
    as (v & Bv & Dv & [c [Hc Pv]] & _).
  assert (Bu : built eps_code u).
  { exists 2%nat, mid, (Some "I"%string), [], false, [].
    split; [apply unitary_mid|]. split; [apply eps_clean_mid; lra|exact E]. }
  exists u, v. split; [exact Bu|]. split; [exact Bv|].
  assert (Cu : eps_clean eps_code (u_dim u) (u_mat u)).
  { rewrite E1, E2. apply eps_clean_mid. lra. }
  assert (O : overlap (u_dim u) (u_mat u) (u_mat v) = tc).
  { rewrite E1, E2, Pv, overlap_phase_r by exact Hc. unfold tiny_rot. rewrite overlap_mid_22.
    replace ((tc, (- ts)%R) + (tc, ts)) with (RtoC (2 * tc)) by (apply C_eq; simpl; ring).
    rewrite Cmod_R, Rabs_pos_eq by lra. field. }
  destruct (C07_lemma eps_code u v Bu Bv ltac:(congruence) Cu) as (A & _ & (b & B1 & B2) & _).
  split.
  - rewrite B1. f_equal. apply B2. rewrite O.
    replace (10 ^ 8)%R with 100000000%R by ring. lra.
  - destruct (A 1%R) as (b' & A1 & A2 & _). rewrite A1. f_equal.
    destruct b'; auto. destruct A2 as [A2 _]. specialize (A2 eq_refl). rewrite O in A2. lra.
Qed.

(** ** C08 *)
Lemma C08_lemma : forall eps u name params inv apply,
  built eps u -> eps_clean eps (u_dim u) (u_mat u) ->
  exists v, mk_unitary eps (u_dim u) (Some (square (u_dim u) (u_mat u))) name params inv apply = Ok v /\
    u_dim v = u_dim u /\ meq (u_dim u) (u_mat v) (u_mat u).
Proof.
  intros eps u nm ps iv ap Hb Hc. apply built_wf in Hb. destruct Hb as [Hd HS].
  destruct (mk_special eps _ _ nm ps iv ap Hd HS Hc) as (v & E & E1 & _ & _ & _ & _ & E2).
  eauto.
Qed.

(** ** C54: the square root of the distance is a metric up to phase *)
Lemma C54_lemma : forall u v w,
  built 0 u -> built 0 v -> built 0 w -> u_dim u = u_dim v -> u_dim v = u_dim w ->
  exists duw duv dvw,
    u_distance_from 0 u w = Ok duw /\ u_distance_from 0 u v = Ok duv /\
    u_distance_from 0 v w = Ok dvw /\
    (sqrt duw <= sqrt duv + sqrt dvw)%R.
Proof.
  intros u v w Hu Hv Hw E1 E2. apply built_wf in Hu. apply built_wf in Hv. apply built_wf in Hw.
  rewrite !overlap_inv by (auto using eps_clean_0; congruence).
  do 3 eexists. repeat (split; [reflexivity|]).
  destruct Hu as [Pu [Su _]]. destruct Hv as [Pv [Sv _]]. destruct Hw as [Pw [Sw _]].
  rewrite <- E2, <- E1 in *. now apply overlap_triangle.
Qed.
Lemma C54_compose_lemma : forall a a' b b',
  built 0 a -> built 0 a' -> built 0 b -> built 0 b' ->
  u_dim a = u_dim a' -> u_dim a' = u_dim b -> u_dim b = u_dim b' ->
  exists ab ab' d da db,
    u_left_multiply 0 a b = Ok ab /\ u_left_multiply 0 a' b' = Ok ab' /\
    u_distance_from 0 ab ab' = Ok d /\ u_distance_from 0 a a' = Ok da /\
    u_distance_from 0 b b' = Ok db /\
    (sqrt d <= sqrt da + sqrt db)%R.
Proof.
  intros a a' b b' Ha Ha' Hb Hb' E1 E2 E3.
  apply built_wf in Ha. apply built_wf in Ha'. apply built_wf in Hb. apply built_wf in Hb'.
  destruct (u_left_multiply_ok 0 a b Ha Hb ltac:(congruence) (eps_clean_0 _ _)) as (x & A & A1 & _ & _ & _ & _ & A2).
  destruct (u_left_multiply_ok 0 a' b' Ha' Hb' ltac:(congruence) (eps_clean_0 _ _)) as (y & B & B1 & _ & _ & _ & _ & B2).
  exists x, y.
  assert (Wx : wf x).
  { apply (wf_of x _ _ (proj1 Ha) A1 A2). apply special_mmul; [|apply Ha].
    replace (u_dim a) with (u_dim b) by congruence. apply Hb. }
  rewrite !overlap_inv by (auto using eps_clean_0; congruence).
  do 3 eexists. split; [exact A|]. split; [exact B|]. repeat (split; [reflexivity|]).
  destruct Ha as [Pa [Sa _]]. destruct Ha' as [Pa' [Sa' _]].
  destruct Hb as [Pb [Sb _]]. destruct Hb' as [Pb' [Sb' _]].
  rewrite A1. rewrite <- E3, <- E2, <- E1 in *. rewrite A2, B2.
  eapply Rle_trans.
  - apply (overlap_triangle _ _ (mmul (u_dim a) (u_mat b) (u_mat a'))); auto using unitary_mmul.
  - rewrite overlap_left, overlap_right by auto. lra.
Qed.

(** ** Concrete cases *)
Lemma rot345_special : special 2 rot345.
Proof.
  split; [apply rot345_unitary|]. rewrite det_2. unfold rot345, mat22.
  apply C_eq; simpl; field.
Qed.

Lemma rot345_not_phase : ~ phase_eq 2 rot345 mid.
Proof.
  intros [c [Hc E]]. assert (E1 := E 0%nat 1%nat ltac:(lia) ltac:(lia)).
  unfold mscale, mid, rot345, mat22 in E1; simpl in E1.
  apply (f_equal fst) in E1. simpl in E1. lra.
Qed.

(** A non-trivial [Unitary] object at the code's threshold. *)
Lemma ex_object_lemma :
  exists u, built eps_code u /\ u_dim u = 2%nat /\ meq 2 (u_mat u) rot345 /\
    eps_clean eps_code 2 (u_mat u).
Proof.
  assert (S := eps_code_small).
  destruct (mk_special eps_code 2 rot345 (Some "R"%string) [] false [] ltac:(lia) rot345_special
              (rot345_clean eps_code ltac:(lra))) as (u & E & E1 & _ & _ & _ & _ & E2).
  exists u. split; [|split; [auto|split; [auto|]]].
  - exists 2%nat, rot345, (Some "R"%string), [], false, [].
    split; [apply rot345_unitary|]. split; [apply rot345_clean; lra|exact E].
  - rewrite E2. apply rot345_clean. lra.
Qed.
Lemma ex_built0_lemma :
  exists u, built 0 u /\ u_dim u = 2%nat /\ meq 2 (u_mat u) rot345.
Proof.
  destruct (mk_special 0 2 rot345 (Some "R"%string) [] false [] ltac:(lia) rot345_special
              (rot345_clean 0 ltac:(lra))) as (u & E & E1 & _ & _ & _ & _ & E2).
  exists u. split; [|split; auto].
  exists 2%nat, rot345, (Some "R"%string), [], false, [].
  split; [apply rot345_unitary|]. split; [apply eps_clean_0|exact E].
Qed.

Lemma ex_C01_lemma :
  (0 < 2)%nat /\ unitary_mx 2 rot345 /\ eps_clean eps_code 2 rot345 /\ ~ phase_eq 2 rot345 mid.
Proof.
  assert (S := eps_code_small).
  split; [lia|]. split; [apply rot345_unitary|]. split; [apply rot345_clean; lra|].
  apply rot345_not_phase.
Qed.

Lemma ex_C02_lemma :
  (exists B, cleared eps_code 2 (mat22 1 0 0 (RtoC 2)) B /\ ~ near_unitary 2 B) /\
  (INR 2 * / 10 ^ 8 + / 10 ^ 5 < 1)%R.
Proof.
  assert (S := eps_code_small). split.
  - exists (mat22 1 0 0 (RtoC 2)). split.
    + mat2; simpl; repeat split; intros; auto;
        try (rewrite ?Rabs_pos_eq in * by lra; lra);
        try (rewrite Rabs_R0 in *; lra).
    + intros H. specialize (H 1%nat 1%nat ltac:(lia) ltac:(lia)).
      unfold mmul, adj, mid, mat22 in H. simpl csum in H. simpl Nat.eqb in H. cbv iota in H.
      rewrite ?Cconj_R, <- ?RtoC_mult, <- ?RtoC_plus, <- ?RtoC_minus, Cmod_R in H.
      rewrite Rabs_pos_eq in H by lra. simpl in H. lra.
  - simpl. lra.
Qed.

Lemma eps_clean_products eps n A :
  (eps <= 9/25)%R -> meq 2 A rot345 -> n = 2%nat ->
  eps_clean eps n A /\ eps_clean eps n (mmul n A (adj A)) /\
  eps_clean eps (n * n) (kron n A A).
Proof.
  intros He E ->. split; [|split].
  - rewrite E. apply rot345_clean. lra.
  - rewrite E. rewrite (unitary_right _ _ rot345_unitary). apply eps_clean_mid. lra.
  - rewrite (kron_proper 2 2 A rot345 A rot345 ltac:(lia) E E).
    intros i j Hi Hj. unfold kron.
    assert (Hi1 : (i / 2 < 2)%nat) by (apply Nat.div_lt_upper_bound; lia).
    assert (Hj1 : (j / 2 < 2)%nat) by (apply Nat.div_lt_upper_bound; lia).
    assert (Hi2 : (i mod 2 < 2)%nat) by (apply Nat.mod_upper_bound; lia).
    assert (Hj2 : (j mod 2 < 2)%nat) by (apply Nat.mod_upper_bound; lia).
    revert Hi1 Hj1 Hi2 Hj2. generalize (i / 2)%nat (j / 2)%nat (i mod 2)%nat (j mod 2)%nat.
    intros a b c d Ha Hb Hc Hd.
    destruct a as [|[|a]]; [| |lia]; (destruct b as [|[|b]]; [| |lia]);
    (destruct c as [|[|c]]; [| |lia]); (destruct d as [|[|d]]; [| |lia]);
    unfold rot345, mat22; simpl; (split; [apply Rabs_lt_absurd|intros _; lra]);
    unfold Rabs; destruct (Rcase_abs _); lra.
Qed.

Lemma ex_C04_lemma :
  exists u f, built eps_code u /\ built eps_code f /\ u_dim u = u_dim f /\
    eps_clean eps_code (u_dim u) (mmul (u_dim u) (u_mat f) (u_mat u)) /\
    eps_clean eps_code (u_dim u) (mmul (u_dim u) (u_mat u) (u_mat f)) /\
    ~ phase_eq (u_dim u) (u_mat u) mid.
Proof.
  assert (S := eps_code_small).
  destruct ex_object_lemma as (u & Bu & Du & Eu & Cu).
  destruct (C03_lemma eps_code u ltac:(lra) Bu ltac:(rewrite Du; exact Cu)) as (f & E & Df & Ef & _).
  assert (Wu := built_wf _ _ Bu). destruct Wu as [Pu [Su _]].
  exists u, f. split; [exact Bu|]. split.
  { exists (u_dim u), (adj (u_mat u)), (Some (u_name u)), (u_params u), (negb (u_inv u)), (u_apply u).
    split; [now apply unitary_adj|]. split; [|exact E]. apply eps_clean_adj. now rewrite Du. }
  split; [auto|]. rewrite Ef. split; [|split].
  - rewrite unitary_left by auto. apply eps_clean_mid. lra.
  - rewrite (unitary_right _ _ Su). apply eps_clean_mid. lra.
  - rewrite Du. intros [c [Hc E1]]. apply rot345_not_phase. exists c. split; auto. now rewrite <- Eu.
Qed.

Lemma ex_C05_lemma :
  exists u, built eps_code u /\
    eps_clean eps_code (u_dim u * u_dim u) (kron (u_dim u) (u_mat u) (u_mat u)).
Proof.
  assert (S := eps_code_small).
  destruct ex_object_lemma as (u & Bu & Du & Eu & Cu). exists u. split; auto.
  rewrite Du. apply (eps_clean_products eps_code 2); auto. lra.
Qed.
