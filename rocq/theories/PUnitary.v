(** Proofs about [ModelUnitary.v]. *)
From Coq Require Import Reals List Arith Bool String Lia Lra Setoid Morphisms.
From Coquelicot Require Import Complex.
From Verif Require Import Base CMat CMatFacts Det DetFacts Norms CRoot ModelUnitary Spec SpecModel.
Import ListNotations.
Open Scope R_scope.
Open Scope C_scope.

(** ** Clearing of small components *)
Lemma eps_clean_0 n A : eps_clean 0 n A.
Proof.
  intros i j _ _. split; intros H.
  - assert (0 <= Rabs (fst (A i j)))%R by apply Rabs_pos. lra.
  - assert (0 <= Rabs (snd (A i j)))%R by apply Rabs_pos. lra.
Qed.

Lemma clean_R_id eps x : ((Rabs x < eps)%R -> x = 0%R) -> clean_R eps x = x.
Proof.
  intros H. unfold clean_R. destruct (Rltb (Rabs x) eps) eqn:E; auto.
  apply Rltb_spec in E. symmetry; auto.
Qed.

Lemma clean_id eps n A : eps_clean eps n A -> meq n (clean eps A) A.
Proof.
  intros H i j Hi Hj. destruct (H i j Hi Hj) as [H1 H2].
  unfold clean, clean_C. rewrite !clean_R_id by auto. now rewrite <- surjective_pairing.
Qed.

Lemma clean_cleared eps n A : cleared eps n A (clean eps A).
Proof.
  intros i j _ _. unfold clean, clean_C, clean_R; simpl.
  destruct (Rltb (Rabs (fst (A i j))) eps) eqn:E1;
  destruct (Rltb (Rabs (snd (A i j))) eps) eqn:E2;
  rewrite ?Rltb_spec, ?Rltb_false in *; repeat split; intros; auto; lra.
Qed.

Lemma cleared_unique eps n A B B' : cleared eps n A B -> cleared eps n A B' -> meq n B B'.
Proof.
  intros H H' i j Hi Hj. destruct (H i j Hi Hj) as (a & b & c & d).
  destruct (H' i j Hi Hj) as (a' & b' & c' & d').
  apply C_eq.
  - destruct (Rlt_le_dec (Rabs (fst (A i j))) eps); [rewrite a, a'|rewrite b, b']; auto.
  - destruct (Rlt_le_dec (Rabs (snd (A i j))) eps); [rewrite c, c'|rewrite d, d']; auto.
Qed.

#[export] Instance eps_clean_proper eps n : Proper (meq n ==> iff) (eps_clean eps n).
Proof.
  intros A B H. unfold eps_clean.
  split; intros K i j Hi Hj; specialize (K i j Hi Hj); specialize (H i j Hi Hj); congruence.
Qed.

Lemma eps_clean_adj eps n A : eps_clean eps n A -> eps_clean eps n (adj A).
Proof.
  intros H i j Hi Hj. destruct (H j i Hj Hi) as [H1 H2]. unfold adj, Cconj; simpl. split; auto.
  rewrite Rabs_Ropp. intros K. rewrite H2 by auto. lra.
Qed.

Lemma eps_clean_mid eps n : (eps <= 1)%R -> eps_clean eps n mid.
Proof.
  intros He i j _ _. unfold mid. destruct (Nat.eqb i j); simpl; split; auto.
  rewrite Rabs_R1. lra.
Qed.

(** ** The tolerance test *)
Lemma isclose_spec a b : isclose a b = true <-> (Cmod (a - b) <= atol + rtol * Cmod b)%R.
Proof. apply Rleb_spec. Qed.

Lemma allclose_spec n A B :
  allclose n A B = true <->
  forall i j, (i < n)%nat -> (j < n)%nat -> (Cmod (A i j - B i j) <= atol + rtol * Cmod (B i j))%R.
Proof.
  unfold allclose. rewrite forallb_lt_spec. split.
  - intros H i j Hi Hj. specialize (H i Hi). cbv beta in H. rewrite forallb_lt_spec in H.
    apply isclose_spec. auto.
  - intros H i Hi. apply forallb_lt_spec. intros j Hj. apply isclose_spec. auto.
Qed.

Lemma tol_pos : (0 < atol /\ 0 < rtol)%R.
Proof. unfold atol, rtol. split; apply Rinv_0_lt_compat, pow_lt; lra. Qed.

Lemma allclose_meq n A B : meq n A B -> allclose n A B = true.
Proof.
  intros H. apply allclose_spec. intros i j Hi Hj. rewrite H by auto.
  replace (B i j - B i j) with (RtoC 0) by ring. rewrite Cmod_0.
  assert (T := tol_pos). assert (0 <= Cmod (B i j))%R by apply Cmod_ge_0. nra.
Qed.

Lemma Cmod_mid i j : Cmod (mid i j) = (if Nat.eqb i j then 1 else 0)%R.
Proof. unfold mid. destruct (Nat.eqb i j); [apply Cmod_1|apply Cmod_0]. Qed.

Lemma allclose_near n A :
  allclose n (mmul n A (adj A)) mid = true <-> near_unitary n A.
Proof.
  rewrite allclose_spec. unfold near_unitary, atol, rtol.
  split; intros H i j Hi Hj; specialize (H i j Hi Hj); rewrite ?Cmod_mid in *; exact H.
Qed.

#[export] Instance near_unitary_proper n : Proper (meq n ==> iff) (near_unitary n).
Proof.
  assert (K : forall A B, meq n A B -> near_unitary n A -> near_unitary n B).
  { intros A B H N i j Hi Hj.
    assert (E : meq n (mmul n A (adj A)) (mmul n B (adj B))) by (rewrite H; reflexivity).
    rewrite <- E by auto. auto. }
  intros A B H. split; apply K; [exact H|symmetry; exact H].
Qed.

(** A maximal entry of a non-zero vector. *)
Lemma argmax n (f : nat -> R) :
  (0 < n)%nat -> exists i, (i < n)%nat /\ forall j, (j < n)%nat -> (f j <= f i)%R.
Proof.
  induction n as [|n IH]; intros Hn; [lia|].
  destruct n as [|n].
  - exists O. split; [lia|]. intros j Hj. replace j with O by lia. lra.
  - destruct IH as [i [Hi Hm]]; [lia|].
    destruct (Rle_lt_dec (f (S n)) (f i)) as [Hle|Hlt].
    + exists i. split; [lia|]. intros j Hj.
      destruct (Nat.eq_dec j (S n)) as [->|]; auto. apply Hm. lia.
    + exists (S n). split; [lia|]. intros j Hj.
      destruct (Nat.eq_dec j (S n)) as [->|]; [lra|].
      specialize (Hm j ltac:(lia)). lra.
Qed.

Lemma near_unitary_det n A :
  (INR n * / 10 ^ 8 + / 10 ^ 5 < 1)%R -> near_unitary n A -> det n A <> 0.
Proof.
  intros Hn HA E.
  assert (E2 : det n (mmul n A (adj A)) = 0) by (rewrite det_mmul, E; ring).
  destruct (@det0_kernel n _ E2) as [v [[i0 [Hi0 Hv]] Hk]].
  destruct (argmax n (fun i => Cmod (v i)) ltac:(lia)) as [i [Hi Hmax]].
  set (G := mmul n A (adj A)) in *.
  assert (Hpos : (0 < Cmod (v i))%R).
  { apply Rlt_le_trans with (Cmod (v i0)); [now apply Cmod_gt_0|]. apply Hmax; auto. }
  assert (Ev : v i = - csum n (fun k => v k * (G k i - mid k i))).
  { assert (E3 : csum n (fun k => v k * (G k i - mid k i)) = - v i).
    { rewrite (csum_ext n _ (fun k => v k * G k i - v k * mid k i)) by (intros; ring).
      rewrite csum_minus, Hk by auto.
      rewrite (csum_single n i (fun k => v k * mid k i)); auto.
      - unfold mid. rewrite Nat.eqb_refl. ring.
      - intros k _ Hne. unfold mid. destruct (Nat.eqb_spec k i); [congruence|ring]. }
    rewrite E3. ring. }
  assert (Hb : (Cmod (v i) <= rsum n (fun k => Cmod (v i) * (/ 10 ^ 8 + / 10 ^ 5 * (if Nat.eqb k i then 1 else 0))))%R).
  { rewrite Ev at 1. rewrite Cmod_opp. eapply Rle_trans; [apply Cmod_csum_le|].
    apply rsum_le. intros k Hk'. rewrite Cmod_mult.
    apply Rmult_le_compat; try apply Cmod_ge_0; [now apply Hmax|]. apply HA; auto. }
  rewrite rsum_mult_l, rsum_plus, rsum_const, rsum_mult_l in Hb.
  assert (Es : rsum n (fun k => if Nat.eqb k i then 1 else 0)%R = 1%R).
  { apply RtoC_inj. rewrite <- csum_RtoC.
    rewrite (csum_single n i); auto.
    - now rewrite Nat.eqb_refl.
    - intros k _ Hne. destruct (Nat.eqb_spec k i); [congruence|reflexivity]. }
  rewrite Es in Hb. nra.
Qed.

(** ** The constructor *)
Lemma mk_unitary_inv eps d M nm ps iv ap u :
  mk_unitary eps d (Some M) nm ps iv ap = Ok u ->
  (0 < d)%nat /\ nrows M = d /\ ncols M = d /\
  near_unitary d (clean eps (elt M)) /\ det d (clean eps (elt M)) <> 0 /\
  u = {| u_dim := d;
         u_mat := mscale (croot d (/ det d (clean eps (elt M)))) (clean eps (elt M));
         u_name := match nm with Some s => s | None => "U"%string end;
         u_params := ps; u_inv := iv; u_apply := ap |}.
Proof.
  unfold mk_unitary, assert, bind.
  destruct (Nat.ltb_spec 0 d) as [Hd|]; [|discriminate].
  destruct (Nat.eqb_spec (nrows M) d) as [Hr|]; [|discriminate].
  destruct (Nat.eqb_spec (ncols M) d) as [Hc|]; [|discriminate].
  simpl andb. cbv iota.
  destruct (allclose _ _ _) eqn:Ea; [|discriminate].
  destruct (Ceq_dec _ 0) as [|Hdet]; [discriminate|].
  intros E. injection E as <-. apply allclose_near in Ea. auto 7.
Qed.

Lemma mk_unitary_ok eps d M nm ps iv ap :
  (0 < d)%nat -> nrows M = d -> ncols M = d ->
  near_unitary d (clean eps (elt M)) -> det d (clean eps (elt M)) <> 0 ->
  mk_unitary eps d (Some M) nm ps iv ap =
  Ok {| u_dim := d;
         u_mat := mscale (croot d (/ det d (clean eps (elt M)))) (clean eps (elt M));
         u_name := match nm with Some s => s | None => "U"%string end;
         u_params := ps; u_inv := iv; u_apply := ap |}.
Proof.
  intros Hd Hr Hc Hn Hdet. unfold mk_unitary, assert, bind.
  destruct (Nat.ltb_spec 0 d) as [_|]; [|lia].
  rewrite Hr, Hc, Nat.eqb_refl. simpl andb. cbv iota.
  apply allclose_near in Hn. rewrite Hn.
  destruct (Ceq_dec _ 0) as [|_]; [contradiction|]. reflexivity.
Qed.

Lemma mk_unitary_none eps d nm ps iv ap :
  mk_unitary eps d None nm ps iv ap = mk_unitary eps d (Some (square d mid)) nm ps iv ap.
Proof. reflexivity. Qed.

Lemma unitary_near n A : unitary_mx n A -> near_unitary n A.
Proof.
  intros H i j Hi Hj. unfold unitary_mx in H. rewrite H by auto.
  replace (mid i j - mid i j) with (RtoC 0) by ring. rewrite Cmod_0.
  apply Rplus_le_le_0_compat; [left; apply Rinv_0_lt_compat, pow_lt; lra|].
  apply Rmult_le_pos; [left; apply Rinv_0_lt_compat, pow_lt; lra|].
  destruct (Nat.eqb i j); lra.
Qed.

Lemma phase_det d A :
  (0 < d)%nat -> det d A <> 0 -> det d (mscale (croot d (/ det d A)) A) = 1.
Proof.
  intros Hd HA. rewrite det_mscale, croot_pow; auto.
  - field. exact HA.
  - intros E. apply HA. assert (E1 : det d A * / det d A = 0) by (rewrite E; ring).
    rewrite Cinv_r in E1 by exact HA. apply RtoC_inj in E1. lra.
Qed.

Lemma mk_unitary_det eps d M nm ps iv ap u :
  mk_unitary eps d (Some M) nm ps iv ap = Ok u -> u_dim u = d /\ det d (u_mat u) = 1.
Proof.
  intros H. apply mk_unitary_inv in H. destruct H as (Hd & _ & _ & _ & Hdet & ->).
  simpl. split; auto. now apply phase_det.
Qed.

Lemma Cmod_inv_1 z : Cmod z = 1%R -> Cmod (/ z) = 1%R.
Proof. intros H. rewrite Cmod_inv by (now apply Cmod_one_neq0). rewrite H. field. Qed.

Lemma mk_unitary_exact eps d M nm ps iv ap :
  (0 < d)%nat -> unitary_mx d M -> eps_clean eps d M ->
  exists u, mk_unitary eps d (Some (square d M)) nm ps iv ap = Ok u /\
    u_dim u = d /\
    u_name u = match nm with Some s => s | None => "U"%string end /\
    u_params u = ps /\ u_inv u = iv /\ u_apply u = ap /\
    meq d (u_mat u) (mscale (croot d (/ det d M)) M) /\
    Cmod (croot d (/ det d M)) = 1%R /\
    special d (u_mat u).
Proof.
  intros Hd HU Hc. assert (E := clean_id eps d M Hc).
  assert (Hm : Cmod (croot d (/ det d M)) = 1%R).
  { apply Cmod_croot_1, Cmod_inv_1. now apply unitary_det_mod. }
  eexists. split.
  - apply mk_unitary_ok; auto.
    + simpl. rewrite E. now apply unitary_near.
    + simpl. rewrite E. now apply unitary_det_neq0.
  - simpl. assert (E2 : meq d (mscale (croot d (/ det d (clean eps M))) (clean eps M))
                              (mscale (croot d (/ det d M)) M)).
    { rewrite (@det_ext d _ _ E), E. reflexivity. }
    repeat split; auto.
    + rewrite E2. now apply unitary_mscale.
    + rewrite E2. apply phase_det; auto. now apply unitary_det_neq0.
Qed.

Lemma mk_special eps d M nm ps iv ap :
  (0 < d)%nat -> special d M -> eps_clean eps d M ->
  exists u, mk_unitary eps d (Some (square d M)) nm ps iv ap = Ok u /\
    u_dim u = d /\
    u_name u = match nm with Some s => s | None => "U"%string end /\
    u_params u = ps /\ u_inv u = iv /\ u_apply u = ap /\
    meq d (u_mat u) M.
Proof.
  intros Hd [HU HD] Hc.
  destruct (mk_unitary_exact eps d M nm ps iv ap Hd HU Hc)
    as (u & E & E1 & E2 & E3 & E4 & E5 & E6 & _).
  exists u. repeat split; auto. rewrite E6, HD.
  replace (/ RtoC 1) with (RtoC 1) by (field; intros K; apply RtoC_inj in K; lra).
  rewrite croot_1. apply mscale_1.
Qed.

(** ** Special unitary matrices are closed under the operations *)
#[export] Instance special_proper n : Proper (meq n ==> iff) (special n).
Proof. intros A B H. unfold special. rewrite H. tauto. Qed.

Lemma special_mid n : special n mid.
Proof. split; [apply unitary_mid|apply det_mid]. Qed.
Lemma special_adj n A : special n A -> special n (adj A).
Proof.
  intros [H1 H2]. split; [now apply unitary_adj|]. rewrite det_adj, H2. apply Cconj_R.
Qed.
Lemma special_mmul n A B : special n A -> special n B -> special n (mmul n A B).
Proof.
  intros [H1 H2] [H3 H4]. split; [now apply unitary_mmul|]. rewrite det_mmul, H2, H4. ring.
Qed.
Lemma special_kron n m A B :
  (0 < m)%nat -> special n A -> special m B -> special (n * m) (kron m A B).
Proof.
  intros Hm [H1 H2] [H3 H4]. split; [now apply unitary_kron|].
  rewrite det_kron, H2, H4, !cpow_1 by auto. ring.
Qed.
Lemma special_reindex n f A :
  (forall i, (i < n)%nat -> (f i < n)%nat) ->
  (forall i j, (i < n)%nat -> (j < n)%nat -> f i = f j -> i = j) ->
  special n A -> special n (fun i j => A (f i) (f j)).
Proof.
  intros Hf Hi [H1 H2]. split; [now apply unitary_reindex|]. now rewrite det_reindex.
Qed.

(** Well-formed [Unitary] objects: what the constructor guarantees when given
    an exactly unitary matrix. *)
Definition wf (u : unitary) : Prop := (0 < u_dim u)%nat /\ special (u_dim u) (u_mat u).

Lemma built_made eps u : built eps u -> made eps u.
Proof. intros (d & M & nm & ps & iv & ap & HU & _ & E). exists d, M, nm, ps, iv, ap. split; auto. now left. Qed.

Lemma built_wf eps u : built eps u -> wf u.
Proof.
  intros (d & M & nm & ps & iv & ap & HU & Hc & E).
  assert (Hd : (0 < d)%nat) by (apply mk_unitary_inv in E; tauto).
  destruct (mk_unitary_exact eps d M nm ps iv ap Hd HU Hc)
    as (u' & E' & E1 & _ & _ & _ & _ & _ & _ & S).
  rewrite E in E'. injection E' as <-. split; congruence.
Qed.

Lemma u_inverse_ok eps u :
  wf u -> eps_clean eps (u_dim u) (u_mat u) ->
  exists v, u_inverse eps u = Ok v /\ u_dim v = u_dim u /\ u_name v = u_name u /\
    u_params v = u_params u /\ u_inv v = negb (u_inv u) /\ u_apply v = u_apply u /\
    meq (u_dim u) (u_mat v) (adj (u_mat u)).
Proof.
  intros [Hd HS] Hc.
  destruct (mk_special eps (u_dim u) (adj (u_mat u)) (Some (u_name u)) (u_params u)
    (negb (u_inv u)) (u_apply u) Hd (special_adj _ _ HS) (eps_clean_adj _ _ _ Hc)) as (v & E & H).
  exists v. split; [exact E|]. tauto.
Qed.

Lemma u_left_multiply_ok eps u f :
  wf u -> wf f -> u_dim u = u_dim f ->
  eps_clean eps (u_dim u) (mmul (u_dim u) (u_mat f) (u_mat u)) ->
  exists p, u_left_multiply eps u f = Ok p /\ u_dim p = u_dim u /\ u_name p = "U"%string /\
    u_params p = [] /\ u_inv p = false /\ u_apply p = [] /\
    meq (u_dim u) (u_mat p) (mmul (u_dim u) (u_mat f) (u_mat u)).
Proof.
  intros [Hd HS] [Hd' HS'] E Hc. unfold u_left_multiply. rewrite E, Nat.eqb_refl. simpl.
  rewrite <- E in *. apply mk_special; auto. now apply special_mmul.
Qed.

Lemma u_right_multiply_ok eps u f :
  wf u -> wf f -> u_dim u = u_dim f ->
  eps_clean eps (u_dim u) (mmul (u_dim u) (u_mat u) (u_mat f)) ->
  exists p, u_right_multiply eps u f = Ok p /\ u_dim p = u_dim u /\ u_name p = "U"%string /\
    u_params p = [] /\ u_inv p = false /\ u_apply p = [] /\
    meq (u_dim u) (u_mat p) (mmul (u_dim u) (u_mat u) (u_mat f)).
Proof.
  intros [Hd HS] [Hd' HS'] E Hc. unfold u_right_multiply. rewrite E, Nat.eqb_refl. simpl.
  rewrite <- E in *. apply mk_special; auto. now apply special_mmul.
Qed.

Lemma u_tensor_ok eps u v :
  wf u -> wf v ->
  eps_clean eps (u_dim u * u_dim v) (kron (u_dim v) (u_mat u) (u_mat v)) ->
  exists p, u_tensor eps u v = Ok p /\ u_dim p = (u_dim u * u_dim v)%nat /\
    u_name p = (u_name u ++ "--" ++ u_name v)%string /\
    u_params p = u_params u /\ u_inv p = false /\ u_apply p = u_apply u /\
    meq (u_dim u * u_dim v) (u_mat p) (kron (u_dim v) (u_mat u) (u_mat v)).
Proof.
  intros [Hd HS] [Hd' HS'] Hc. unfold u_tensor. rewrite (Nat.mul_comm (u_dim v)).
  apply mk_special; auto; [lia|]. now apply special_kron.
Qed.

Lemma u_identity_ok eps d :
  (0 < d)%nat -> (eps <= 1)%R ->
  exists u, u_identity eps d = Ok u /\ u_dim u = d /\ u_name u = "I"%string /\
    u_params u = [] /\ u_inv u = false /\ u_apply u = [] /\ meq d (u_mat u) mid.
Proof.
  intros Hd He. apply mk_special; auto using special_mid, eps_clean_mid.
Qed.

Lemma wf_of u d M : (0 < d)%nat -> u_dim u = d -> meq d (u_mat u) M -> special d M -> wf u.
Proof. intros Hd <- E HS. split; auto. now rewrite E. Qed.

(** ** Overlap and distance *)
Lemma overlap_inv u v eps :
  wf u -> eps_clean eps (u_dim u) (u_mat u) -> u_dim v = u_dim u ->
  u_distance_from eps u v = Ok (1 - overlap (u_dim u) (u_mat u) (u_mat v))%R.
Proof.
  intros Hu Hc Hd. unfold u_distance_from, u_distance_from_array. simpl.
  rewrite Hd, Nat.eqb_refl. simpl.
  destruct (u_inverse_ok eps u Hu Hc) as (i & -> & _ & _ & _ & _ & _ & Em). simpl.
  unfold overlap. do 4 f_equal. apply mtrace_proper. now rewrite Em.
Qed.

Lemma distance_array_ok u a eps :
  wf u -> eps_clean eps (u_dim u) (u_mat u) -> nrows a = u_dim u -> ncols a = u_dim u ->
  u_distance_from_array eps u a = Ok (1 - overlap (u_dim u) (u_mat u) (elt a))%R.
Proof.
  intros Hu Hc Hr Hk. unfold u_distance_from_array. rewrite Hr, Hk, Nat.eqb_refl. simpl.
  destruct (u_inverse_ok eps u Hu Hc) as (i & -> & _ & _ & _ & _ & _ & Em). simpl.
  unfold overlap. do 4 f_equal. apply mtrace_proper. now rewrite Em.
Qed.

#[export] Instance overlap_proper n : Proper (meq n ==> meq n ==> eq) (overlap n).
Proof. intros A B H A' B' H'. unfold overlap. now rewrite H, H'. Qed.

Definition tr_inner (n : nat) (A B : mat) : C := mtrace n (mmul n (adj A) B).

(** [|B - c A|_F^2 = 2 n - 2 Re(conj c * tr(A^dagger B))] for unitaries, |c| = 1. *)
Lemma fro2_phase n A B c :
  unitary_mx n A -> unitary_mx n B -> Cmod c = 1%R ->
  fro2 n (mminus B (mscale c A))
  = (2 * INR n - 2 * fst (Cconj c * tr_inner n A B)%C)%R.
Proof.
  intros HA HB Hc.
  assert (HA' := unitary_left n A HA). assert (HB' := unitary_left n B HB).
  assert (E : RtoC (fro2 n (mminus B (mscale c A)))
              = RtoC (INR n) - Cconj c * tr_inner n A B
                - Cconj (Cconj c * tr_inner n A B) + RtoC (INR n)).
  { rewrite fro2_trace'. unfold tr_inner.
    assert (E1 : meq n (mmul n (adj (mminus B (mscale c A))) (mminus B (mscale c A)))
       (mplus (mminus (mminus (mmul n (adj B) B) (mscale (Cconj c) (mmul n (adj A) B)))
                      (mscale c (mmul n (adj B) A)))
              (mscale (c * Cconj c) (mmul n (adj A) A)))).
    { intros i j Hi Hj. unfold mmul, mminus, mplus, mscale, adj.
      rewrite <- !csum_mult_l, <- csum_minus, <- csum_minus, <- csum_plus.
      apply csum_ext. intros k Hk. rewrite Cconj_minus, Cconj_mult. ring. }
    rewrite E1, HA', HB', Cmod_one_conj by exact Hc. clear E1.
    assert (E2 : forall P Q S T, mtrace n (mplus (mminus (mminus P Q) S) T)
                = mtrace n P - mtrace n Q - mtrace n S + mtrace n T).
    { intros P Q S T. unfold mtrace, mplus, mminus. now rewrite csum_plus, !csum_minus. }
    rewrite E2, !mtrace_mscale, mtrace_mid, Cmult_1_l.
    rewrite Cconj_mult, Cconj_invol, <- mtrace_adj, adj_mmul, adj_adj. reflexivity. }
  apply (f_equal fst) in E. simpl in E. rewrite E. simpl. ring.
Qed.

Lemma polar z : exists c, Cmod c = 1%R /\ Cconj c * z = RtoC (Cmod z).
Proof.
  destruct (Ceq_dec z 0) as [->|Hz].
  - exists 1. rewrite Cmod_1, Cmod_0. split; auto. ring.
  - exists (cis (carg z)). split; [apply Cmod_cis|].
    transitivity (RtoC (Cmod z) * (cis (carg z) * Cconj (cis (carg z)))).
    + rewrite <- (cis_carg z Hz) at 2. ring.
    + rewrite cis_conj_mult. ring.
Qed.

(** The distance is a normalised minimum over phases. *)
Lemma overlap_best n A B :
  (0 < n)%nat -> unitary_mx n A -> unitary_mx n B ->
  exists c, Cmod c = 1%R /\
    fro2 n (mminus B (mscale c A)) = (2 * INR n * (1 - overlap n A B))%R.
Proof.
  intros Hn HA HB. destruct (polar (tr_inner n A B)) as [c [Hc E]]. exists c. split; auto.
  rewrite fro2_phase, E by auto. simpl. unfold overlap, tr_inner.
  assert (0 < INR n)%R by now apply lt_0_INR. field. lra.
Qed.

Lemma overlap_all n A B c :
  (0 < n)%nat -> unitary_mx n A -> unitary_mx n B -> Cmod c = 1%R ->
  (2 * INR n * (1 - overlap n A B) <= fro2 n (mminus B (mscale c A)))%R.
Proof.
  intros Hn HA HB Hc. rewrite fro2_phase by auto. unfold overlap. fold (tr_inner n A B).
  assert (0 < INR n)%R by now apply lt_0_INR.
  assert (H1 := Re_le_Cmod (Cconj c * tr_inner n A B)).
  rewrite Cmod_mult, Cmod_conj, Hc, Rmult_1_l in H1.
  assert (H2 := Rle_abs (fst (Cconj c * tr_inner n A B)%C)).
  replace (2 * INR n * (1 - Cmod (tr_inner n A B) / INR n))%R
    with (2 * INR n - 2 * Cmod (tr_inner n A B))%R by (field; lra). lra.
Qed.

Lemma overlap_nonneg n A B : (0 < n)%nat -> (0 <= overlap n A B)%R.
Proof.
  intros Hn. unfold overlap. apply Rmult_le_pos; [apply Cmod_ge_0|].
  left. apply Rinv_0_lt_compat. now apply lt_0_INR.
Qed.

Lemma overlap_le_1 n A B :
  (0 < n)%nat -> unitary_mx n A -> unitary_mx n B -> (overlap n A B <= 1)%R.
Proof.
  intros Hn HA HB. destruct (overlap_best n A B Hn HA HB) as [c [_ E]].
  assert (K := fro2_nonneg n (mminus B (mscale c A))). rewrite E in K.
  assert (0 < INR n)%R by now apply lt_0_INR. nra.
Qed.

Lemma overlap_sym n A B : overlap n A B = overlap n B A.
Proof.
  unfold overlap. f_equal. rewrite <- Cmod_conj, <- mtrace_adj, adj_mmul, adj_adj. reflexivity.
Qed.

Lemma overlap_phase_r n A B c : Cmod c = 1%R -> overlap n A (mscale c B) = overlap n A B.
Proof.
  intros Hc. unfold overlap. now rewrite mmul_mscale_r, mtrace_mscale, Cmod_mult, Hc, Rmult_1_l.
Qed.
Lemma overlap_phase_l n A B c : Cmod c = 1%R -> overlap n (mscale c A) B = overlap n A B.
Proof. intros Hc. rewrite overlap_sym, overlap_phase_r by auto. apply overlap_sym. Qed.

Lemma overlap_1_iff n A B :
  (0 < n)%nat -> unitary_mx n A -> unitary_mx n B ->
  overlap n A B = 1%R <-> phase_eq n B A.
Proof.
  intros Hn HA HB. assert (0 < INR n)%R by now apply lt_0_INR. split.
  - intros H1. destruct (overlap_best n A B Hn HA HB) as [c [Hc E]].
    exists c. split; auto. rewrite H1 in E.
    assert (F : fro n (mminus B (mscale c A)) = 0%R).
    { unfold fro. rewrite E. replace (2 * INR n * (1 - 1))%R with 0%R by ring. apply sqrt_0. }
    apply fro_0 in F. intros i j Hi Hj. specialize (F i j Hi Hj).
    unfold mminus, mzero in F. transitivity (B i j - mscale c A i j + mscale c A i j); [ring|].
    rewrite F. ring.
  - intros [c [Hc E]]. rewrite E, overlap_phase_r by auto. unfold overlap.
    rewrite (unitary_left n A HA), mtrace_mid, Cmod_R, Rabs_pos_eq by lra. field. lra.
Qed.

Lemma overlap_left n F A B :
  unitary_mx n F -> overlap n (mmul n F A) (mmul n F B) = overlap n A B.
Proof.
  intros HF. unfold overlap. do 2 f_equal. apply mtrace_proper.
  rewrite adj_mmul, mmul_assoc, <- (mmul_assoc n (adj A)), (unitary_left n F HF), mmul_1_r.
  reflexivity.
Qed.
Lemma overlap_right n F A B :
  unitary_mx n F -> overlap n (mmul n A F) (mmul n B F) = overlap n A B.
Proof.
  unfold unitary_mx. intros HF. unfold overlap. do 2 f_equal.
  rewrite adj_mmul, <- mmul_assoc, mtrace_mmul_comm, <- !mmul_assoc, HF, mmul_1_r. reflexivity.
Qed.
Lemma overlap_adj n A B :
  unitary_mx n A -> unitary_mx n B -> overlap n (adj A) (adj B) = overlap n A B.
Proof.
  intros HA HB. unfold overlap. f_equal.
  rewrite adj_adj, mtrace_mmul_comm.
  rewrite <- Cmod_conj, <- mtrace_adj, adj_mmul, adj_adj. reflexivity.
Qed.

(** The square root of the distance satisfies the triangle inequality. *)
Lemma overlap_triangle n A B D :
  (0 < n)%nat -> unitary_mx n A -> unitary_mx n B -> unitary_mx n D ->
  (sqrt (1 - overlap n A D) <= sqrt (1 - overlap n A B) + sqrt (1 - overlap n B D))%R.
Proof.
  intros Hn HA HB HD. assert (Hp : (0 < INR n)%R) by now apply lt_0_INR.
  destruct (overlap_best n A B Hn HA HB) as [c [Hc E1]].
  destruct (overlap_best n B D Hn HB HD) as [d [Hd E2]].
  assert (Hcd : Cmod (d * c) = 1%R) by (rewrite Cmod_mult, Hc, Hd; ring).
  assert (E3 := overlap_all n A D (d * c) Hn HA HD Hcd).
  assert (T : (fro n (mminus D (mscale (d * c) A))
               <= fro n (mminus D (mscale d B)) + fro n (mminus B (mscale c A)))%R).
  { eapply Rle_trans; [apply (fro_minus_triangle n D (mscale d B))|].
    apply Rplus_le_compat_l. right.
    transitivity (fro n (mscale d (mminus B (mscale c A)))).
    - apply fro_proper. intros i j _ _. unfold mminus, mscale. ring.
    - rewrite fro_mscale, Hd. ring. }
  unfold fro in T. rewrite E1, E2 in T.
  assert (P : (0 < 2 * INR n)%R) by lra.
  rewrite !sqrt_mult_alt in T by lra.
  assert (S : (sqrt (2 * INR n * (1 - overlap n A D)) <= sqrt (fro2 n (mminus D (mscale (d * c) A))))%R)
    by (apply sqrt_le_1_alt; exact E3).
  rewrite !sqrt_mult_alt in S by lra.
  assert (Q : (0 < sqrt (2 * INR n))%R) by (apply sqrt_lt_R0; lra).
  rewrite !sqrt_mult_alt in * by lra.
  apply Rmult_le_reg_l with (sqrt 2 * sqrt (INR n))%R; [|lra].
  apply Rmult_lt_0_compat; apply sqrt_lt_R0; lra.
Qed.
