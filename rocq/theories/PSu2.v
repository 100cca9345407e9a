(** One qubit: the constructor maps a special unitary 2x2 matrix to one that is again
    exactly special unitary, because the clean-up keeps its form. *)
From Coq Require Import Reals List Arith Lia Lra Psatz Bool String.
From Coquelicot Require Import Rcomplements Complex.
From Verif Require Import Base CMat CMatFacts Det DetFacts CRoot Norms ModelUnitary Spec PUnitary PDrift.
Import ListNotations.
Open Scope R_scope.
Open Scope C_scope.

Lemma croot2_re (z : C) : (0 <= fst (croot 2 z))%R.
Proof.
  unfold croot. assert (A := carg_range z). simpl INR.
  assert (0 <= cos (carg z / (1 + 1)))%R by (apply cos_ge_0; lra).
  assert (0 < Rpower (Cmod z) (/ (1 + 1)))%R by apply exp_pos.
  unfold cis. simpl. nra.
Qed.

Lemma croot2_sqr (z : C) : z <> 0 -> croot 2 z * croot 2 z = z.
Proof.
  intros H. assert (E := croot_pow 2 z ltac:(lia) H). cbn [cpow] in E. rewrite Cmult_1_r in E. exact E.
Qed.

Lemma croot2_unique (z r : C) : z <> 0 -> r * r = z -> (0 < fst r)%R -> croot 2 z = r.
Proof.
  intros Hz E Hr. assert (S := croot2_sqr z Hz).
  assert (F : (croot 2 z - r) * (croot 2 z + r) = 0).
  { replace ((croot 2 z - r) * (croot 2 z + r)) with (croot 2 z * croot 2 z - r * r) by ring.
    rewrite S, E. ring. }
  destruct (Ceq_dec (croot 2 z - r) 0) as [D|D].
  - replace (croot 2 z) with ((croot 2 z - r) + r) by ring. rewrite D. ring.
  - exfalso. assert (X : croot 2 z + r = 0).
    { replace (croot 2 z + r) with (/ (croot 2 z - r) * ((croot 2 z - r) * (croot 2 z + r))) by (field; exact D).
      rewrite F. ring. }
    assert (Y := f_equal fst X). change (fst (croot 2 z) + fst r = 0)%R in Y. assert (Z := croot2_re z). lra.
Qed.

Lemma special_2_entries V : special 2 V ->
  V 1%nat 1%nat = Cconj (V 0%nat 0%nat) /\ V 0%nat 1%nat = - Cconj (V 1%nat 0%nat) /\
  (Cmod (V 0%nat 0%nat) ^ 2 + Cmod (V 1%nat 0%nat) ^ 2 = 1)%R.
Proof.
  intros [HU HD]. rewrite det_2 in HD.
  assert (H2 := unitary_left 2 V HU 0%nat 0%nat ltac:(lia) ltac:(lia)).
  assert (H1 := HU 0%nat 1%nat ltac:(lia) ltac:(lia)).
  assert (H3 := HU 1%nat 1%nat ltac:(lia) ltac:(lia)).
  unfold mmul, adj, mid in H1, H2, H3. simpl in H1, H2, H3.
  destruct (V 0%nat 0%nat) as [a1 a2], (V 0%nat 1%nat) as [b1 b2], (V 1%nat 0%nat) as [c1 c2],
    (V 1%nat 1%nat) as [d1 d2].
  apply (f_equal (fun z : C => (fst z, snd z))) in H1, H2, H3, HD. simpl in H1, H2, H3, HD.
  injection HD as D1 D2. injection H1 as P1 P2. injection H2 as Q1 Q2. injection H3 as S1 S2.
  split; [apply C_eq; simpl|split; [apply C_eq; simpl|]].
  - transitivity (d1 * (a1 * d1 - a2 * d2 - (b1 * c1 - b2 * c2)) + d2 * (a1 * d2 + a2 * d1 - (b1 * c2 + b2 * c1)))%R.
    { replace (a1 * d1 - a2 * d2 - (b1 * c1 - b2 * c2))%R with 1%R by lra.
      replace (a1 * d2 + a2 * d1 - (b1 * c2 + b2 * c1))%R with 0%R by lra. ring. }
    assert (R1 : (b1 * d1 + b2 * d2 = - (a1 * c1 + a2 * c2))%R) by lra.
    assert (R2 : (b2 * d1 - b1 * d2 = - (a2 * c1 - a1 * c2))%R) by lra.
    transitivity (a1 * (d1 * d1 + d2 * d2) - c1 * (b1 * d1 + b2 * d2) + c2 * (b2 * d1 - b1 * d2))%R; [ring|].
    rewrite R1, R2. transitivity (a1 * (c1 * c1 + c2 * c2 + (d1 * d1 + d2 * d2)))%R; [ring|].
    replace (c1 * c1 + c2 * c2 + (d1 * d1 + d2 * d2))%R with 1%R by lra. ring.
  - transitivity (d2 * (a1 * d1 - a2 * d2 - (b1 * c1 - b2 * c2)) - d1 * (a1 * d2 + a2 * d1 - (b1 * c2 + b2 * c1)))%R.
    { replace (a1 * d1 - a2 * d2 - (b1 * c1 - b2 * c2))%R with 1%R by lra.
      replace (a1 * d2 + a2 * d1 - (b1 * c2 + b2 * c1))%R with 0%R by lra. ring. }
    assert (R1 : (b1 * d1 + b2 * d2 = - (a1 * c1 + a2 * c2))%R) by lra.
    assert (R2 : (b2 * d1 - b1 * d2 = - (a2 * c1 - a1 * c2))%R) by lra.
    transitivity (- a2 * (d1 * d1 + d2 * d2) + c2 * (b1 * d1 + b2 * d2) + c1 * (b2 * d1 - b1 * d2))%R; [ring|].
    rewrite R1, R2. transitivity (- a2 * (c1 * c1 + c2 * c2 + (d1 * d1 + d2 * d2)))%R; [ring|].
    replace (c1 * c1 + c2 * c2 + (d1 * d1 + d2 * d2))%R with 1%R by lra. ring.
  - transitivity (b1 * (c1 * c1 + c2 * c2 + (d1 * d1 + d2 * d2)))%R.
    { replace (c1 * c1 + c2 * c2 + (d1 * d1 + d2 * d2))%R with 1%R by lra. ring. }
    assert (R1 : (b1 * d1 + b2 * d2 = - (a1 * c1 + a2 * c2))%R) by lra.
    assert (R2 : (b2 * d1 - b1 * d2 = - (a2 * c1 - a1 * c2))%R) by lra.
    transitivity (b1 * (c1 * c1 + c2 * c2) + d1 * (b1 * d1 + b2 * d2) - d2 * (b2 * d1 - b1 * d2))%R; [ring|].
    rewrite R1, R2.
    transitivity (- c1 * (a1 * d1 - a2 * d2 - (b1 * c1 - b2 * c2)) - c2 * (a1 * d2 + a2 * d1 - (b1 * c2 + b2 * c1)))%R; [ring|].
    replace (a1 * d1 - a2 * d2 - (b1 * c1 - b2 * c2))%R with 1%R by lra.
    replace (a1 * d2 + a2 * d1 - (b1 * c2 + b2 * c1))%R with 0%R by lra. ring.
  - transitivity (b2 * (c1 * c1 + c2 * c2 + (d1 * d1 + d2 * d2)))%R.
    { replace (c1 * c1 + c2 * c2 + (d1 * d1 + d2 * d2))%R with 1%R by lra. ring. }
    assert (R1 : (b1 * d1 + b2 * d2 = - (a1 * c1 + a2 * c2))%R) by lra.
    assert (R2 : (b2 * d1 - b1 * d2 = - (a2 * c1 - a1 * c2))%R) by lra.
    transitivity (b2 * (c1 * c1 + c2 * c2) + d2 * (b1 * d1 + b2 * d2) + d1 * (b2 * d1 - b1 * d2))%R; [ring|].
    rewrite R1, R2.
    transitivity (c2 * (a1 * d1 - a2 * d2 - (b1 * c1 - b2 * c2)) - c1 * (a1 * d2 + a2 * d1 - (b1 * c2 + b2 * c1)))%R; [ring|].
    replace (a1 * d1 - a2 * d2 - (b1 * c1 - b2 * c2))%R with 1%R by lra.
    replace (a1 * d2 + a2 * d1 - (b1 * c2 + b2 * c1))%R with 0%R by lra. ring.
  - unfold Cmod. rewrite !pow2_sqrt by (simpl; nra). simpl. lra.
Qed.

(** ** The clean-up *)
Lemma clean_R_opp eps x : clean_R eps (- x) = (- clean_R eps x)%R.
Proof. unfold clean_R. rewrite Rabs_Ropp. destruct (Rltb (Rabs x) eps); ring. Qed.
Lemma clean_C_conj eps z : clean_C eps (Cconj z) = Cconj (clean_C eps z).
Proof. unfold clean_C, Cconj. cbn [fst snd]. now rewrite clean_R_opp. Qed.
Lemma clean_C_opp eps z : clean_C eps (- z) = - clean_C eps z.
Proof. unfold clean_C, Copp. cbn [fst snd]. now rewrite !clean_R_opp. Qed.

Lemma clean_R_sqr eps x : (0 <= eps)%R -> (x * x - eps * eps <= clean_R eps x * clean_R eps x <= x * x)%R.
Proof.
  intros E. unfold clean_R. destruct (Rltb (Rabs x) eps) eqn:H.
  - apply Rltb_spec in H. assert (A := Rabs_pos x).
    assert (S : (x * x = Rabs x * Rabs x)%R) by (rewrite <- Rabs_mult, Rabs_pos_eq; nra). nra.
  - nra.
Qed.

Lemma clean_C_sqr eps z : (0 <= eps)%R ->
  (Cmod z ^ 2 - 2 * (eps * eps) <= Cmod (clean_C eps z) ^ 2 <= Cmod z ^ 2)%R.
Proof.
  intros E. rewrite !Cmod2. unfold clean_C. cbn [fst snd].
  assert (A := clean_R_sqr eps (fst z) E). assert (B := clean_R_sqr eps (snd z) E). nra.
Qed.

(** ** The constructor *)
Lemma mk_su2 eps A nm ps iv ap : (0 <= eps <= / 1000)%R -> special 2 A ->
  exists p, mk_unitary eps 2 (Some (square 2 A)) nm ps iv ap = Ok p /\
    u_dim p = 2%nat /\ special 2 (u_mat p) /\
    u_name p = match nm with Some s => s | None => "U"%string end /\
    u_params p = ps /\ u_inv p = iv /\ u_apply p = ap /\
    (fro 2 (mminus (u_mat p) A) <= kappa0 2 * eps)%R /\ eps_clean eps 2 (u_mat p).
Proof.
  intros [E0 E1] HS. destruct (special_2_entries A HS) as (H1 & H2 & H3).
  set (N := clean eps A). set (a := clean_C eps (A 0%nat 0%nat)). set (c := clean_C eps (A 1%nat 0%nat)).
  assert (N00 : N 0%nat 0%nat = a) by reflexivity. assert (N10 : N 1%nat 0%nat = c) by reflexivity.
  assert (N11 : N 1%nat 1%nat = Cconj a) by (unfold N, clean; rewrite H1; apply clean_C_conj).
  assert (N01 : N 0%nat 1%nat = - Cconj c) by (unfold N, clean; rewrite H2, clean_C_opp, clean_C_conj; reflexivity).
  set (r := (Cmod a ^ 2 + Cmod c ^ 2)%R).
  assert (R : (1 - 4 * (eps * eps) <= r <= 1)%R).
  { unfold r. assert (X := clean_C_sqr eps (A 0%nat 0%nat) E0). assert (Y := clean_C_sqr eps (A 1%nat 0%nat) E0).
    fold a in X. fold c in Y. lra. }
  assert (R0 : (99 / 100 <= r)%R) by nra.
  assert (DN : det 2 N = RtoC r).
  { rewrite det_2, N00, N01, N10, N11. unfold r. rewrite !Cmod2. destruct a, c. apply C_eq; simpl; ring. }
  assert (GN : meq 2 (mmul 2 N (adj N)) (mscale (RtoC r) mid)).
  { intros i j Hi Hj. unfold mmul, adj, mscale, mid. cbn [csum].
    destruct i as [|[|i]]; [| |lia]; (destruct j as [|[|j]]; [| |lia]); rewrite ?N00, ?N01, ?N10, ?N11;
      unfold r; rewrite ?Cmod2; destruct a, c; apply C_eq; simpl; ring. }
  set (q := sqrt r).
  assert (Q : (q * q = r)%R) by (apply sqrt_sqrt; lra).
  assert (Q1 : (q <= 1)%R) by (unfold q; rewrite <- sqrt_1; apply sqrt_le_1; lra).
  assert (Q0 : (0 <= q)%R) by apply sqrt_pos.
  assert (Q2 : (r <= q)%R) by nra.
  assert (CR : croot 2 (/ det 2 N) = RtoC (/ q)).
  { rewrite DN. assert (Er : RtoC r <> 0) by (intros X; apply RtoC_inj in X; lra).
    apply croot2_unique.
    - now apply Cinv_neq0.
    - rewrite <- RtoC_mult, <- RtoC_inv by lra. f_equal. rewrite <- Q. field. lra.
    - simpl. apply Rinv_0_lt_compat. lra. }
  assert (HSP : special 2 (mscale (RtoC (/ q)) N)).
  { split.
    - unfold unitary_mx. rewrite adj_mscale, mmul_mscale_l, mmul_mscale_r, mscale_mscale, GN, mscale_mscale.
      replace (RtoC (/ q) * Cconj (RtoC (/ q)) * RtoC r) with (RtoC 1); [apply mscale_1|].
      rewrite Cconj_R, <- !RtoC_mult. f_equal. rewrite <- Q. field. lra.
    - rewrite det_mscale, DN. cbn [cpow]. rewrite Cmult_1_r, <- !RtoC_mult. f_equal. rewrite <- Q. field. lra. }
  eexists. split; [apply mk_unitary_ok; try reflexivity; try lia|].
  - cbn [elt square]. fold N. intros i j Hi Hj. rewrite GN by auto.
    replace (mscale (RtoC r) mid i j - mid i j) with (RtoC (r - 1) * mid i j)
      by (unfold mscale; rewrite RtoC_minus; ring).
    rewrite Cmod_mult, Cmod_R, Cmod_mid. destruct (Nat.eqb i j).
    + rewrite Rmult_1_r, Rabs_left1 by lra. nra.
    + rewrite Rmult_0_r. assert (0 < / 10 ^ 8)%R by (apply Rinv_0_lt_compat, pow_lt; lra). lra.
  - cbn [elt square]. fold N. rewrite DN. intros X. apply RtoC_inj in X. lra.
  - cbn [elt square u_mat u_dim u_name u_params u_inv u_apply]. fold N. rewrite CR.
    split; auto. split; auto. split; auto. split; auto. split; auto. split; auto.
    split.
    2:{ assert (IQ : (1 <= / q)%R).
        { rewrite <- Rinv_1. apply Rinv_le_contravar; lra. }
        assert (Y : forall x, (Rabs (/ q * clean_R eps x) < eps)%R -> (/ q * clean_R eps x = 0)%R).
        { intros x. unfold clean_R, Rltb. destruct (Rlt_dec (Rabs x) eps) as [H|H]; [intros _; ring|].
          rewrite Rabs_mult, (Rabs_pos_eq (/ q)) by lra. intros X. assert (X0 := Rabs_pos x). nra. }
        intros i j _ _. unfold N, clean, clean_C, mscale. cbn [Cmult RtoC fst snd].
        split; intros X.
        - replace (/ q * clean_R eps (fst (A i j)) - 0 * clean_R eps (snd (A i j)))%R with (/ q * clean_R eps (fst (A i j)))%R in * by ring.
          now apply Y.
        - replace (/ q * clean_R eps (snd (A i j)) + 0 * clean_R eps (fst (A i j)))%R with (/ q * clean_R eps (snd (A i j)))%R in * by ring.
          now apply Y. }
    eapply Rle_trans; [apply fro_minus_triangle with (B := N)|].
    assert (F1 : meq 2 (mminus (mscale (RtoC (/ q)) N) N) (mscale (RtoC (1 - q)) (mscale (RtoC (/ q)) N))).
    { rewrite mscale_mscale. intros i j _ _. unfold mminus, mscale. rewrite <- RtoC_mult.
      replace ((1 - q) * / q)%R with (/ q - 1)%R by (field; lra). rewrite RtoC_minus. ring. }
    rewrite F1, fro_mscale, (fro_unitary 2 _ (proj1 HSP)), Cmod_R, Rabs_pos_eq by lra.
    assert (C := clean_near eps 2 A E0). fold N in C.
    unfold kappa0. assert (S := sqrt2_bounds). replace (INR 2) with 2%R in * by (simpl; ring).
    assert ((1 - q) * sqrt 2 <= 4 * (eps * eps) * sqrt 2)%R by (apply Rmult_le_compat_r; lra).
    assert (eps * eps <= / 1000 * eps)%R by (apply Rmult_le_compat_r; lra).
    nra.
Qed.
