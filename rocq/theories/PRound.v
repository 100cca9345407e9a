(** The drift of the kept product when every operation rounds. *)
From Coq Require Import Reals List Arith Bool Lia Lra Psatz String Setoid Morphisms.
From Coquelicot Require Import Rcomplements Complex.
From Verif Require Import Base CMat CMatFacts Det DetFacts CRoot Norms ModelUnitary ModelEntry
  ModelRound Spec SpecModel SpecRound PUnitary PBits PEmbed PEntry PDrift PSeqNear PSeqProps.
Import ListNotations.
Open Scope R_scope.
Open Scope C_scope.

Lemma within_fro mu d A B : (0 <= mu)%R -> within mu d A B -> (fro d (mminus A B) <= INR d * mu)%R.
Proof.
  intros Hm H. assert (0 <= INR d)%R by apply pos_INR.
  apply sqr_le_le; [now apply Rmult_le_pos|].
  rewrite fro_sqr. unfold fro2, vnorm2.
  apply Rle_trans with (rsum d (fun _ => rsum d (fun _ => (mu ^ 2)%R))).
  - apply rsum_le. intros i Hi. apply rsum_le. intros j Hj. apply pow_incr.
    split; [apply Cmod_ge_0|]. now apply H.
  - rewrite !rsum_const. apply Req_le. ring.
Qed.

Lemma unitary_entry d P i j : unitary_mx d P -> (i < d)%nat -> (j < d)%nat -> (Cmod (P i j) <= 1)%R.
Proof.
  intros HU Hi Hj. assert (E := unitary_right _ _ HU i i Hi Hi).
  assert (K : vnorm2 d (fun k => P i k) = 1%R).
  { apply RtoC_inj. unfold mid in E. rewrite Nat.eqb_refl in E. rewrite <- E.
    unfold vnorm2, mmul. rewrite <- csum_RtoC. apply csum_ext. intros k _. unfold adj.
    symmetry. apply Cmult_conj. }
  eapply Rle_trans; [apply (vnorm_entry d (fun k => P i k)); auto|]. unfold vnorm. rewrite K, sqrt_1. lra.
Qed.

Lemma near_bounded d P A e : unitary_mx d P -> (fro d (mminus A P) <= e)%R -> (e <= 1)%R -> bounded2 d A.
Proof.
  intros HU HF He i j Hi Hj. assert (K := fro_entry d (mminus A P) i j Hi Hj).
  assert (U := unitary_entry d P i j HU Hi Hj).
  replace (A i j) with (P i j + mminus A P i j) by (unfold mminus; ring).
  eapply Rle_trans; [apply Cmod_triangle|]. lra.
Qed.

Lemma pow_small x k : (0 <= x)%R -> (INR k * x <= / 100)%R -> ((1 + x) ^ k - 1 <= 102 / 100 * (INR k * x))%R.
Proof.
  intros Hx Hk. assert (K := pow_linear x k Hx ltac:(lra)). assert (0 <= INR k)%R by apply pos_INR.
  assert (0 <= INR k * x)%R by now apply Rmult_le_pos. nra.
Qed.

Lemma cpow_near (y : C) (k : nat) : (Cmod (cpow (1 + y) k - 1)%C <= (1 + Cmod y) ^ k - 1)%R.
Proof.
  induction k as [|k IH]; simpl.
  - replace (1 - 1) with (RtoC 0) by ring. rewrite Cmod_0. lra.
  - replace ((1 + y) * cpow (1 + y) k - 1) with ((1 + y) * (cpow (1 + y) k - 1) + y) by ring.
    eapply Rle_trans; [apply Cmod_triangle|]. rewrite Cmod_mult.
    assert (T := Cmod_triangle 1 y). rewrite Cmod_1 in T. assert (Y := Cmod_ge_0 y).
    assert (0 <= Cmod (cpow (1 + y) k - 1)%C)%R by apply Cmod_ge_0.
    assert (Cmod (1 + y)%C * Cmod (cpow (1 + y) k - 1)%C <= (1 + Cmod y) * ((1 + Cmod y) ^ k - 1))%R.
    { apply Rmult_le_compat; auto. apply Cmod_ge_0. }
    lra.
Qed.

Lemma Cmod_minus_sym (a b : C) : Cmod (a - b) = Cmod (b - a).
Proof. replace (a - b) with (- (b - a)) by ring. apply Cmod_opp. Qed.
Lemma Cmod_minus_tri (a b c : C) : (Cmod (a - c) <= Cmod (a - b) + Cmod (b - c))%R.
Proof. replace (a - c) with ((a - b) + (b - c)) by ring. apply Cmod_triangle. Qed.
Lemma Cmod_lower (a b : C) : (Cmod b - Cmod (a - b) <= Cmod a)%R.
Proof.
  assert (T := Cmod_triangle a (b - a)). replace (a + (b - a)) with b in T by ring.
  rewrite (Cmod_minus_sym a b). lra.
Qed.
Lemma Cmod_upper (a b : C) : (Cmod a <= Cmod b + Cmod (a - b))%R.
Proof. assert (T := Cmod_triangle b (a - b)). replace (b + (a - b)) with a in T by ring. lra. Qed.
Lemma mod_pow_1 (m : R) k : (0 < k)%nat -> (0 <= m)%R -> (m ^ k = 1)%R -> m = 1%R.
Proof.
  intros Hk G0 X. destruct (Rtotal_order m 1) as [L|[L|L]]; auto; exfalso.
  - destruct k as [|k]; [lia|]. simpl in X.
    assert (K : (m ^ k <= 1 ^ k)%R) by (apply pow_incr; lra). rewrite pow1 in K. nra.
  - assert (1 < m ^ k)%R by (apply Rlt_pow_R1; [lra|lia]). lra.
Qed.

Section Rnd.
Variable ar : arith.
Variables eps mu : R.
Hypothesis eps0 : (0 <= eps)%R.
Hypothesis mu0 : (0 <= mu)%R.

(** The threshold and the rounding together. *)
Definition eta : R := (eps + 9 * mu)%R.
Lemma eta0 : (0 <= eta)%R.
Proof. unfold eta. lra. Qed.

Lemma r_unitary_ok d (A : mat) nm ps iv ap :
  (0 < d)%nat ->
  a_close ar d (a_mul ar d (clean eps A) (adj (clean eps A))) mid = true ->
  a_det ar d (clean eps A) <> 0 ->
  r_unitary ar eps d (Some (square d A)) nm ps iv ap =
  Ok {| u_dim := d; u_mat := a_scale ar (a_root ar d (a_det ar d (clean eps A))) (clean eps A);
        u_name := match nm with Some s => s | None => "U"%string end;
        u_params := ps; u_inv := iv; u_apply := ap |}.
Proof.
  intros Hd Hc Hn. unfold r_unitary. cbn [elt nrows ncols square].
  apply Nat.ltb_lt in Hd. rewrite Hd, !Nat.eqb_refl, Hc. unfold assert. cbn [bind andb].
  destruct (Ceq_dec _ _); [contradiction|reflexivity].
Qed.

(** One rounded constructor call. *)
Lemma r_norm d P (A : mat) e nm ps iv ap :
  (0 < d)%nat -> accurate ar mu d -> unitary_mx d P -> (0 <= e)%R ->
  (fro d (mminus A P) <= e + INR d * mu)%R ->
  (Cmod (det d A - det d P) <= 10 * (INR d * (INR d * mu)))%R ->
  (e + kappa0 d * eta <= 45 / 10 ^ 10)%R -> (INR d * (e + kappa0 d * eta) <= / 100)%R ->
  exists p c, r_unitary ar eps d (Some (square d A)) nm ps iv ap = Ok p /\
    u_dim p = d /\
    u_name p = match nm with Some s => s | None => "U"%string end /\
    u_params p = ps /\ u_inv p = iv /\ u_apply p = ap /\
    Cmod c = 1%R /\ cpow c d * det d P = 1 /\ (det d P = 1 -> c = 1) /\
    (Cmod (det d (u_mat p) - 1)%C <= 4 * (INR d * (INR d * mu)))%R /\
    (fro d (mminus (u_mat p) (mscale c P)) <= e + kappa0 d * eta)%R.
Proof.
  intros Hd Hac HU He0 Hfro Hdet Hx Hdx.
  replace (10 ^ 10)%R with 10000000000%R in Hx by ring.
  assert (Hs2 := sqrt2_bounds). assert (Hsd := sqrt_INR_ge1 d Hd).
  assert (Hd1 : (1 <= INR d)%R) by (change 1%R with (INR 1); apply le_INR; lia).
  set (D := INR d) in *. set (sd := sqrt D) in *.
  set (z := (sqrt 2 * D * eps)%R). set (B := clean eps A).
  assert (Hz0 : (0 <= z)%R) by (unfold z; apply Rmult_le_pos; [apply Rmult_le_pos|]; lra).
  assert (Hc : (fro d (mminus B A) <= z)%R) by now apply clean_near.
  set (q := (D * eps)%R) in *. set (v := (D * mu)%R) in *.
  assert (Hq : (0 <= q)%R) by (unfold q; nra). assert (Hv : (0 <= v)%R) by (unfold v; nra).
  assert (Hmv : (mu <= v)%R) by (unfold v; nra).
  assert (Hzd : (z <= 14143 / 10000 * q)%R).
  { unfold z, q. assert (0 <= D * eps)%R by nra. nra. }
  assert (Ex : (kappa0 d * eta = 8 / 5 * (q * sd + q) + 72 / 5 * (v * sd + v))%R).
  { unfold kappa0, q, v, eta. fold D. fold sd. field. }
  rewrite Ex in *. assert (Hqs : (q <= q * sd)%R) by nra. assert (Hvs : (v <= v * sd)%R) by nra.
  set (qs := (q * sd)%R) in *. set (vs := (v * sd)%R) in *.
  assert (HDq : (0 <= D * q)%R) by nra. assert (HDv : (0 <= D * v)%R) by nra.
  assert (HvD : (v <= D * v)%R) by nra. assert (HDe : (0 <= D * e)%R) by nra.
  assert (HDqs : (D * q <= D * qs)%R) by nra. assert (HDvs : (D * v <= D * vs)%R) by nra.
  assert (Hdx' : (D * e + 8 / 5 * (2 * (D * q)) + 72 / 5 * (2 * (D * v)) <= / 100)%R) by nra.
  assert (HDz : (D * z <= 14143 / 10000 * (D * q))%R) by nra.
  assert (HAP : (fro d (mminus A P) <= e + v)%R) by exact Hfro.
  assert (HBP : (fro d (mminus B P) <= e + v + z)%R).
  { eapply Rle_trans; [apply fro_minus_triangle with (B := A)|]. lra. }
  assert (HdP : Cmod (det d P) = 1%R) by now apply unitary_det_mod.
  assert (NP : det d P <> 0) by (intros E; rewrite E, Cmod_0 in HdP; lra).
  (* the computed determinant *)
  assert (HdBA : (Cmod (det d B - det d A)%C <= 103 / 100 * (D * z))%R).
  { apply det_near_unitary with (P := P) (e := (e + v)%R); auto; fold D; lra. }
  assert (HadB : (Cmod (a_det ar d B - det d B)%C <= mu)%R).
  { apply (acc_det _ _ _ Hac B P); auto. fold D.
    apply Rle_trans with (D * (e + v + z))%R; [apply Rmult_le_compat_l; lra|lra]. }
  set (dt := a_det ar d B) in *.
  assert (HdB : (Cmod (det d B - det d P)%C <= 10 * (D * v) + 103 / 100 * (D * z))%R).
  { eapply Rle_trans; [apply Cmod_minus_tri with (b := det d A)|]. fold D in Hdet. fold v in Hdet. lra. }
  assert (Hdt : (Cmod (dt - det d P)%C <= 11 * (D * v) + 103 / 100 * (D * z))%R).
  { eapply Rle_trans; [apply Cmod_minus_tri with (b := det d B)|]. lra. }
  set (t2 := (11 * (D * v) + 103 / 100 * (D * z))%R) in *.
  assert (Ht2 : (t2 <= 84 / 10000)%R) by (unfold t2; lra).
  assert (Hdt1 : (1 - t2 <= Cmod dt <= 1 + t2)%R).
  { assert (L := Cmod_lower dt (det d P)). assert (U := Cmod_upper dt (det d P)). rewrite HdP in *. lra. }
  assert (Ndt : dt <> 0) by (intros E; rewrite E, Cmod_0 in Hdt1; lra).
  set (rho := dt / det d P).
  assert (Hrho1 : (Cmod (rho - 1) <= t2)%R).
  { replace (rho - 1) with ((dt - det d P) * / det d P) by (unfold rho; field; auto).
    rewrite Cmod_mult, Cmod_inv by auto. rewrite HdP, Rinv_1, Rmult_1_r. auto. }
  assert (Hrhom : (99 / 100 <= Cmod rho)%R).
  { assert (L := Cmod_lower rho 1). rewrite Cmod_1 in L. lra. }
  assert (Hrho : rho <> 0) by (intros E; rewrite E, Cmod_0 in Hrhom; lra).
  assert (EBr : dt = rho * det d P) by (unfold rho; field; auto).
  assert (Hzi : (Cmod (/ rho - 1)%C <= 100 / 99 * t2)%R).
  { replace (/ rho - 1) with (- ((rho - 1) * / rho)) by (field; auto).
    rewrite Cmod_opp, Cmod_mult, Cmod_inv by auto.
    rewrite Rmult_comm. apply Rmult_le_compat; try apply Cmod_ge_0; auto.
    - left. apply Rinv_0_lt_compat. lra.
    - replace (100 / 99)%R with (/ (99 / 100))%R by field. apply Rinv_le_contravar; lra. }
  set (w := croot d (/ rho)).
  assert (Hw : (D * Cmod (w - 1) <= 103 / 100 * Cmod (/ rho - 1)%C)%R).
  { apply croot_near with (h := (/ 100)%R); auto; lra. }
  assert (Hw' : (Cmod (w - 1) <= 1146 / 100 * v + 1517 / 1000 * q)%R).
  { apply Rmult_le_reg_l with D; [lra|].
    apply Rle_trans with (103 / 100 * (100 / 99 * t2))%R; [eapply Rle_trans; [exact Hw|]; lra|].
    unfold t2. lra. }
  assert (Hw0 : (0 <= Cmod (w - 1))%R) by apply Cmod_ge_0.
  assert (Wd : cpow w d = / rho) by (apply croot_pow; auto; now apply Cinv_neq0).
  assert (Nw : w <> 0) by apply croot_neq0.
  (* the exact root the computed one is close to, and the phase *)
  assert (Hroot : exists r c, (Cmod (a_root ar d dt - r)%C <= mu)%R /\ cpow r d = / dt /\ r = c * w /\
            Cmod c = 1%R /\ cpow c d * det d P = 1 /\ (det d P = 1 -> c = 1)).
  { destruct (Ceq_dec (det d P) 1) as [E1|N1].
    - assert (Erd : rho = dt) by (transitivity (rho * det d P); [rewrite E1; ring|symmetry; exact EBr]).
      exists w, 1. split; [|split; [now rewrite Wd, Erd|split; [ring|split; [apply Cmod_1|split; auto]]]].
      + unfold w. rewrite Erd. apply (acc_root_1 _ _ _ Hac). rewrite Erd in Hrho1. lra.
      + rewrite cpow_1, E1. ring.
    - destruct (acc_root _ _ _ Hac dt) as (r & Rd & Hr).
      { apply Rabs_le. lra. }
      exists r, (r / w). split; auto. split; auto. split; [field; auto|].
      assert (Cd : cpow (r / w) d = / det d P).
      { rewrite cpow_div by auto. rewrite Rd, Wd, EBr. 
        assert (rho * det d P <> 0) by now apply Cmult_neq_0. field.
        repeat split; auto; intros E; apply RtoC_inj in E; lra. }
      split; [|split; [rewrite Cd; field; auto|contradiction]].
      apply (mod_pow_1 _ d); auto; [apply Cmod_ge_0|].
      rewrite <- Cmod_cpow, Cd, Cmod_inv by auto. rewrite HdP. field. }
  destruct Hroot as (r & c & Hg & Rd & Er & Hcm & Cd & C1).
  set (g := a_root ar d dt) in *.
  assert (Hgc : (Cmod (g - c)%C <= Cmod (w - 1) + mu)%R).
  { eapply Rle_trans; [apply Cmod_minus_tri with (b := r)|].
    replace (r - c) with (c * (w - 1)) by (rewrite Er; ring). rewrite Cmod_mult, Hcm. lra. }
  assert (Hgm : (Cmod g <= 2)%R) by (assert (U := Cmod_upper g c); lra).
  assert (BB : bounded2 d B) by (apply (near_bounded d P B (e + v + z)); auto; lra).
  (* the assertion *)
  assert (Hgram := fro_near_gram d P B (e + v + z) HU HBP).
  assert (Hclose : a_close ar d (a_mul ar d B (adj B)) mid = true).
  { apply (acc_close _ _ _ Hac). intros i j Hi Hj.
    assert (BA : bounded2 d (adj B)) by (intros a b Ha Hb; unfold adj; rewrite Cmod_conj; auto).
    assert (M := acc_mul _ _ _ Hac B (adj B) BB BA i j Hi Hj).
    assert (G : (Cmod (mmul d B (adj B) i j - mid i j)%C <= 2 * (e + v + z) + (e + v + z) * (e + v + z))%R).
    { change (mmul d B (adj B) i j - mid i j) with (mminus (mmul d B (adj B)) mid i j).
      eapply Rle_trans; [apply (fro_entry d); auto|]. exact Hgram. }
    eapply Rle_trans; [apply Cmod_minus_tri with (b := mmul d B (adj B) i j)|].
    assert (e + v + z + mu <= 45 / 10000000000)%R by lra.
    assert (0 <= / 10 ^ 5 * Cmod (mid i j))%R.
    { apply Rmult_le_pos; [left; apply Rinv_0_lt_compat, pow_lt; lra|apply Cmod_ge_0]. }
    replace (10 ^ 8)%R with 100000000%R by ring.
    set (x := (e + v + z)%R) in *. assert (Hx0 : (0 <= x)%R) by (unfold x; lra).
    assert (Hxx : (x * x <= / 1000 * x)%R) by (apply Rmult_le_compat_r; lra). lra. }
  rewrite (r_unitary_ok d A) by auto. fold B. fold dt. fold g.
  eexists. exists c. split; [reflexivity|]. cbn [u_dim u_mat u_name u_params u_inv u_apply].
  split; [reflexivity|].
  repeat (split; [reflexivity|]). split; auto. split; auto. split; auto.
  assert (HSc := within_fro mu d _ _ mu0 (acc_scale _ _ _ Hac g B Hgm BB)). fold D in HSc. fold v in HSc.
  assert (HB : (fro d B <= sd + (e + v + z))%R).
  { assert (T := fro_triangle d (mminus B P) P).
    assert (E : fro d (mplus (mminus B P) P) = fro d B).
    { apply fro_proper. intros i j _ _. unfold mplus, mminus. ring. }
    rewrite E, (fro_unitary d P HU) in T. fold D in T. fold sd in T. lra. }
  assert (HB0 : (0 <= fro d B)%R) by apply fro_nonneg.
  assert (HgB : (fro d (mminus (mscale g B) (mscale c P)) <=
                 e + v + z + (1146 / 100 * v + 1517 / 1000 * q + mu) * (sd + 1 / 1000))%R).
  { assert (E : meq d (mminus (mscale g B) (mscale c P)) (mplus (mscale c (mminus B P)) (mscale (g - c) B))).
    { intros i j _ _. unfold mplus, mminus, mscale. ring. }
    rewrite E. eapply Rle_trans; [apply fro_triangle|]. rewrite !fro_mscale, Hcm.
    apply Rplus_le_compat; [lra|]. apply Rmult_le_compat; auto; try lra. apply Cmod_ge_0. }
  assert (Hmain : (e + v + z + (1146 / 100 * v + 1517 / 1000 * q + mu) * (sd + 1 / 1000) + v
                   <= e + (8 / 5 * (qs + q) + 72 / 5 * (vs + v)))%R).
  { assert (mu * sd <= vs)%R by (unfold vs; apply Rmult_le_compat_r; lra).
    replace ((1146 / 100 * v + 1517 / 1000 * q + mu) * (sd + 1 / 1000))%R
      with (1146 / 100 * vs + 1517 / 1000 * qs + mu * sd + (1146 / 100 * v + 1517 / 1000 * q + mu) / 1000)%R
      by (unfold vs, qs; field).
    lra. }
  split.
  - (* determinant *)
    assert (HScP : special d (mscale c P)).
    { split; [|now rewrite det_mscale].
      unfold unitary_mx. rewrite adj_mscale, mmul_mscale_l, mmul_mscale_r, mscale_mscale.
      rewrite Cmod_one_conj by auto. red in HU. rewrite HU. apply mscale_1. }
    assert (Hdn := det_near d (mscale c P) (mscale g B) (a_scale ar g B)
       (e + (8 / 5 * (qs + q) + 72 / 5 * (vs + v)))%R v HScP).
    specialize (Hdn ltac:(lra) HSc ltac:(fold D; lra) ltac:(fold D; lra)). fold D in Hdn.
    eapply Rle_trans; [apply Cmod_minus_tri with (b := det d (mscale g B))|].
    rewrite det_mscale in *.
    (* g^d det B against 1 *)
    assert (Hrm : (98 / 100 <= Cmod r)%R).
    { rewrite Er, Cmod_mult, Hcm, Rmult_1_l. assert (L := Cmod_lower w 1). rewrite Cmod_1 in L. lra. }
    assert (Nr : r <> 0) by (intros E; rewrite E, Cmod_0 in Hrm; lra).
    set (y := (g - r) / r).
    assert (Hy : (Cmod y <= 103 / 100 * mu)%R).
    { unfold y, Cdiv. rewrite Cmod_mult, Cmod_inv by auto.
      assert (/ Cmod r <= 103 / 100)%R.
      { apply Rle_trans with (/ (98 / 100))%R; [apply Rinv_le_contravar; lra|lra]. }
      assert (0 < / Cmod r)%R by (apply Rinv_0_lt_compat; lra).
      assert (0 <= Cmod (g - r))%R by apply Cmod_ge_0.
      rewrite (Rmult_comm (103 / 100)). apply Rmult_le_compat; lra. }
    assert (Hy0 := Cmod_ge_0 y).
    assert (Hdy : (D * Cmod y <= 103 / 100 * v)%R) by (unfold v; rewrite <- Rmult_assoc, (Rmult_comm (103 / 100)), Rmult_assoc; apply Rmult_le_compat_l; lra).
    assert (Hpy : (Cmod (cpow (1 + y) d - 1)%C <= 106 / 100 * v)%R).
    { eapply Rle_trans; [apply cpow_near|].
      eapply Rle_trans; [apply pow_small; auto; fold D; lra|]. fold D. lra. }
    assert (Egr : cpow g d = / dt * cpow (1 + y) d).
    { replace g with (r * (1 + y)) by (unfold y; field; auto). rewrite cpow_mult_l, Rd. reflexivity. }
    assert (Hratio : (Cmod (/ dt * det d B - 1)%C <= 102 / 100 * mu)%R).
    { replace (/ dt * det d B - 1) with (- ((dt - det d B) * / dt)) by (field; auto).
      rewrite Cmod_opp, Cmod_mult, Cmod_inv by auto.
      assert (/ Cmod dt <= 102 / 100)%R.
      { apply Rle_trans with (/ (99 / 100))%R; [apply Rinv_le_contravar; lra|lra]. }
      assert (0 < / Cmod dt)%R by (apply Rinv_0_lt_compat; lra).
      assert (0 <= Cmod (dt - det d B))%R by apply Cmod_ge_0.
      rewrite (Rmult_comm (102 / 100)). apply Rmult_le_compat; lra. }
    assert (Hone : (Cmod (cpow g d * det d B - 1)%C <= 106 / 100 * v + 104 / 100 * mu)%R).
    { rewrite Egr.
      replace (/ dt * cpow (1 + y) d * det d B - 1)
        with ((cpow (1 + y) d - 1) * (/ dt * det d B - 1) + (cpow (1 + y) d - 1) + (/ dt * det d B - 1)) by ring.
      eapply Rle_trans; [apply Cmod_triangle|].
      assert (T := Cmod_triangle ((cpow (1 + y) d - 1) * (/ dt * det d B - 1)) (cpow (1 + y) d - 1)).
      rewrite Cmod_mult in T.
      assert (K1 := Cmod_ge_0 (cpow (1 + y) d - 1)). assert (K2 := Cmod_ge_0 (/ dt * det d B - 1)).
      assert (Cmod (cpow (1 + y) d - 1)%C * Cmod (/ dt * det d B - 1)%C <= 1 / 100 * (102 / 100 * mu))%R.
      { apply Rmult_le_compat; auto. lra. }
      lra. }
    lra.
  - eapply Rle_trans; [apply fro_minus_triangle with (B := mscale g B)|]. lra.
Qed.

Notation Err := (err eta).
Notation Lim := (lim eta).

(** [p] is within the error of [c] constructor calls of the operator [P]. *)
Definition rnear (n c : nat) (P : mat) (p : unitary) : Prop :=
  u_dim p = (2 ^ n)%nat /\ special (2 ^ n) P /\
  (Cmod (det (2 ^ n) (u_mat p) - 1)%C <= 4 * (INR (2 ^ n) * (INR (2 ^ n) * mu)))%R /\
  (fro (2 ^ n) (mminus (u_mat p) P) <= Err n c)%R.

Lemma rnear_mono n c1 c2 P p : (c1 <= c2)%nat -> rnear n c1 P p -> rnear n c2 P p.
Proof.
  intros H (A & B & C & D). split; auto. split; auto. split; auto.
  eapply Rle_trans; [exact D|]. apply err_mono; auto using eta0.
Qed.
Lemma rnear_meq n c P Q p : meq (2 ^ n) P Q -> rnear n c P p -> rnear n c Q p.
Proof.
  intros E (A & B & C & D). split; auto. split; [now rewrite <- E|]. split; auto. now rewrite <- E.
Qed.

Lemma rlim_mono n c1 c2 : (c1 <= c2)%nat -> Lim n c2 -> Lim n c1.
Proof.
  intros H [L1 L2]. assert (E := err_mono eta eta0 n c1 c2 H). assert (P := pos_INR (2 ^ n)).
  split; [lra|]. eapply Rle_trans; [|exact L2]. now apply Rmult_le_compat_l.
Qed.

Lemma lim_small n c : Lim n (S c) -> (INR (2 ^ n) * (INR (2 ^ n) * mu) <= / 2000)%R.
Proof.
  intros [_ L]. assert (E := err_S eta eta0 n c). assert (E0 := err_pos eta eta0 n c).
  assert (P2 : (1 <= INR (2 ^ n))%R).
  { change 1%R with (INR 1). apply le_INR. assert (K := pow2_pos n). lia. }
  assert (X : (28 * (INR (2 ^ n) * mu) <= xi eta n)%R).
  { unfold xi, kappa0, eta. assert (S1 := sqrt_INR_ge1 (2 ^ n) (pow2_pos n)).
    set (D := INR (2 ^ n)) in *. set (s := sqrt D) in *.
    assert (0 <= D * mu)%R by (apply Rmult_le_pos; lra).
    assert (0 <= D * eps)%R by (apply Rmult_le_pos; lra).
    assert (D * mu <= D * mu * s)%R by nra.
    assert (0 <= D * eps * s)%R by nra.
    replace (8 / 5 * D * (s + 1) * (eps + 9 * mu))%R with
      (8 / 5 * (D * eps * s) + 8 / 5 * (D * eps) + 72 / 5 * (D * mu * s) + 72 / 5 * (D * mu))%R by field.
    lra. }
  set (D := INR (2 ^ n)) in *.
  assert (28 * (D * mu) <= Err n (S c))%R by lra.
  assert (D * (28 * (D * mu)) <= D * Err n (S c))%R by (apply Rmult_le_compat_l; lra).
  lra.
Qed.

Variable N : nat.
Hypothesis Hacc : forall k, (k <= N)%nat -> accurate ar mu (2 ^ k).

Lemma rnear_mk n c P A nm ps iv ap : (n <= N)%nat ->
  special (2 ^ n) P ->
  (Cmod (det (2 ^ n) A - 1)%C <= 10 * (INR (2 ^ n) * (INR (2 ^ n) * mu)))%R ->
  (fro (2 ^ n) (mminus A P) <= Err n c + INR (2 ^ n) * mu)%R ->
  Lim n (S c) ->
  exists p, r_unitary ar eps (2 ^ n) (Some (square (2 ^ n) A)) nm ps iv ap = Ok p /\
    rnear n (S c) P p /\
    u_name p = match nm with Some s => s | None => "U"%string end /\
    u_params p = ps /\ u_inv p = iv /\ u_apply p = ap.
Proof.
  intros Hn HS HD HF [L1 L2]. assert (E := err_S eta eta0 n c). unfold xi in E.
  assert (P2 := pos_INR (2 ^ n)). assert (E0 := err_pos eta eta0 n c).
  destruct (r_norm (2 ^ n) P A (Err n c) nm ps iv ap)
    as (p & k & E1 & E2 & E3 & E4 & E5 & E6 & E7 & E8 & E9 & E10 & E11); auto using pow2_pos; try lra.
  - apply HS.
  - destruct HS as [_ HS]. now rewrite HS.
  - eapply Rle_trans; [apply Rmult_le_compat_l; [auto|exact E]|exact L2].
  - exists p. split; auto. split; auto. split; auto. split; auto. split; auto.
    rewrite (E9 (proj2 HS)) in E11.
    assert (X : fro (2 ^ n) (mminus (u_mat p) P) = fro (2 ^ n) (mminus (u_mat p) (mscale 1 P))).
    { apply fro_proper. intros i j _ _. unfold mminus, mscale. ring. }
    rewrite X. lra.
Qed.

Lemma Dmu_pos n : (0 <= INR (2 ^ n) * mu)%R.
Proof. apply Rmult_le_pos; auto. apply pos_INR. Qed.
Lemma DDmu_pos n : (0 <= INR (2 ^ n) * (INR (2 ^ n) * mu))%R.
Proof. apply Rmult_le_pos; [apply pos_INR|apply Dmu_pos]. Qed.

Lemma rnear_id n nm ps iv ap : (n <= N)%nat -> Lim n 1 ->
  exists p, r_unitary ar eps (2 ^ n) (Some (square (2 ^ n) mid)) nm ps iv ap = Ok p /\
    rnear n 1 mid p.
Proof.
  intros Hn L. destruct (rnear_mk n 0 mid mid nm ps iv ap Hn) as (p & E & Np & _); auto using special_mid.
  - rewrite det_mid. replace (1 - 1) with (RtoC 0) by ring. rewrite Cmod_0. assert (X := DDmu_pos n). lra.
  - rewrite fro_minus_self by reflexivity. rewrite err_0. assert (X := Dmu_pos n). lra.
  - exists p. auto.
Qed.

Lemma rnear_rewrap n c P p nm ps iv ap : (n <= N)%nat -> rnear n c P p -> Lim n (S c) ->
  exists p', r_unitary ar eps (u_dim p) (Some (square (u_dim p) (u_mat p))) nm ps iv ap = Ok p' /\ rnear n (S c) P p'.
Proof.
  intros Hn (D & S & De & F) L. rewrite D. assert (X := DDmu_pos n). assert (Y := Dmu_pos n).
  destruct (rnear_mk n c P (u_mat p) nm ps iv ap Hn) as (p' & E & Np & _); auto; try lra.
  exists p'. auto.
Qed.

Lemma rnear_inverse n c P p : (n <= N)%nat -> rnear n c P p -> Lim n (S c) ->
  exists q, r_inverse ar eps p = Ok q /\ rnear n (S c) (adj P) q.
Proof.
  intros Hn (D & S & De & F) L. unfold r_inverse. rewrite D.
  assert (X := DDmu_pos n). assert (Y := Dmu_pos n).
  destruct (rnear_mk n c (adj P) (adj (u_mat p)) (Some (u_name p)) (u_params p) (negb (u_inv p)) (u_apply p) Hn)
    as (q & E & Np & _); auto.
  - now apply special_adj.
  - rewrite det_adj. replace (Cconj (det (2 ^ n) (u_mat p)) - 1) with (Cconj (det (2 ^ n) (u_mat p) - 1)).
    + rewrite Cmod_conj. lra.
    + rewrite Cconj_minus, Cconj_R. reflexivity.
  - assert (E : meq (2 ^ n) (mminus (adj (u_mat p)) (adj P)) (adj (mminus (u_mat p) P))).
    { intros i j _ _. unfold mminus, adj. now rewrite Cconj_minus. }
    rewrite E, fro_adj. lra.
  - exists q. auto.
Qed.

(** Errors of two determinants multiply out. *)
Lemma det_pair (a b : C) x y : (Cmod (a - 1)%C <= x)%R -> (Cmod (b - 1)%C <= y)%R ->
  (Cmod (a * b - 1)%C <= x + y + x * y)%R.
Proof.
  intros Ha Hb. replace (a * b - 1) with ((a - 1) * (b - 1) + (a - 1) + (b - 1)) by ring.
  eapply Rle_trans; [apply Cmod_triangle|].
  assert (T := Cmod_triangle ((a - 1) * (b - 1)) (a - 1)). rewrite Cmod_mult in T.
  assert (Cmod (a - 1)%C * Cmod (b - 1)%C <= x * y)%R by (apply Rmult_le_compat; auto; apply Cmod_ge_0).
  lra.
Qed.

Lemma lim_le1 n c : Lim n (S c) -> (Err n c <= / 2)%R /\ (INR (2 ^ n) * Err n c <= / 100)%R /\
  (INR (2 ^ n) * mu <= / 2)%R.
Proof.
  intros L. assert (L' := rlim_mono n c (S c) ltac:(lia) L). destruct L' as [L1 L2].
  replace (10 ^ 10)%R with 10000000000%R in L1 by ring. split; [lra|]. split; auto.
  assert (W := lim_small n c L). assert (Y := Dmu_pos n).
  assert (P2 : (1 <= INR (2 ^ n))%R).
  { change 1%R with (INR 1). apply le_INR. assert (K := pow2_pos n). lia. }
  assert (1 * (INR (2 ^ n) * mu) <= INR (2 ^ n) * (INR (2 ^ n) * mu))%R by (apply Rmult_le_compat_r; auto). lra.
Qed.

(** A rounded operation whose exact counterpart is near [P]. *)
Lemma rnear_op n c P A A0 nm ps iv ap : (n <= N)%nat ->
  special (2 ^ n) P -> within mu (2 ^ n) A A0 ->
  (Cmod (det (2 ^ n) A0 - 1)%C <= 83 / 10 * (INR (2 ^ n) * (INR (2 ^ n) * mu)))%R ->
  (fro (2 ^ n) (mminus A0 P) <= Err n c)%R ->
  Lim n (S c) ->
  exists p, r_unitary ar eps (2 ^ n) (Some (square (2 ^ n) A)) nm ps iv ap = Ok p /\
    rnear n (S c) P p /\
    u_name p = match nm with Some s => s | None => "U"%string end /\
    u_params p = ps /\ u_inv p = iv /\ u_apply p = ap.
Proof.
  intros Hn HS HW HD HF L. assert (HF' := within_fro mu _ _ _ mu0 HW).
  destruct (lim_le1 n c L) as (L1 & L2 & L3). assert (W := lim_small n c L).
  apply rnear_mk; auto.
  - eapply Rle_trans; [apply Cmod_minus_tri with (b := det (2 ^ n) A0)|].
    assert (X := DDmu_pos n).
    assert (K := det_near (2 ^ n) P A0 A (Err n c) (INR (2 ^ n) * mu) HS HF HF' L2 ltac:(lra)). lra.
  - eapply Rle_trans; [apply fro_minus_triangle with (B := A0)|]. lra.
Qed.

Lemma rnear_mul n c1 c2 P1 P2 p1 p2 nm ps iv ap : (n <= N)%nat ->
  rnear n c1 P1 p1 -> rnear n c2 P2 p2 -> Lim n (S (c1 + c2)) ->
  exists p, r_unitary ar eps (2 ^ n) (Some (square (2 ^ n) (a_mul ar (2 ^ n) (u_mat p1) (u_mat p2)))) nm ps iv ap = Ok p /\
    rnear n (S (c1 + c2)) (mmul (2 ^ n) P1 P2) p.
Proof.
  intros Hn (D1 & S1 & De1 & F1) (D2 & S2 & De2 & F2) L.
  destruct (lim_le1 n _ L) as (L1 & L2 & L3). assert (W := lim_small n _ L).
  assert (M1 := err_mono eta eta0 n c1 (c1 + c2) ltac:(lia)).
  assert (M2 := err_mono eta eta0 n c2 (c1 + c2) ltac:(lia)).
  destruct (rnear_op n (c1 + c2) (mmul (2 ^ n) P1 P2) (a_mul ar (2 ^ n) (u_mat p1) (u_mat p2))
    (mmul (2 ^ n) (u_mat p1) (u_mat p2)) nm ps iv ap Hn) as (p & E & Np & _); auto.
  - now apply special_mmul.
  - apply (acc_mul _ _ _ (Hacc n Hn)).
    + apply (near_bounded _ P1 _ (Err n c1)); auto; [apply S1|lra].
    + apply (near_bounded _ P2 _ (Err n c2)); auto; [apply S2|lra].
  - rewrite det_mmul. eapply Rle_trans; [apply det_pair; eauto|]. assert (X := DDmu_pos n).
    set (V := (INR (2 ^ n) * (INR (2 ^ n) * mu))%R) in *.
    assert (V * V <= / 2000 * V)%R by (apply Rmult_le_compat_r; auto). lra.
  - rewrite err_add. apply fro_product; auto; [apply S1|apply S2].
  - exists p. auto.
Qed.

Lemma rnear_left n c1 c2 P F p f : (n <= N)%nat ->
  rnear n c1 P p -> rnear n c2 F f -> Lim n (S (c1 + c2)) ->
  exists q, r_left_multiply ar eps p f = Ok q /\ rnear n (S (c1 + c2)) (mmul (2 ^ n) F P) q.
Proof.
  intros Hn Hp Hf L. unfold r_left_multiply. assert (D1 := proj1 Hp). assert (D2 := proj1 Hf).
  rewrite D1, D2, Nat.eqb_refl. unfold assert. cbn [bind].
  rewrite Nat.add_comm in *. now apply rnear_mul.
Qed.
Lemma rnear_right n c1 c2 P F p f : (n <= N)%nat ->
  rnear n c1 P p -> rnear n c2 F f -> Lim n (S (c1 + c2)) ->
  exists q, r_right_multiply ar eps p f = Ok q /\ rnear n (S (c1 + c2)) (mmul (2 ^ n) P F) q.
Proof.
  intros Hn Hp Hf L. unfold r_right_multiply. assert (D1 := proj1 Hp). assert (D2 := proj1 Hf).
  rewrite D1, D2, Nat.eqb_refl. unfold assert. cbn [bind]. now apply rnear_mul.
Qed.

(** ** Gates *)
Lemma r_unitary_dim d a nm ps iv ap u :
  r_unitary ar eps d a nm ps iv ap = Ok u -> u_dim u = d /\ (0 < d)%nat.
Proof.
  unfold r_unitary. destruct (Nat.ltb 0 d) eqn:Hd; [|discriminate]. unfold assert at 1. cbn [bind].
  destruct (assert _); cbn [bind]; [|discriminate]. destruct (assert _); cbn [bind]; [|discriminate].
  destruct (Ceq_dec _ _); [discriminate|]. intros E. injection E as <-. cbn [u_dim].
  apply Nat.ltb_lt in Hd. auto.
Qed.

Lemma rtame n d : (d <= 2 ^ n)%nat -> Lim n 2 ->
  (2 * (kappa0 d * eta) <= 45 / 10 ^ 10)%R /\ (INR d * (2 * (kappa0 d * eta)) <= / 100)%R.
Proof.
  intros Hd [L1 L2].
  assert (E2 := err_2 eta eta0 n). unfold xi in *. assert (Z := eta0).
  assert (K := kappa0_mono d (2 ^ n) Hd). assert (K0 := kappa0_pos d).
  apply le_INR in Hd. assert (D0 := pos_INR d).
  assert (M : (kappa0 d * eta <= kappa0 (2 ^ n) * eta)%R) by (apply Rmult_le_compat_r; auto).
  assert (0 <= kappa0 d * eta)%R by now apply Rmult_le_pos.
  split; [lra|]. eapply Rle_trans; [|exact L2]. apply Rmult_le_compat; auto; lra.
Qed.

(** [G] is the exact operator of gate [u]. *)
Definition rideal (u : unitary) (G : mat) : Prop :=
  special (u_dim u) G /\
  (Cmod (det (u_dim u) (u_mat u) - 1)%C <= 4 * (INR (u_dim u) * (INR (u_dim u) * mu)))%R /\
  (fro (u_dim u) (mminus (u_mat u) G) <= 2 * (kappa0 (u_dim u) * eta))%R.

Lemma r_from_ideal u k n : r_from ar eps mu u -> u_dim u = (2 ^ k)%nat -> (k <= n)%nat -> (k <= N)%nat -> Lim n 2 ->
  exists G, special (u_dim u) G /\
  (Cmod (det (u_dim u) (u_mat u) - 1)%C <= 4 * (INR (u_dim u) * (INR (u_dim u) * mu)))%R /\
  (fro (u_dim u) (mminus (u_mat u) G) <= kappa0 (u_dim u) * eta)%R.
Proof.
  intros (d & A & M & nm & ps & iv & ap & HU & HW & E) Hk Hkn HkN L.
  destruct (r_unitary_dim _ _ _ _ _ _ _ E) as [D Hd]. rewrite D in Hk. subst d.
  destruct (rtame n (2 ^ k)) as [T1 T2]; auto; [apply Nat.pow_le_mono_r; lia|].
  assert (K0 := kappa0_pos (2 ^ k)). assert (Z := eta0).
  assert (Ke : (0 <= kappa0 (2 ^ k) * eta)%R) by now apply Rmult_le_pos.
  assert (HF := within_fro mu _ _ _ mu0 HW). assert (D0 := pos_INR (2 ^ k)).
  assert (Lk : (INR (2 ^ k) * (INR (2 ^ k) * mu) <= / 100)%R).
  { assert (X := pow2_pos k). assert (S1 := sqrt_INR_ge1 (2 ^ k) X).
    assert (INR (2 ^ k) * mu <= kappa0 (2 ^ k) * eta)%R.
    { unfold kappa0, eta. set (D2 := INR (2 ^ k)) in *.
      apply Rle_trans with (8 / 5 * D2 * (1 + 1) * (9 * mu))%R.
      - assert (0 <= D2 * mu)%R by now apply Rmult_le_pos. lra.
      - apply Rmult_le_compat; try lra. apply Rmult_le_compat; try lra. }
    eapply Rle_trans; [apply Rmult_le_compat_l; [exact D0|exact H]|]. lra. }
  assert (Dk : (INR (2 ^ k) * (kappa0 (2 ^ k) * eta) <= / 100)%R).
  { assert (0 <= INR (2 ^ k) * (kappa0 (2 ^ k) * eta))%R by now apply Rmult_le_pos. lra. }
  destruct (r_norm (2 ^ k) M A 0 nm ps iv ap)
    as (p & c & E1 & E2 & _ & _ & _ & _ & E7 & E8 & _ & E10 & E11); auto using pow2_pos; try lra.
  - assert (K := det_near_unitary (2 ^ k) M M A 0 (INR (2 ^ k) * mu) (pow2_pos k) HU).
    rewrite fro_minus_self in K by reflexivity.
    assert (X := DDmu_pos k).
    specialize (K ltac:(lra) HF ltac:(rewrite Rmult_0_r; lra) Lk). lra.
  - rewrite E in E1. injection E1 as <-. rewrite D. exists (mscale c M). split; [|split; auto; lra].
    split.
    + unfold unitary_mx. rewrite adj_mscale, mmul_mscale_l, mmul_mscale_r, mscale_mscale.
      rewrite Cmod_one_conj by auto. red in HU. rewrite HU. apply mscale_1.
    + now rewrite det_mscale.
Qed.

Lemma r_gate_ideal u k n : r_gate ar eps mu u -> u_dim u = (2 ^ k)%nat -> (k <= n)%nat -> (k <= N)%nat -> Lim n 2 ->
  exists G, rideal u G.
Proof.
  intros H Hk Hkn HkN L. assert (Z := eta0).
  assert (Ke : forall d, (0 <= kappa0 d * eta)%R) by (intros; apply Rmult_le_pos; auto; apply kappa0_pos).
  destruct H as [H|(v & nm & ps & iv & ap & Hv & E)].
  - destruct (r_from_ideal u k n H Hk Hkn HkN L) as (G & A & B & C). exists G. split; auto. split; auto.
    specialize (Ke (u_dim u)). lra.
  - assert (Dv : u_dim v = (2 ^ k)%nat).
    { destruct E as [E|E]; apply r_unitary_dim in E; destruct E as [E _]; now rewrite <- E. }
    destruct (r_from_ideal v k n Hv Dv Hkn HkN L) as (G & A & B & C).
    destruct (rtame n (2 ^ k)) as [T1 T2]; auto; [apply Nat.pow_le_mono_r; lia|].
    rewrite Dv in *. specialize (Ke (2 ^ k)%nat). assert (X := DDmu_pos k). assert (Y := Dmu_pos k).
    assert (Go : forall (Q P : mat), special (2 ^ k) P ->
      (Cmod (det (2 ^ k) Q - 1)%C <= 4 * (INR (2 ^ k) * (INR (2 ^ k) * mu)))%R ->
      (fro (2 ^ k) (mminus Q P) <= kappa0 (2 ^ k) * eta)%R ->
      r_unitary ar eps (2 ^ k) (Some (square (2 ^ k) Q)) nm ps iv ap = Ok u -> exists G, rideal u G).
    { intros Q P SP HQ HF EQ.
      destruct (r_norm (2 ^ k) P Q (kappa0 (2 ^ k) * eta) nm ps iv ap)
        as (p & c & E1 & E2 & _ & _ & _ & _ & E7 & E8 & E9 & E10 & E11); auto using pow2_pos; try lra.
      - apply SP.
      - rewrite (proj2 SP). lra.
      - rewrite EQ in E1. injection E1 as <-. exists P. unfold rideal. rewrite Hk.
        rewrite (E9 (proj2 SP)) in E11.
        assert (K : fro (2 ^ k) (mminus (u_mat u) P) = fro (2 ^ k) (mminus (u_mat u) (mscale 1 P))).
        { apply fro_proper. intros i j _ _. unfold mminus, mscale. ring. }
        rewrite K. split; auto. split; auto. lra. }
    destruct E as [E|E]; rewrite ?Dv in E.
    + apply (Go (u_mat v) G); auto.
    + apply (Go (adj (u_mat v)) (adj G)); auto.
      * now apply special_adj.
      * rewrite det_adj. replace (Cconj (det (2 ^ k) (u_mat v)) - 1) with (Cconj (det (2 ^ k) (u_mat v) - 1)).
        -- now rewrite Cmod_conj.
        -- rewrite Cconj_minus, Cconj_R. reflexivity.
      * assert (Ea : meq (2 ^ k) (mminus (adj (u_mat v)) (adj G)) (adj (mminus (u_mat v) G))).
        { intros i j _ _. unfold mminus, adj. now rewrite Cconj_minus. }
        rewrite Ea, fro_adj. auto.
Qed.

Lemma fro_kron a k A B : (0 < k)%nat -> fro (a * k) (kron k A B) = (fro a A * fro k B)%R.
Proof.
  intros Hk. unfold fro. rewrite <- sqrt_mult by apply fro2_nonneg. f_equal.
  apply RtoC_inj. rewrite RtoC_mult, !fro2_trace.
  assert (E : meq (a * k) (mmul (a * k) (kron k A B) (adj (kron k A B))) (kron k (mmul a A (adj A)) (mmul k B (adj B)))).
  { rewrite kron_adj. now rewrite kron_mmul by auto. }
  rewrite E. now rewrite mtrace_kron by auto.
Qed.

Lemma cpow_err (a : C) x k : (Cmod (a - 1)%C <= x)%R -> (INR k * x <= / 100)%R ->
  (Cmod (cpow a k - 1)%C <= 102 / 100 * (INR k * x))%R.
Proof.
  intros Ha Hk. replace a with (1 + (a - 1)) by ring. eapply Rle_trans; [apply cpow_near|].
  assert (K := Cmod_ge_0 (a - 1)). assert (0 <= INR k)%R by apply pos_INR.
  assert (INR k * Cmod (a - 1)%C <= INR k * x)%R by now apply Rmult_le_compat_l.
  eapply Rle_trans; [apply pow_small; auto; lra|]. lra.
Qed.

Lemma rfull_near n g G : (n <= N)%nat ->
  rideal (fst g) G -> placement n (snd g) -> (2 ^ List.length (snd g))%nat = u_dim (fst g) -> Lim n 5 ->
  exists f, r_full ar eps g (2 ^ n) = Ok f /\ rnear n 5 (embed n (snd g) G) f.
Proof.
  intros Hn (Hs & Hdet & HF) Hp Hd L. unfold r_full.
  set (qs := snd g) in *. set (u := fst g) in *.
  assert (Hlen := placement_length n qs Hp).
  assert (Hle : Nat.leb (u_dim u) (2 ^ n) = true).
  { apply Nat.leb_le. rewrite <- Hd. apply Nat.pow_le_mono_r; lia. }
  rewrite Hle. unfold assert at 1. cbn [bind].
  assert (Eb : (2 ^ n / u_dim u = 2 ^ (n - List.length qs))%nat).
  { rewrite <- Hd, <- (dim_split n qs Hp), Nat.mul_comm. apply Nat.div_mul.
    apply Nat.pow_nonzero. lia. }
  rewrite Eb. set (k := (n - List.length qs)%nat) in *. set (l := List.length qs) in *.
  assert (Edim : (2 ^ l * 2 ^ k = 2 ^ n)%nat) by now apply dim_split.
  assert (P1 := pow2_pos l). assert (P2 := pow2_pos k).
  destruct (rtame n (2 ^ k)) as [T1 T2]; [apply Nat.pow_le_mono_r; lia|apply (rlim_mono n 2 5); auto|].
  assert (Z := eta0).
  assert (Ke : forall d, (0 <= kappa0 d * eta)%R) by (intros; apply Rmult_le_pos; auto; apply kappa0_pos).
  assert (D0 := pos_INR (2 ^ k)).
  assert (Lk : Lim k 1).
  { unfold lim, err, xi. rewrite pow_1. specialize (Ke (2 ^ k)%nat).
    assert (0 <= INR (2 ^ k) * (kappa0 (2 ^ k) * eta))%R by now apply Rmult_le_pos.
    replace (1 + kappa0 (2 ^ k) * eta - 1)%R with (kappa0 (2 ^ k) * eta)%R by ring. split; lra. }
  destruct (rnear_id k (Some "I"%string) [] false [] ltac:(lia) Lk) as (i & Ei & (Di & Si & Dei & Fi)).
  unfold r_identity at 1. rewrite Ei. cbn [bind]. unfold r_tensor. rewrite Di, <- Hd.
  rewrite (Nat.mul_comm (2 ^ k)). fold l. rewrite Edim.
  rewrite <- Hd in Hs, Hdet, HF. fold l in Hs, Hdet, HF.
  assert (HsK : special (2 ^ n) (kron (2 ^ k) G mid)).
  { rewrite <- Edim. apply special_kron; auto using pow2_pos, special_mid. }
  assert (W := lim_small n 4 L). destruct (lim_le1 n 4 L) as (LE1 & LE2 & LE3).
  assert (X := DDmu_pos n).
  assert (A1 : (1 <= INR (2 ^ l))%R) by (change 1%R with (INR 1); apply le_INR; lia).
  assert (A2 : (1 <= INR (2 ^ k))%R) by (change 1%R with (INR 1); apply le_INR; lia).
  assert (AD : INR (2 ^ n) = (INR (2 ^ l) * INR (2 ^ k))%R) by (rewrite <- Edim; apply mult_INR).
  assert (Xn := xi_pos eta eta0 n).
  (* errors of the factors, carried to the large dimension *)
  assert (G1 : (sqrt (INR (2 ^ k)) * fro (2 ^ l) (mminus (u_mat u) G) <= 2 * xi eta n)%R).
  { eapply Rle_trans; [apply Rmult_le_compat_l; [apply sqrt_pos|exact HF]|].
    unfold xi. rewrite <- Edim.
    rewrite (Rmult_comm (sqrt _)), Rmult_assoc. apply Rmult_le_compat_l; [lra|].
    rewrite (Rmult_comm _ (sqrt _)), <- Rmult_assoc.
    apply Rmult_le_compat_r; auto. apply kappa0_kron; auto. }
  assert (E1 : Err k 1 = (kappa0 (2 ^ k) * eta)%R) by (unfold err, xi; rewrite pow_1; ring).
  rewrite E1 in Fi.
  assert (G2 : (sqrt (INR (2 ^ l)) * fro (2 ^ k) (mminus (u_mat i) mid) <= xi eta n)%R).
  { eapply Rle_trans; [apply Rmult_le_compat_l; [apply sqrt_pos|exact Fi]|].
    unfold xi. rewrite <- Edim, <- Rmult_assoc, (Nat.mul_comm (2 ^ l)).
    apply Rmult_le_compat_r; auto. apply kappa0_kron; auto. }
  assert (S1 := sqrt_INR_ge1 _ P1). assert (S2 := sqrt_INR_ge1 _ P2).
  assert (F1 := fro_nonneg (2 ^ l) (mminus (u_mat u) G)).
  assert (F2 := fro_nonneg (2 ^ k) (mminus (u_mat i) mid)).
  assert (G1' : (fro (2 ^ l) (mminus (u_mat u) G) <= 2 * xi eta n)%R).
  { eapply Rle_trans; [|exact G1]. rewrite <- (Rmult_1_l (fro _ _)) at 1. now apply Rmult_le_compat_r. }
  assert (G2' : (fro (2 ^ k) (mminus (u_mat i) mid) <= xi eta n)%R).
  { eapply Rle_trans; [|exact G2]. rewrite <- (Rmult_1_l (fro _ _)) at 1. now apply Rmult_le_compat_r. }
  assert (Xs : (xi eta n <= / 2)%R).
  { assert (M := err_S eta eta0 n 0). assert (M' := err_mono eta eta0 n 1 4 ltac:(lia)). rewrite err_0 in M. lra. }
  assert (BU : bounded2 (2 ^ l) (u_mat u)).
  { apply (near_bounded _ G _ (2 * xi eta n)); auto; [apply Hs|lra]. }
  assert (BI : bounded2 (2 ^ k) (u_mat i)).
  { apply (near_bounded _ mid _ (xi eta n)); auto; [apply unitary_mid|lra]. }
  destruct (rnear_op n 3 (kron (2 ^ k) G mid) (a_kron ar (2 ^ k) (u_mat u) (u_mat i))
     (kron (2 ^ k) (u_mat u) (u_mat i))
     (Some (u_name u ++ "--" ++ u_name i)%string) (u_params u) false (u_apply u) Hn)
    as (p & Ep & (Dp & _ & Dep & Fp) & _); auto.
  { apply (acc_kron _ _ _ (Hacc n Hn) (2 ^ l)); auto. }
  { rewrite <- Edim, det_kron by auto. rewrite Edim.
    set (a := INR (2 ^ l)) in *. set (b := INR (2 ^ k)) in *. rewrite AD in *.
    set (V := (a * b * (a * b * mu))%R) in *.
    assert (M1 : (b * (4 * (a * (a * mu))) <= 4 * V)%R).
    { unfold V. assert (0 <= a * (a * mu))%R by (apply Rmult_le_pos; [lra|apply Rmult_le_pos; lra]).
      replace (a * b * (a * b * mu))%R with (b * (b * (a * (a * mu))))%R by ring.
      assert (0 <= b * (a * (a * mu)))%R by (apply Rmult_le_pos; lra). nra. }
    assert (M2 : (a * (4 * (b * (b * mu))) <= 4 * V)%R).
    { unfold V. assert (0 <= b * (b * mu))%R by (apply Rmult_le_pos; [lra|apply Rmult_le_pos; lra]).
      replace (a * b * (a * b * mu))%R with (a * (a * (b * (b * mu))))%R by ring.
      assert (0 <= a * (b * (b * mu)))%R by (apply Rmult_le_pos; lra). nra. }
    assert (C1 := cpow_err (det (2 ^ l) (u_mat u)) _ (2 ^ k) Hdet). fold b in C1.
    assert (C2 := cpow_err (det (2 ^ k) (u_mat i)) _ (2 ^ l) Dei). fold a in C2.
    specialize (C1 ltac:(lra)). specialize (C2 ltac:(lra)).
    eapply Rle_trans; [apply det_pair; [exact C1|exact C2]|].
    set (m1 := (102 / 100 * (b * (4 * (a * (a * mu)))))%R) in *.
    set (m2 := (102 / 100 * (a * (4 * (b * (b * mu)))))%R) in *.
    assert (K1 := Cmod_ge_0 (cpow (det (2 ^ l) (u_mat u)) (2 ^ k) - 1)).
    assert (K2 := Cmod_ge_0 (cpow (det (2 ^ k) (u_mat i)) (2 ^ l) - 1)).
    assert (m1 <= 408 / 100 * V)%R by (unfold m1; lra). assert (m2 <= 408 / 100 * V)%R by (unfold m2; lra).
    assert (m1 * m2 <= (1 / 100) * m2)%R by (apply Rmult_le_compat_r; lra). lra. }
  { assert (E : meq (2 ^ n) (mminus (kron (2 ^ k) (u_mat u) (u_mat i)) (kron (2 ^ k) G mid))
      (mplus (kron (2 ^ k) (mminus (u_mat u) G) mid) (mplus (kron (2 ^ k) G (mminus (u_mat i) mid))
        (kron (2 ^ k) (mminus (u_mat u) G) (mminus (u_mat i) mid)))))
      by (intros a b _ _; unfold mminus, mplus, kron; ring).
    rewrite E. eapply Rle_trans; [apply fro_triangle|].
    assert (T := fro_triangle (2 ^ n) (kron (2 ^ k) G (mminus (u_mat i) mid))
        (kron (2 ^ k) (mminus (u_mat u) G) (mminus (u_mat i) mid))).
    assert (FK : forall Y1 Y2, fro (2 ^ n) (kron (2 ^ k) Y1 Y2) = (fro (2 ^ l) Y1 * fro (2 ^ k) Y2)%R)
      by (intros; rewrite <- Edim; now apply fro_kron).
    rewrite !FK in T. rewrite FK.
    rewrite (fro_unitary _ G) in T by apply Hs. rewrite (fro_unitary _ mid) by apply unitary_mid.
    assert (fro (2 ^ l) (mminus (u_mat u) G) * fro (2 ^ k) (mminus (u_mat i) mid) <= 2 * xi eta n * xi eta n)%R
      by (apply Rmult_le_compat; auto).
    assert (E3 : Err n 3 = (3 * xi eta n + 3 * (xi eta n * xi eta n) + xi eta n * xi eta n * xi eta n)%R)
      by (unfold err; ring).
    assert (0 <= xi eta n * xi eta n)%R by now apply Rmult_le_pos.
    assert (0 <= xi eta n * xi eta n * xi eta n)%R by now apply Rmult_le_pos.
    rewrite E3. rewrite (Rmult_comm (fro _ _) (sqrt _)). lra. }
  { apply (rlim_mono n 4 5); auto. }
  rewrite Ep. cbn [bind]. rewrite Dp, Nat.eqb_refl. unfold assert at 1. cbn [bind].
  rewrite get_permute_matrix_ok; [|exact Hp|exact Hd]. cbn [bind e_apply].
  assert (Hlt : forall a, (a < 2 ^ n)%nat -> (pind n qs a < 2 ^ n)%nat) by (intros; now apply pind_lt).
  assert (Hinj : forall a b, (a < 2 ^ n)%nat -> (b < 2 ^ n)%nat -> pind n qs a = pind n qs b -> a = b)
    by (intros; eapply pind_inj; eauto).
  assert (EC := sel_mx_conj (2 ^ n) (pind n qs) (u_mat p) Hlt).
  assert (Y := Dmu_pos n).
  destruct (rnear_mk n 4 (embed n qs G)
    (mmul (2 ^ n) (mmul (2 ^ n) (sel_mx (pind n qs)) (u_mat p)) (transpose (sel_mx (pind n qs))))
    (Some (u_name u)) (u_params u) false qs Hn) as (f & Ef & Nf & R); auto.
  - now apply embed_special.
  - rewrite (@det_ext _ _ _ EC). rewrite det_reindex by auto. lra.
  - rewrite EC.
    assert (E : meq (2 ^ n) (mminus (fun a b => u_mat p (pind n qs a) (pind n qs b)) (embed n qs G))
      (fun a b => mminus (u_mat p) (kron (2 ^ k) G mid) (pind n qs a) (pind n qs b))).
    { intros a b Ha Hb. unfold mminus. f_equal. f_equal. symmetry. now apply embed_pind. }
    rewrite E. rewrite fro_reindex by auto. lra.
  - exists f. auto.
Qed.

(** ** Sequences *)
Definition ridl (n : nat) (g h : unitary * list nat) : Prop :=
  snd h = snd g /\ u_dim (fst h) = u_dim (fst g) /\ rideal (fst g) (u_mat (fst h)) /\
  placement n (snd g) /\ (2 ^ List.length (snd g))%nat = u_dim (fst g).

Lemma rcontrib n g h : (n <= N)%nat -> ridl n g h -> Lim n 6 ->
  exists f i, r_full ar eps g (2 ^ n) = Ok f /\ r_inverse ar eps f = Ok i /\
    rnear n 5 (embed n (snd h) (u_mat (fst h))) f /\ rnear n 6 (adj (embed n (snd h) (u_mat (fst h)))) i.
Proof.
  intros Hn (H1 & H2 & H3 & H4 & H5) L. rewrite H1.
  destruct (rfull_near n g (u_mat (fst h)) Hn H3 H4 H5) as (f & Ef & Nf); [apply (rlim_mono n 5 6); auto|].
  destruct (rnear_inverse n 5 _ f Hn Nf L) as (i & Ei & Ni). exists f, i. auto.
Qed.

Lemma ridl_unitary n g h : ridl n g h -> unitary_mx (2 ^ n) (embed n (snd h) (u_mat (fst h))).
Proof.
  intros (H1 & H2 & H3 & H4 & H5). rewrite H1. refine (proj1 (embed_special n _ H4 _ _)). rewrite H5. apply H3.
Qed.
Lemma ridl_ordered n es hs : Forall2 (ridl n) es hs -> unitary_mx (2 ^ n) (ordered n hs).
Proof.
  induction 1 as [|g h es hs H HF IH]; [apply unitary_mid|].
  rewrite ordered_cons. apply unitary_mmul; auto. now apply ridl_unitary with (g := g).
Qed.

Lemma rfold_near n es hs : (n <= N)%nat -> Forall2 (ridl n) es hs -> forall c P p,
  rnear n c P p -> Lim n 6 -> Lim n (c + 6 * List.length es) ->
  exists p', r_fold ar eps (2 ^ n) es p = Ok p' /\
    rnear n (c + 6 * List.length es) (mmul (2 ^ n) (ordered n hs) P) p'.
Proof.
  intros Hn. induction 1 as [|g h es hs H HF IH]; intros c P p Np L6 L; cbn [r_fold List.length] in *.
  - exists p. split; auto. rewrite Nat.mul_0_r, Nat.add_0_r. apply rnear_meq with (P := P); auto.
    rewrite ordered_nil. symmetry. apply mmul_1_l.
  - destruct (rcontrib n g h Hn H L6) as (f & _ & Ef & _ & Nf & _). rewrite Ef. cbn [bind].
    destruct (rnear_left n c 5 P _ p f Hn Np Nf) as (q & Eq & Nq).
    { eapply rlim_mono; [|exact L]. lia. }
    rewrite Eq. cbn [bind].
    destruct (IH _ _ _ Nq L6) as (p' & Ep & Np').
    { eapply rlim_mono; [|exact L]. lia. }
    exists p'. split; auto.
    apply rnear_mono with (c1 := (S (c + 5) + 6 * List.length es)%nat); [lia|].
    eapply rnear_meq; [|exact Np']. rewrite ordered_cons. apply mmul_assoc.
Qed.

Lemma ridl_near n g h : ridl n g h ->
  (fro (2 ^ n) (mminus (embed n (snd g) (u_mat (fst g))) (embed n (snd h) (u_mat (fst h)))) <= Err n 2)%R.
Proof.
  intros (H1 & H2 & (Hs & _ & HF) & Hp & Hd). rewrite H1.
  set (qs := snd g) in *. set (u := fst g) in *. set (G := u_mat (fst h)) in *.
  set (k := (n - List.length qs)%nat).
  assert (Edim : (2 ^ List.length qs * 2 ^ k = 2 ^ n)%nat) by now apply dim_split.
  assert (E : meq (2 ^ n) (mminus (embed n qs (u_mat u)) (embed n qs G))
    (fun a b => kron (2 ^ k) (mminus (u_mat u) G) mid (pind n qs a) (pind n qs b))).
  { intros a b Ha Hb. unfold mminus. rewrite <- (embed_pind n qs) by auto. rewrite <- (embed_pind n qs) by auto.
    fold k. unfold kron. ring. }
  rewrite E. rewrite fro_reindex.
  - rewrite <- Edim, fro_kron_id by auto using pow2_pos. rewrite Hd.
    eapply Rle_trans; [apply Rmult_le_compat_l; [apply sqrt_pos|exact HF]|].
    eapply Rle_trans; [|apply err_2, eta0]. unfold xi. rewrite <- Edim, <- Hd.
    rewrite (Rmult_comm (sqrt _)), Rmult_assoc. apply Rmult_le_compat_l; [lra|].
    rewrite (Rmult_comm _ (sqrt _)), <- Rmult_assoc.
    apply Rmult_le_compat_r; [apply eta0|]. apply kappa0_kron; auto using pow2_pos.
  - intros; now apply pind_lt.
  - intros; eapply pind_inj; eauto.
Qed.

Lemma rordered_near n es hs : Forall2 (ridl n) es hs ->
  (fro (2 ^ n) (mminus (ordered n es) (ordered n hs)) <= Err n (2 * List.length es))%R.
Proof.
  induction 1 as [|g h es hs H HF IH]; cbn [List.length].
  - rewrite Nat.mul_0_r, fro_minus_self by reflexivity. rewrite err_0. lra.
  - rewrite !ordered_cons.
    replace (2 * S (List.length es))%nat with (2 * List.length es + 2)%nat by lia. rewrite err_add.
    apply fro_product; auto.
    + now apply ridl_ordered with (es := es).
    + now apply ridl_unitary with (g := g).
    + now apply ridl_near.
Qed.

(** The state of a sequence after at most [K] method calls. *)
Definition rprod_ok (n K : nat) (es : list (unitary * list nat)) (o : option unitary) : Prop :=
  (List.length es <= K)%nat /\
  exists hs, Forall2 (ridl n) es hs /\
    match o with Some p => rnear n (1 + 7 * K) (ordered n hs) p | None => True end.
Definition rinv (n K : nat) (q : rseq) (es : list (unitary * list nat))
    (pv : option (list (unitary * list nat))) : Prop :=
  rs_dim q = (2 ^ n)%nat /\ rs_entries q = es /\ rs_prev q = pv /\
  rprod_ok n K es (rs_product q) /\
  (rs_product q = None -> rs_prev_product q = None) /\
  match pv with Some es' => rprod_ok n K es' (rs_prev_product q) | None => rs_prev_product q = None end.

Lemma rprod_mono n K1 K2 es o : (K1 <= K2)%nat -> rprod_ok n K1 es o -> rprod_ok n K2 es o.
Proof.
  intros H (A & hs & B & C). split; [lia|]. exists hs. split; auto. destruct o; auto.
  eapply rnear_mono; [|exact C]. lia.
Qed.
Lemma rinv_mono n K1 K2 q es pv : (K1 <= K2)%nat -> rinv n K1 q es pv -> rinv n K2 q es pv.
Proof.
  intros H (A & B & C & D & E & F). repeat (split; [assumption|]).
  split; [eapply rprod_mono; eauto|]. split; auto. destruct pv; auto. eapply rprod_mono; eauto.
Qed.

Lemma rsave_ok n K s q es pv : (n <= N)%nat -> rinv n K q es pv -> Lim n (1 + 7 * S K) ->
  exists q1, r_save ar eps s q = Ok q1 /\ rs_product q1 = rs_product q /\
    rs_dim q1 = (2 ^ n)%nat /\ rs_entries q1 = es /\ rs_prev q1 = (if s then Some es else pv) /\
    (rs_product q1 = None -> rs_prev_product q1 = None) /\
    match (if s then Some es else pv) with
    | Some es' => rprod_ok n (S K) es' (rs_prev_product q1) | None => rs_prev_product q1 = None end.
Proof.
  intros Hn (A & B & C & (DL & hs & DF & D) & E & F) L. unfold r_save. destruct s.
  - destruct (rs_product q) as [p|] eqn:EP.
    + destruct (rnear_rewrap n (1 + 7 * K) _ p None [] false [] Hn D) as (p' & Ep & Np).
      { eapply rlim_mono; [|exact L]. lia. }
      rewrite Ep. cbn [bind]. eexists. split; [reflexivity|]. cbn.
      split; [auto|]. split; [auto|]. split; [auto|]. split; [congruence|]. split; [discriminate|].
      split; [lia|]. exists hs. split; auto.
      eapply rnear_mono; [|exact Np]. lia.
    + cbn [bind]. eexists. split; [reflexivity|]. cbn. rewrite E by auto.
      split; [auto|]. split; [auto|]. split; [auto|]. split; [congruence|]. split; [auto|].
      split; [lia|]. exists hs. auto.
  - exists q. split; [auto|]. split; [auto|]. split; [auto|]. split; [auto|]. split; [auto|]. split; [auto|].
    destruct pv; auto. eapply rprod_mono; [|exact F]. lia.
Qed.

Lemma Forall2_snoc_inv {A B} (R : A -> B -> Prop) l x m : Forall2 R (l ++ [x]) m ->
  exists m' y, m = m' ++ [y] /\ Forall2 R l m' /\ R x y.
Proof.
  intros H. apply Forall2_app_inv_l in H. destruct H as (m1 & m2 & H1 & H2 & ->).
  inversion H2 as [|? y ? m3 Hy H3]; subst. inversion H3; subst. exists m1, y. auto.
Qed.

(** The update of the product. *)
Lemma rset_ok n K q q1 es pv es' (upd : unitary -> res unitary) (s : bool) hs hs' : (n <= N)%nat -> rinv n K q es pv ->
  Forall2 (ridl n) es hs ->
  match rs_product q with Some p => rnear n (1 + 7 * K) (ordered n hs) p | None => True end ->
  rs_product q1 = rs_product q -> rs_dim q1 = (2 ^ n)%nat -> rs_entries q1 = es -> rs_prev q1 = (if s then Some es else pv) ->
  (rs_product q1 = None -> rs_prev_product q1 = None) ->
  match (if s then Some es else pv) with
    | Some es' => rprod_ok n (S K) es' (rs_prev_product q1) | None => rs_prev_product q1 = None end ->
  (List.length es' <= S K)%nat -> Forall2 (ridl n) es' hs' ->
  (forall p, rnear n (1 + 7 * K) (ordered n hs) p ->
     exists p', upd p = Ok p' /\ rnear n (1 + 7 * S K) (ordered n hs') p') ->
  exists q', r_set q1 es' upd = Ok q' /\ rinv n (S K) q' es' (if s then Some es else pv).
Proof.
  intros Hn I HF HP E1 E2 E3 E4 E5 E6 Hlen HF' HU. unfold r_set. rewrite E1. destruct (rs_product q) as [p|] eqn:EP.
  - destruct (HU p HP) as (p' & Ep & Np). rewrite Ep. cbn [bind]. eexists. split; [reflexivity|].
    unfold rinv. cbn. rewrite E2, E4. split; [auto|]. split; [auto|]. split; [auto|].
    split; [split; auto; exists hs'; auto|]. split; [discriminate|auto].
  - cbn [bind]. eexists. split; [reflexivity|]. unfold rinv. cbn. rewrite E2, E4.
    split; [auto|]. split; [auto|]. split; [auto|].
    split; [split; auto; exists hs'; auto|]. split; [intros _; apply E5; congruence|auto].
Qed.

Lemma r_valid_ok n q g : rs_dim q = (2 ^ n)%nat -> placement n (snd g) ->
  (2 ^ List.length (snd g))%nat = u_dim (fst g) -> r_valid q g = true.
Proof.
  intros D Hp Hd. unfold r_valid. rewrite D. apply andb_true_intro. split; apply Nat.leb_le.
  - rewrite <- Hd. apply Nat.pow_le_mono_r; [lia|]. now apply placement_length.
  - apply Nat.pow_le_mono_r; [lia|]. destruct Hp as (_ & Hne & Hlt). pose proof (list_maxn_lt _ n Hne Hlt). lia.
Qed.

Lemma rpop_first n c h hs P p f : (n <= N)%nat -> unitary_mx (2 ^ n) (embed n (snd h) (u_mat (fst h))) ->
  meq (2 ^ n) P (ordered n (h :: hs)) ->
  rnear n c P p -> rnear n 6 (adj (embed n (snd h) (u_mat (fst h)))) f -> Lim n (S (c + 6)) ->
  exists p', r_right_multiply ar eps p f = Ok p' /\ rnear n (S (c + 6)) (ordered n hs) p'.
Proof.
  intros Hn HU HP Np Nf L. destruct (rnear_right n c 6 _ _ p f Hn Np Nf L) as (p' & E & N').
  exists p'. split; auto. eapply rnear_meq; [|exact N'].
  rewrite HP, ordered_cons, <- mmul_assoc, (unitary_right _ _ HU). apply mmul_1_r.
Qed.
Lemma rpop_last n c h hs P p f : (n <= N)%nat -> unitary_mx (2 ^ n) (embed n (snd h) (u_mat (fst h))) ->
  meq (2 ^ n) P (ordered n (hs ++ [h])) ->
  rnear n c P p -> rnear n 6 (adj (embed n (snd h) (u_mat (fst h)))) f -> Lim n (S (c + 6)) ->
  exists p', r_left_multiply ar eps p f = Ok p' /\ rnear n (S (c + 6)) (ordered n hs) p'.
Proof.
  intros Hn HU HP Np Nf L. destruct (rnear_left n c 6 _ _ p f Hn Np Nf L) as (p' & E & N').
  exists p'. split; auto. eapply rnear_meq; [|exact N'].
  rewrite HP, ordered_snoc, mmul_assoc, (unitary_left _ _ HU). apply mmul_1_l.
Qed.

Lemma rproduct_ok n K q es pv : (n <= N)%nat -> rinv n K q es pv -> Lim n (1 + 7 * K) ->
  exists p hs, r_product ar eps q = Ok p /\ Forall2 (ridl n) es hs /\ rnear n (1 + 7 * K) (ordered n hs) p.
Proof.
  intros Hn (A & B & C & (DL & hs & DF & D) & _) L. unfold r_product.
  destruct (rs_product q) as [p|]; [exists p, hs; auto|]. rewrite A, B.
  destruct (rnear_id n None [] false [] Hn) as (p & Ep & Np); [eapply rlim_mono; [|exact L]; lia|].
  assert (E : r_unitary ar eps (2 ^ n) None None [] false [] =
              r_unitary ar eps (2 ^ n) (Some (square (2 ^ n) mid)) None [] false []) by reflexivity.
  rewrite E, Ep. cbn [bind]. destruct K as [|K].
  - destruct es; cbn [List.length] in DL; [|lia]. inversion DF; subst. cbn [r_fold]. exists p, []. auto.
  - destruct (rfold_near n es hs Hn DF 1 mid p Np) as (p' & Ep' & Np').
    + eapply rlim_mono; [|exact L]. lia.
    + eapply rlim_mono; [|exact L]. lia.
    + exists p', hs. split; auto. split; auto.
      apply rnear_mono with (c1 := (1 + 6 * List.length es)%nat); [lia|].
      eapply rnear_meq; [|exact Np']. apply mmul_1_r.
Qed.

Lemma rstep_app n K (o : rop) (g : unitary * list nat) s q es pv : (n <= N)%nat ->
  rinv n K q es pv -> Lim n (1 + 7 * S K) ->
  r_gate ar eps mu (fst g) -> placement n (snd g) -> (2 ^ List.length (snd g))%nat = u_dim (fst g) ->
  (o = RFirst g s -> exists q', r_step ar eps q o = Ok q' /\ rinv n (S K) q' (g :: es) (if s then Some es else pv)) /\
  (o = RLast g s -> exists q', r_step ar eps q o = Ok q' /\ rinv n (S K) q' (es ++ [g]) (if s then Some es else pv)).
Proof.
  intros Hn I L Hg Hp Hd.
  assert (L6 : Lim n 6) by (eapply rlim_mono; [|exact L]; lia).
  assert (Hlen := placement_length n (snd g) Hp).
  destruct (r_gate_ideal (fst g) (List.length (snd g)) n Hg (eq_sym Hd)) as (G & HG); auto; try lia;
    [eapply rlim_mono; [|exact L]; lia|].
  set (h := ({| u_dim := u_dim (fst g); u_mat := G; u_name := u_name (fst g); u_params := u_params (fst g);
      u_inv := u_inv (fst g); u_apply := u_apply (fst g) |}, snd g)).
  assert (Hi : ridl n g h) by (split; [reflexivity|split; [reflexivity|split; auto]]).
  destruct (rcontrib n g h Hn Hi L6) as (f & _ & Ef & _ & Nf & _).
  destruct (rsave_ok n K s q es pv Hn I L) as (q1 & E0 & E1 & E2 & E3 & E4 & E5 & E6).
  destruct I as (A & B & C & (DL & hs & DF & D) & E & F).
  assert (I : rinv n K q es pv) by (split; [auto|split; [auto|split; [auto|split; [split; [auto|exists hs; auto]|auto]]]]).
  assert (HV : r_valid q g = true) by now apply r_valid_ok with (n := n).
  split; intros ->; cbn [r_step]; rewrite HV; unfold assert at 1; cbn [bind]; rewrite E0; cbn [bind];
    rewrite E3, A.
  - apply (rset_ok n K q q1 es pv (g :: es) _ s hs (h :: hs)); auto.
    + cbn [List.length]. lia.
    + intros p Np. rewrite Ef. cbn [bind].
      destruct (rnear_right n _ 5 _ _ p f Hn Np Nf) as (p' & Ep & Np'); [eapply rlim_mono; [|exact L]; lia|].
      exists p'. split; auto. eapply rnear_mono with (c1 := S (1 + 7 * K + 5)); [lia|].
      eapply rnear_meq; [|exact Np']. symmetry. apply ordered_cons.
  - apply (rset_ok n K q q1 es pv (es ++ [g]) _ s hs (hs ++ [h])); auto.
    + rewrite app_length. cbn [List.length]. lia.
    + apply Forall2_app; auto.
    + intros p Np. rewrite Ef. cbn [bind].
      destruct (rnear_left n _ 5 _ _ p f Hn Np Nf) as (p' & Ep & Np'); [eapply rlim_mono; [|exact L]; lia|].
      exists p'. split; auto. eapply rnear_mono with (c1 := S (1 + 7 * K + 5)); [lia|].
      eapply rnear_meq; [|exact Np']. symmetry. apply ordered_snoc.
Qed.

Lemma rstep_pop_first n K s q g es pv : (n <= N)%nat ->
  rinv n K q (g :: es) pv -> Lim n (1 + 7 * S K) ->
  exists q', r_step ar eps q (RPopFirst s) = Ok q' /\ rinv n (S K) q' es (if s then Some (g :: es) else pv).
Proof.
  intros Hn I L. assert (L6 : Lim n 6) by (eapply rlim_mono; [|exact L]; lia).
  destruct (rsave_ok n K s q _ pv Hn I L) as (q1 & E0 & E1 & E2 & E3 & E4 & E5 & E6).
  destruct I as (A & B & C & (DL & hs & DF & D) & E & F).
  assert (I : rinv n K q (g :: es) pv) by (split; [auto|split; [auto|split; [auto|split; [split; [auto|exists hs; auto]|auto]]]]).
  assert (DF' := DF). inversion DF' as [|? h ? hs' Hi HF]; subst hs.
  destruct (rcontrib n g h Hn Hi L6) as (f & i & Ef & Ei & _ & Ni).
  cbn [r_step]. rewrite B, E0. cbn [bind]. rewrite A.
  apply (rset_ok n K q q1 (g :: es) pv es _ s (h :: hs') hs'); auto.
  - cbn [List.length] in DL. lia.
  - intros p Np. rewrite Ef. cbn [bind]. rewrite Ei. cbn [bind].
    destruct (rpop_first n (1 + 7 * K) h hs' _ p i Hn (ridl_unitary n g h Hi) (reflexivity _) Np Ni) as (p' & Ep & Np').
    + eapply rlim_mono; [|exact L]; lia.
    + exists p'. split; auto. eapply rnear_mono; [|exact Np']. lia.
Qed.

Lemma rstep_pop_last n K s q g es pv : (n <= N)%nat ->
  rinv n K q (es ++ [g]) pv -> Lim n (1 + 7 * S K) ->
  exists q', r_step ar eps q (RPopLast s) = Ok q' /\ rinv n (S K) q' es (if s then Some (es ++ [g]) else pv).
Proof.
  intros Hn I L. assert (L6 : Lim n 6) by (eapply rlim_mono; [|exact L]; lia).
  destruct (rsave_ok n K s q _ pv Hn I L) as (q1 & E0 & E1 & E2 & E3 & E4 & E5 & E6).
  destruct I as (A & B & C & (DL & hs & DF & D) & E & F).
  assert (I : rinv n K q (es ++ [g]) pv) by (split; [auto|split; [auto|split; [auto|split; [split; [auto|exists hs; auto]|auto]]]]).
  destruct (Forall2_snoc_inv _ _ _ _ DF) as (hs' & h & -> & HF & Hi).
  destruct (rcontrib n g h Hn Hi L6) as (f & i & Ef & Ei & _ & Ni).
  cbn [r_step]. rewrite B, rev_app_distr. cbn [rev app]. rewrite E0. cbn [bind]. rewrite A, rev_involutive.
  apply (rset_ok n K q q1 (es ++ [g]) pv es _ s (hs' ++ [h]) hs'); auto.
  - rewrite app_length in DL. cbn [List.length] in DL. lia.
  - intros p Np. rewrite Ef. cbn [bind]. rewrite Ei. cbn [bind].
    destruct (rpop_last n (1 + 7 * K) h hs' _ p i Hn (ridl_unitary n g h Hi) (reflexivity _) Np Ni) as (p' & Ep & Np').
    + eapply rlim_mono; [|exact L]; lia.
    + exists p'. split; auto. eapply rnear_mono; [|exact Np']. lia.
Qed.

Lemma rrun_ok n ops : (n <= N)%nat -> r_ops_ok ar eps mu n ops -> forall K q es pv,
  rinv n K q es pv -> Lim n (1 + 7 * (K + List.length ops)) ->
  match holds_after es pv ops with
  | Some es' => exists q' pv', r_run ar eps q ops = Ok q' /\ rinv n (K + List.length ops) q' es' pv'
  | None => r_run ar eps q ops = Raise AssertionError
  end.
Proof.
  intros Hn. induction ops as [|o ops IH]; intros Hok K q es pv I L; cbn [r_run List.length holds_after] in *.
  - exists q, pv. rewrite Nat.add_0_r. auto.
  - assert (Hok' : r_ops_ok ar eps mu n ops) by (intros o' g' Ho; apply Hok; simpl; auto).
    assert (LS : Lim n (1 + 7 * S K)) by (eapply rlim_mono; [|exact L]; lia).
    assert (Go : forall q' es1 pv1, r_step ar eps q o = Ok q' -> rinv n (S K) q' es1 pv1 ->
      match holds_after es1 pv1 ops with
      | Some es' => exists q'' pv', bind (r_step ar eps q o) (fun q' => r_run ar eps q' ops) = Ok q'' /\
          rinv n (K + S (List.length ops)) q'' es' pv'
      | None => bind (r_step ar eps q o) (fun q' => r_run ar eps q' ops) = Raise AssertionError
      end).
    { intros q' es1 pv1 E I'. rewrite E. cbn [bind].
      assert (X := IH Hok' (S K) q' es1 pv1 I' ltac:(eapply rlim_mono; [|exact L]; lia)).
      rewrite Nat.add_succ_r. exact X. }
    destruct o as [g s|g s|s|s| |].
    + destruct (Hok (RFirst g s) g) as (Hg & Hp & Hd); [simpl; auto|simpl; auto|].
      destruct (rstep_app n K (RFirst g s) g s q es pv Hn I LS Hg Hp Hd) as [K1 _].
      destruct (K1 eq_refl) as (q' & E & I'). eapply Go; eauto.
    + destruct (Hok (RLast g s) g) as (Hg & Hp & Hd); [simpl; auto|simpl; auto|].
      destruct (rstep_app n K (RLast g s) g s q es pv Hn I LS Hg Hp Hd) as [_ K1].
      destruct (K1 eq_refl) as (q' & E & I'). eapply Go; eauto.
    + destruct es as [|g es].
      * assert (B := proj1 (proj2 I)). eapply Go with (q' := q); eauto.
        -- cbn [r_step]. now rewrite B.
        -- eapply rinv_mono; [|exact I]. lia.
      * destruct (rstep_pop_first n K s q g es pv Hn I LS) as (q' & E & I'). eapply Go; eauto.
    + destruct es as [|g0 es0] eqn:Ees.
      * assert (B := proj1 (proj2 I)). eapply Go with (q' := q); eauto.
        -- cbn [r_step]. now rewrite B.
        -- eapply rinv_mono; [|exact I]. lia.
      * rewrite <- Ees in *. destruct (exists_last (l := es)) as (es1 & g & Eg); [congruence|].
        rewrite Eg in *. rewrite removelast_last.
        destruct (rstep_pop_last n K s q g es1 pv Hn I LS) as (q' & E & I'). eapply Go; eauto.
    + destruct pv as [es1|].
      2:{ cbn [r_step]. destruct I as (A & B & C & _). rewrite C. reflexivity. }
      destruct I as (A & B & C & D & E & F).
      eapply Go; [|split; [|split; [|split; [|split; [|split]]]]].
      * cbn [r_step]. rewrite C. reflexivity.
      * exact A.
      * reflexivity.
      * reflexivity.
      * cbn. eapply rprod_mono; [|exact F]. lia.
      * reflexivity.
      * reflexivity.
    + destruct (rproduct_ok n K q es pv Hn I) as (p & hs & Ep & HF & Np); [eapply rlim_mono; [|exact L]; lia|].
      destruct I as (A & B & C & D & E & F).
      eapply Go; [|split; [|split; [|split; [|split; [|split]]]]].
      * cbn [r_step]. rewrite Ep. reflexivity.
      * exact A.
      * exact B.
      * exact C.
      * cbn. split; [destruct D; lia|]. exists hs. split; auto. eapply rnear_mono; [|exact Np]. lia.
      * discriminate.
      * cbn. destruct pv; auto. eapply rprod_mono; [|exact F]. lia.
Qed.
End Rnd.
