(** The parameterised library gates; reach of rotation_xyz; as_unitary. *)
From Coq Require Import Reals List Arith Lia Lra Bool String ZArith.
From Coquelicot Require Import Complex.
From Verif Require Import Base CMat CMatFacts Det DetFacts Norms CRoot ModelUnitary ModelEntry
  ModelPrimitive ModelGates ModelSequence Spec SpecModel SpecCompiler SpecGates PUnitary PEmbed PDrift PSu2
  PEntry PUnitaryProps PSeqNear PCompProps PGates PGms.
Import ListNotations.
Open Scope R_scope.
Open Scope C_scope.
Open Scope res_scope.

(** ** Euler angles *)
Definition euler (a b c : R) : mat :=
  mmul 2 (rotation 0 0 1 a) (mmul 2 (rotation 0 1 0 b) (rotation 0 0 1 c)).

Lemma euler_entries a b c : meq 2 (euler a b c)
  (mat22 (RtoC (cos (b / 2)) * cis (- ((a + c) / 2))) (- (RtoC (sin (b / 2)) * cis (- ((a - c) / 2))))
         (RtoC (sin (b / 2)) * cis ((a - c) / 2)) (RtoC (cos (b / 2)) * cis ((a + c) / 2))).
Proof.
  unfold euler. rewrite !rotation_entries. unfold cis. rewrite !cos_neg, !sin_neg.
  replace ((a + c) / 2)%R with (a / 2 + c / 2)%R by field.
  replace ((a - c) / 2)%R with (a / 2 - c / 2)%R by field.
  rewrite !cos_plus, !sin_plus, !cos_minus, !sin_minus.
  cases2; unfold mmul, mat22; simpl; apply C_eq; simpl; ring.
Qed.

Lemma euler_special a b c : special 2 (euler a b c).
Proof.
  unfold euler. apply special_mmul; [apply rotation_special, unit_z|].
  apply special_mmul; [apply rotation_special, unit_y|apply rotation_special, unit_z].
Qed.

Lemma cis_add_PI x : cis (x + PI) = - cis x.
Proof. unfold cis. rewrite neg_cos, neg_sin. apply C_eq; simpl; ring. Qed.
Lemma cis_sub_PI x : cis (x - PI) = - cis x.
Proof.
  replace (cis x) with (cis ((x - PI) + PI)) by (f_equal; ring). rewrite cis_add_PI. apply C_eq; simpl; ring.
Qed.
Lemma euler_shift_a a b c : meq 2 (euler (a + 2 * PI) b c) (mscale (- (1)) (euler a b c)).
Proof.
  rewrite !euler_entries.
  replace (- ((a + 2 * PI + c) / 2))%R with (- ((a + c) / 2) - PI)%R by field.
  replace (- ((a + 2 * PI - c) / 2))%R with (- ((a - c) / 2) - PI)%R by field.
  replace ((a + 2 * PI - c) / 2)%R with ((a - c) / 2 + PI)%R by field.
  replace ((a + 2 * PI + c) / 2)%R with ((a + c) / 2 + PI)%R by field.
  rewrite !cis_sub_PI, !cis_add_PI. cases2; unfold mscale, mat22; simpl; ring.
Qed.
Lemma euler_shift_c a b c : meq 2 (euler a b (c + 2 * PI)) (mscale (- (1)) (euler a b c)).
Proof.
  rewrite !euler_entries.
  replace (- ((a + (c + 2 * PI)) / 2))%R with (- ((a + c) / 2) - PI)%R by field.
  replace (- ((a - (c + 2 * PI)) / 2))%R with (- ((a - c) / 2) + PI)%R by field.
  replace ((a - (c + 2 * PI)) / 2)%R with ((a - c) / 2 - PI)%R by field.
  replace ((a + (c + 2 * PI)) / 2)%R with ((a + c) / 2 + PI)%R by field.
  rewrite !cis_sub_PI, !cis_add_PI. cases2; unfold mscale, mat22; simpl; ring.
Qed.

Lemma cis_carg' z : RtoC (Cmod z) * cis (carg z) = z.
Proof.
  destruct (Ceq_dec z 0) as [->|N]; [|now apply cis_carg]. rewrite Cmod_0. ring.
Qed.

Lemma euler_some V : special 2 V -> exists a b c, (- (2 * PI) <= a <= 2 * PI)%R /\
  (0 <= b <= PI)%R /\ (- (2 * PI) <= c <= 2 * PI)%R /\ meq 2 (euler a b c) V.
Proof.
  intros HV. destruct (special_2_entries V HV) as (E1 & E2 & N).
  set (z := V 0%nat 0%nat) in *. set (w := V 1%nat 0%nat) in *.
  assert (Rz := carg_range z). assert (Rw := carg_range w).
  assert (Z0 := Cmod_ge_0 z). assert (W0 := Cmod_ge_0 w).
  assert (Bz : (-1 <= Cmod z <= 1)%R) by (split; nra).
  exists (carg w - carg z)%R, (2 * acos (Cmod z))%R, (- carg z - carg w)%R.
  split; [lra|]. split.
  { assert (X := acos_bound (Cmod z)). split; [lra|].
    enough (acos (Cmod z) <= PI / 2)%R by lra.
    destruct (Rle_dec (acos (Cmod z)) (PI / 2)) as [H|H]; [exact H|exfalso].
    assert (Y : (cos (acos (Cmod z)) < 0)%R) by (apply cos_lt_0; lra).
    rewrite cos_acos in Y by lra. lra. }
  split; [lra|].
  rewrite euler_entries.
  replace ((carg w - carg z + (- carg z - carg w)) / 2)%R with (- carg z)%R by field.
  replace ((carg w - carg z - (- carg z - carg w)) / 2)%R with (carg w) by field.
  replace (2 * acos (Cmod z) / 2)%R with (acos (Cmod z)) by field.
  rewrite cos_acos by lra. rewrite sin_acos by lra.
  replace (sqrt (1 - (Cmod z)²)) with (Cmod w).
  2:{ replace (1 - (Cmod z)²)%R with (Rsqr (Cmod w)) by (unfold Rsqr; simpl in N; lra). now rewrite sqrt_Rsqr. }
  rewrite Ropp_involutive.
  assert (Cz := cis_carg' z). assert (Cw := cis_carg' w).
  assert (CC : forall r x, RtoC r * cis (- x) = Cconj (RtoC r * cis x)).
  { intros r x. unfold cis. rewrite cos_neg, sin_neg. apply C_eq; simpl; ring. }
  rewrite !CC, Cz, Cw.
  cases2; unfold mat22; simpl; try reflexivity; now rewrite ?E1, ?E2.
Qed.

Lemma euler_reach V : special 2 V -> exists a b c s, (0 <= a <= 2 * PI)%R /\
  (0 <= b <= 2 * PI)%R /\ (0 <= c <= 2 * PI)%R /\ Cmod s = 1%R /\ meq 2 (euler a b c) (mscale s V).
Proof.
  intros HV. destruct (euler_some V HV) as (a & b & c & Ha & Hb & Hc & E).
  assert (Hp := PI_RGT_0).
  assert (Ea : exists a' s, (0 <= a' <= 2 * PI)%R /\ Cmod s = 1%R /\ meq 2 (euler a' b c) (mscale s V)).
  { destruct (Rle_dec 0 a) as [P|P].
    - exists a, (RtoC 1). split; [lra|]. split; [apply Cmod_1|]. now rewrite mscale_1.
    - exists (a + 2 * PI)%R, (- (1)). split; [lra|]. split; [rewrite Cmod_opp; apply Cmod_1|].
      rewrite euler_shift_a. now rewrite E. }
  destruct Ea as (a' & s & Ha' & Hs & E').
  destruct (Rle_dec 0 c) as [P|P].
  - exists a', b, c, s. repeat (split; [lra || assumption|]). exact E'.
  - exists a', b, (c + 2 * PI)%R, (- (1) * s).
    repeat (split; [lra|]). split; [rewrite Cmod_mult, Cmod_opp, Cmod_1, Hs; ring|].
    rewrite euler_shift_c, E'. intros i j _ _. unfold mscale. ring.
Qed.

Lemma special_of_unitary U : unitary_mx 2 U -> exists f, Cmod f = 1%R /\ special 2 (mscale f U).
Proof.
  intros HU. set (d := det 2 U). assert (Hd : d <> 0) by (apply unitary_det_neq0, HU).
  assert (Hm : Cmod d = 1%R) by (apply unitary_det_mod, HU).
  exists (croot 2 (/ d)).
  assert (Hc : Cmod (croot 2 (/ d)) = 1%R) by (apply Cmod_croot_1; rewrite Cmod_inv, Hm by exact Hd; field).
  split; [exact Hc|]. split; [now apply unitary_mscale|].
  rewrite det_2. unfold mscale. set (f := croot 2 (/ d)) in *.
  transitivity (f * f * d); [unfold d; rewrite det_2; ring|].
  assert (P := croot_pow 2 (/ d) ltac:(lia)).
  assert (X : / d <> 0). { intros E. apply (f_equal Cmod) in E. rewrite Cmod_inv, Hm, Cmod_0 in E by exact Hd. lra. }
  specialize (P X). fold f in P. simpl in P. replace (f * f) with (/ d) by (rewrite <- P; ring).
  now rewrite Cinv_l.
Qed.

Lemma euler_all U : unitary_mx 2 U -> exists a b c s, (0 <= a <= 2 * PI)%R /\
  (0 <= b <= 2 * PI)%R /\ (0 <= c <= 2 * PI)%R /\ Cmod s = 1%R /\ meq 2 (euler a b c) (mscale s U).
Proof.
  intros HU. destruct (special_of_unitary U HU) as (f & Hf & HV).
  destruct (euler_reach _ HV) as (a & b & c & s & Ha & Hb & Hc & Hs & E).
  exists a, b, c, (s * f). do 3 (split; [assumption|]). split; [rewrite Cmod_mult, Hs, Hf; ring|].
  rewrite E. intros i j _ _. unfold mscale. ring.
Qed.

(** ** The families *)
Lemma Rleb_le x y : (x <= y)%R -> Rleb x y = true.
Proof. intros H. unfold Rleb. now destruct (Rle_dec x y). Qed.
Lemma two_pi : Rleb 0 (2 * PI) = true.
Proof. apply Rleb_le. assert (H := PI_RGT_0). lra. Qed.
Lemma angle_ok nm : String.eqb nm "" = false ->
  mk_parameter nm 0 (2 * PI) true = Ok {| pr_name := nm; pr_min := 0; pr_max := 2 * PI; pr_angle := true |}.
Proof. intros H. unfold mk_parameter. rewrite H, two_pi. reflexivity. Qed.
Lemma valid_ok nm v : (0 <= v <= 2 * PI)%R ->
  pr_is_valid {| pr_name := nm; pr_min := 0; pr_max := 2 * PI; pr_angle := true |} v = true.
Proof. intros [H1 H2]. unfold pr_is_valid. simpl. now rewrite !Rleb_le. Qed.

Lemma xyz_matrix a b c :
  meq 2 (elt (np_array
      [[RtoC (cos (b / 2)) * cis (- (a + c) / 2); - RtoC (sin (b / 2)) * cis (- (a - c) / 2)];
       [RtoC (sin (b / 2)) * cis ((a - c) / 2); RtoC (cos (b / 2)) * cis ((a + c) / 2)]])) (euler a b c).
Proof.
  rewrite euler_entries.
  replace (- (a + c) / 2)%R with (- ((a + c) / 2))%R by field.
  replace (- (a - c) / 2)%R with (- ((a - c) / 2))%R by field.
  cases2; unfold mat22; simpl; ring.
Qed.

Lemma rotation_xyz_lemma : forall eps a b c, small_drift eps 1 1 ->
  (0 <= a <= 2 * PI)%R -> (0 <= b <= 2 * PI)%R -> (0 <= c <= 2 * PI)%R ->
  exists pu, pd_rotation_xyz = Ok pu /\
    stores eps 1 1 (as_unitary eps pu [a; b; c])
      (mmul 2 (rotation 0 0 1 a) (mmul 2 (rotation 0 1 0 b) (rotation 0 0 1 c))) /\
    labelled (as_unitary eps pu [a; b; c]) "Rxyz"
      [("alpha"%string, (a, true)); ("beta"%string, (b, true)); ("gamma"%string, (c, true))].
Proof.
  intros eps a b c H Ha Hb Hc. unfold pd_rotation_xyz. rewrite !angle_ok by reflexivity.
  eexists. split; [reflexivity|]. unfold as_unitary. cbn [pu_params pu_matrix pu_name pu_dim check_values].
  rewrite !valid_ok by assumption. cbn [bind assert andb fill_dict rotation_xyz_matrix].
  exact (mk_stores eps 1 _ _ _ _ H (xyz_matrix a b c) (euler_special a b c)).
Qed.

Lemma rotation_xyz_reach_lemma : forall eps U, small_drift eps 1 1 -> unitary_mx 2 U ->
  exists pu a b c s, pd_rotation_xyz = Ok pu /\ Cmod s = 1%R /\
    stores eps 1 1 (as_unitary eps pu [a; b; c]) (mscale s U).
Proof.
  intros eps U H HU. destruct (euler_all U HU) as (a & b & c & s & Ha & Hb & Hc & Hs & E).
  destruct (rotation_xyz_lemma eps a b c H Ha Hb Hc) as (pu & Ep & (u & Eu & D & X & F & M) & _).
  exists pu, a, b, c, s. split; [exact Ep|]. split; [exact Hs|].
  change (mmul 2 (rotation 0 0 1 a) (mmul 2 (rotation 0 1 0 b) (rotation 0 0 1 c))) with (euler a b c) in *.
  exists u. split; [exact Eu|]. split; [exact D|]. split; [exact X|]. split.
  - change (2 ^ 1)%nat with 2%nat in *. rewrite <- E. exact F.
  - change (2 ^ 1)%nat with 2%nat in *. intros HC. rewrite <- E. apply M.
    eapply eps_clean_meq; [symmetry; exact E|exact HC].
Qed.

(** The other families hand the matrix of a finished gate to the constructor. *)
Lemma again eps n c M u nm ps : (0 <= eps)%R -> lim eps n (S c) -> near eps n c M u ->
  (eps_clean eps (2 ^ n) M -> meq (2 ^ n) (u_mat u) M) ->
  exists v, mk_unitary eps (2 ^ n) (Some (square (u_dim u) (u_mat u))) (Some nm) ps false [] = Ok v /\
    near eps n (S c) M v /\ u_name v = nm /\ u_params v = ps /\ u_inv v = false /\ u_apply v = [] /\
    (eps_clean eps (2 ^ n) M -> meq (2 ^ n) (u_mat v) M).
Proof.
  intros E0 L (D & HP & HD & HF) X. rewrite D.
  destruct (near_mk eps E0 n c M (u_mat u) (Some nm) ps false [] HP HD HF L) as (v & Ev & Nv & N1 & N2 & N3 & N4).
  exists v. split; [exact Ev|]. repeat (split; [assumption|]). intros HC. specialize (X HC).
  destruct (mk_special eps (2 ^ n) (u_mat u) (Some nm) ps false []) as (v' & Ev' & _ & _ & _ & _ & _ & Mv).
  - apply Nat.neq_0_lt_0, Nat.pow_nonzero. lia.
  - eapply special_meq; [symmetry; exact X|exact HP].
  - eapply eps_clean_meq; [symmetry; exact X|exact HC].
  - rewrite Ev in Ev'. injection Ev' as <-. now rewrite Mv.
Qed.

Lemma stores_again eps n r M nm ps : small_drift eps n 1 ->
  (exists A nm ps, r = mk_unitary eps (2 ^ n) (Some (square (2 ^ n) A)) (Some nm) ps false [] /\
     meq (2 ^ n) A M /\ special (2 ^ n) M) ->
  let r' := do m <- matrix_of r; mk_unitary eps (2 ^ n) (Some m) (Some nm) ps false [] in
  stores eps 1 n r' M /\ labelled r' nm ps.
Proof.
  intros H (A & nm0 & ps0 & -> & E & HB). destruct (small_lim eps n 1 2 H ltac:(lia)) as [E0 L].
  destruct (small_lim eps n 1 1 H ltac:(lia)) as [_ L1].
  destruct (mk_meq eps n A (Some nm0) ps0 false [] M E HB E0 L1) as (p & Ep & Np & _ & _ & _ & _ & X).
  rewrite Ep. unfold matrix_of. cbn [bind].
  destruct (again eps n 1 M p nm ps E0 L Np X) as (v & Ev & Nv & N1 & N2 & N3 & N4 & Y).
  cbv zeta. rewrite Ev. split; [|exists v; auto].
  destruct (near_close _ _ _ _ _ _ _ H (ltac:(lia) : (2 <= 8 * 1)%nat) Nv (meq_refl _ _)) as (D & Z & F).
  exists v. auto.
Qed.

Lemma rotation_xy_lemma : forall eps t p, small_drift eps 1 1 ->
  (0 <= t <= 2 * PI)%R -> (0 <= p <= 2 * PI)%R ->
  exists pu, pd_rotation_xy eps = Ok pu /\
    stores eps 1 1 (as_unitary eps pu [t; p]) (rotation (cos p) (sin p) 0 t) /\
    labelled (as_unitary eps pu [t; p]) "Rxy" [("theta"%string, (t, true)); ("phi"%string, (p, true))].
Proof.
  intros eps t p H Ht Hp. unfold pd_rotation_xy. rewrite !angle_ok by reflexivity.
  eexists. split; [reflexivity|]. unfold as_unitary. cbn [pu_params pu_matrix pu_name pu_dim check_values].
  rewrite !valid_ok by assumption. cbn [bind assert andb fill_dict rotation_xy_matrix].
  apply (stores_again eps 1); [exact H|]. eexists _, _, _. split; [reflexivity|].
  split; [apply rphi_matrix|apply rotation_special, unit_xy].
Qed.

Lemma xx_family_lemma : forall eps t, small_drift eps 2 1 -> (0 <= t <= 2 * PI)%R ->
  exists pu, pd_xx eps = Ok pu /\
    stores eps 1 2 (as_unitary eps pu [t]) (xx_coupling t) /\
    labelled (as_unitary eps pu [t]) "XX" [("theta"%string, (t, true))].
Proof.
  intros eps t H Ht. unfold pd_xx. rewrite !angle_ok by reflexivity.
  eexists. split; [reflexivity|]. unfold as_unitary. cbn [pu_params pu_matrix pu_name pu_dim check_values].
  rewrite !valid_ok by assumption. cbn [bind assert andb fill_dict xx_matrix].
  apply (stores_again eps 2); [exact H|]. eexists _, _, _. split; [reflexivity|].
  split; [apply xx_matrix_eq|apply xx_special].
Qed.

Lemma gms_family_lemma : forall eps n K t, (S (S (List.length (all_pairs n))) <= 8 * K)%nat -> small_drift eps n K ->
  eps_clean eps 4 (xx_coupling t) -> (0 <= t <= 2 * PI)%R ->
  exists pu u, pd_gms eps n = Ok pu /\ as_unitary eps pu [t] = Ok u /\ u_dim u = (2 ^ n)%nat /\
    (fro (2 ^ n) (mminus (u_mat u) (global_coupling n t)) <= drift_bound eps n K)%R /\
    u_name u = ("GMS" ++ str_nat n)%string /\ u_params u = [("theta"%string, (t, true))].
Proof.
  intros eps n K t B H HC Ht.
  destruct (small_lim eps n _ (S (List.length (all_pairs n))) H ltac:(lia)) as [E0 L].
  destruct (gms_near eps n t E0 (proj2 (proj1 H)) HC L) as (u & Eu & Nu & _).
  unfold pd_gms. rewrite !angle_ok by reflexivity. cbn [bind].
  unfold mk_punitary. assert (P : Nat.ltb 0 (2 ^ n) = true) by (apply Nat.ltb_lt, Nat.neq_0_lt_0, Nat.pow_nonzero; lia).
  rewrite P. cbn [bind assert].
  destruct Nu as (D & HP & HD & HF).
  destruct (near_mk eps E0 n _ (global_coupling n t) (u_mat u) (Some ("GMS" ++ str_nat n)%string)
              [("theta"%string, (t, true))] false [] HP HD HF) as (v & Ev & Nv & N1 & N2 & N3 & N4).
  { eapply small_lim; [exact H|]. lia. }
  eexists _, v. split; [reflexivity|]. unfold as_unitary. cbn [pu_params pu_matrix pu_name pu_dim check_values].
  rewrite !valid_ok by assumption. cbn [bind assert andb fill_dict gms_matrix dict_put pr_name pr_angle].
  rewrite Eu. unfold matrix_of. cbn [bind]. rewrite D. split; [exact Ev|].
  match type of Nv with near _ _ ?k _ _ =>
    destruct (near_close eps n K k _ _ _ H ltac:(lia) Nv (meq_refl _ _)) as (D' & _ & F) end. auto.
Qed.

(** ** as_unitary *)
Lemma check_values_spec ps vs :
  check_values ps vs =
  if Nat.ltb (List.length ps) (List.length vs) then Raise IndexError
  else Ok (forallb (fun pv => pr_is_valid (fst pv) (snd pv)) (List.combine ps vs)).
Proof.
  revert ps. induction vs as [|v vs IH]; intros [|p ps]; simpl; try reflexivity.
  rewrite IH. change (Nat.ltb (S (List.length ps)) (S (List.length vs))) with (Nat.ltb (List.length ps) (List.length vs)).
  destruct (Nat.ltb (List.length ps) (List.length vs)); reflexivity.
Qed.
Lemma fill_dict_spec ps vs d :
  fill_dict ps vs d =
  if Nat.ltb (List.length vs) (List.length ps) then Raise IndexError
  else Ok (fold_left (fun d pv => dict_put d (pr_name (fst pv)) (snd pv, pr_angle (fst pv))) (List.combine ps vs) d).
Proof.
  revert vs d. induction ps as [|p ps IH]; intros [|v vs] d; simpl; try reflexivity.
  rewrite IH. reflexivity.
Qed.
Lemma pr_valid_spec p v : pr_is_valid p v = true <-> (pr_min p <= v <= pr_max p)%R.
Proof.
  unfold pr_is_valid, Rleb. destruct (Rle_dec (pr_min p) v), (Rle_dec v (pr_max p)); simpl; split; intros; try lra; congruence.
Qed.
Lemma forallb_range ps vs : List.length ps = List.length vs ->
  (forallb (fun pv => pr_is_valid (fst pv) (snd pv)) (List.combine ps vs) = true <-> in_range ps vs).
Proof.
  unfold in_range. revert vs. induction ps as [|p ps IH]; intros [|v vs] H; try discriminate; simpl.
  - split; auto.
  - injection H as H. rewrite andb_true_iff, pr_valid_spec, (IH vs H). split.
    + intros [H1 H2]. constructor; auto.
    + intros X. inversion X; auto.
Qed.

Lemma dict_get_put d k v k' : dict_get k' (dict_put d k v) = if String.eqb k k' then Some v else dict_get k' d.
Proof.
  induction d as [|[k0 v0] d IH]; simpl; [reflexivity|].
  destruct (String.eqb k0 k) eqn:E; simpl.
  - apply String.eqb_eq in E. subst k0. now destruct (String.eqb k k').
  - destruct (String.eqb k0 k') eqn:E'; [|exact IH]. apply String.eqb_eq in E'. subst k0.
    rewrite String.eqb_sym, E. reflexivity.
Qed.
Lemma dict_get_none {A} (f : A -> string) (g : A -> R * bool) l d k :
  ~ In k (map f l) -> dict_get k (fold_left (fun d x => dict_put d (f x) (g x)) l d) = dict_get k d.
Proof.
  revert d. induction l as [|x l IH]; intros d H; simpl; [reflexivity|].
  rewrite IH by (simpl in H; tauto). rewrite dict_get_put. destruct (String.eqb (f x) k) eqn:E; [|reflexivity].
  apply String.eqb_eq in E. exfalso. apply H. left. exact E.
Qed.
Lemma dict_get_last {A} (f : A -> string) (g : A -> R * bool) l1 x l2 d :
  ~ In (f x) (map f l2) ->
  dict_get (f x) (fold_left (fun d x => dict_put d (f x) (g x)) (l1 ++ x :: l2) d) = Some (g x).
Proof.
  intros H. rewrite fold_left_app. simpl. rewrite dict_get_none by exact H. rewrite dict_get_put, String.eqb_refl. reflexivity.
Qed.

(** What a successful call says; what every other call does. *)
Lemma as_unitary_ok_lemma : forall eps pu vs u, as_unitary eps pu vs = Ok u ->
  in_range (pu_params pu) vs /\
  u_dim u = pu_dim pu /\ u_name u = pu_name pu /\ u_inv u = false /\ u_apply u = [] /\
  (forall ps1 p ps2 vs1 v vs2, pu_params pu = ps1 ++ p :: ps2 -> vs = vs1 ++ v :: vs2 ->
     List.length ps1 = List.length vs1 -> ~ In (pr_name p) (map pr_name ps2) ->
     u_get_parameter_value u (pr_name p) = Some (v, pr_angle p)) /\
  (forall k, ~ In k (map pr_name (pu_params pu)) -> u_get_parameter_value u k = None).
Proof.
  intros eps pu vs u H. unfold as_unitary in H. rewrite check_values_spec in H.
  destruct (Nat.ltb (List.length (pu_params pu)) (List.length vs)) eqn:L1; [discriminate|]. cbn [bind] in H.
  destruct (forallb _ _) eqn:FB; [|discriminate]. cbn [bind assert] in H.
  rewrite fill_dict_spec in H.
  destruct (Nat.ltb (List.length vs) (List.length (pu_params pu))) eqn:L2; [discriminate|]. cbn [bind] in H.
  apply Nat.ltb_ge in L1, L2. assert (L : List.length (pu_params pu) = List.length vs) by lia.
  destruct (pu_matrix pu vs) as [m|e]; [|discriminate]. cbn [bind] in H.
  destruct (mk_unitary_inv _ _ _ _ _ _ _ _ H) as (_ & _ & _ & _ & _ & ->). simpl.
  split; [now apply forallb_range|]. do 4 (split; [reflexivity|]). split.
  - intros ps1 p ps2 vs1 v vs2 E1 E2 E3 E4. unfold u_get_parameter_value. simpl.
    rewrite E1, E2 in *. rewrite app_length in L. simpl in L.
    assert (C : List.combine (ps1 ++ p :: ps2) (vs1 ++ v :: vs2) = List.combine ps1 vs1 ++ (p, v) :: List.combine ps2 vs2).
    { clear - E3. revert vs1 E3. induction ps1 as [|q ps1 IH]; intros [|w vs1] E; try discriminate; simpl; [reflexivity|].
      injection E as E. now rewrite IH. }
    rewrite C.
    apply (dict_get_last (fun pv : parameter * R => pr_name (fst pv)) (fun pv => (snd pv, pr_angle (fst pv)))
      (List.combine ps1 vs1) (p, v) (List.combine ps2 vs2) []).
    intros X. apply in_map_iff in X. destruct X as ([q w] & Eq & Iq). apply E4. simpl in Eq. rewrite <- Eq.
    apply in_map. eapply in_combine_l; exact Iq.
  - intros k Hk. unfold u_get_parameter_value. simpl.
    rewrite (dict_get_none (fun pv : parameter * R => pr_name (fst pv)) (fun pv => (snd pv, pr_angle (fst pv)))); [reflexivity|].
    intros X. apply in_map_iff in X. destruct X as ([q w] & <- & Iq). apply Hk. simpl.
    apply in_map. eapply in_combine_l; exact Iq.
Qed.

Lemma as_unitary_raise_lemma : forall eps pu vs,
  ((List.length (pu_params pu) < List.length vs)%nat -> as_unitary eps pu vs = Raise IndexError) /\
  ((List.length vs < List.length (pu_params pu))%nat ->
     as_unitary eps pu vs = Raise IndexError \/ as_unitary eps pu vs = Raise AssertionError) /\
  (List.length vs = List.length (pu_params pu) -> ~ in_range (pu_params pu) vs ->
     as_unitary eps pu vs = Raise AssertionError) /\
  (in_range (pu_params pu) vs -> forall e, pu_matrix pu vs = Raise e -> as_unitary eps pu vs = Raise e).
Proof.
  intros eps pu vs. unfold as_unitary. rewrite check_values_spec, fill_dict_spec.
  split; [|split; [|split]].
  - intros H. apply Nat.ltb_lt in H. now rewrite H.
  - intros H. assert (H' : Nat.ltb (List.length (pu_params pu)) (List.length vs) = false) by (apply Nat.ltb_ge; lia).
    apply Nat.ltb_lt in H. rewrite H, H'. cbn [bind]. destruct (forallb _ _); cbn [bind assert]; auto.
  - intros H N. rewrite <- H, Nat.ltb_irrefl. cbn [bind]. destruct (forallb _ _) eqn:FB; [|reflexivity].
    exfalso. apply N. now apply forallb_range.
  - intros H e E. assert (L : List.length (pu_params pu) = List.length vs) by (clear - H; unfold in_range in H; induction H; simpl; congruence).
    rewrite L, Nat.ltb_irrefl. cbn [bind]. apply forallb_range in H; [|exact L]. rewrite H. cbn [bind assert].
    now rewrite E.
Qed.

(** ** The families are what the compiler's theorems ask for (exact arithmetic) *)
Lemma drift_0 n K : small_drift 0 n K /\ drift_bound 0 n K = 0%R.
Proof.
  assert (E : drift_bound 0 n K = 0%R) by (unfold drift_bound; ring). split; [|exact E].
  unfold small_drift. rewrite E, Rmult_0_r. lra.
Qed.
Lemma small_drift_less eps n m K : (n <= m)%nat -> small_drift eps m K -> small_drift eps n K.
Proof.
  intros Hnm (He & H1 & H2).
  assert (P : (INR (2 ^ n) <= INR (2 ^ m))%R) by (apply le_INR, Nat.pow_le_mono_r; lia).
  assert (P0 := pos_INR (2 ^ n)). assert (K0 := pos_INR K).
  assert (S := sqrt_le_1 _ _ P0 (pos_INR (2 ^ m)) P). assert (S0 := sqrt_pos (INR (2 ^ n))).
  assert (D : (0 <= drift_bound eps n K <= drift_bound eps m K)%R).
  { unfold drift_bound. assert (A : (0 <= 14 * INR K * INR (2 ^ n) <= 14 * INR K * INR (2 ^ m))%R).
    { split; [apply Rmult_le_pos; lra|]. apply Rmult_le_compat_l; lra. }
    split.
    - apply Rmult_le_pos; [|lra]. apply Rmult_le_pos; lra.
    - apply Rmult_le_compat_r; [lra|]. apply Rmult_le_compat; lra. }
  split; auto. split; [lra|]. eapply Rle_trans; [|exact H2]. apply Rmult_le_compat; lra.
Qed.
Lemma stores_exact n K r M : stores 0 K n r M -> exists u, r = Ok u /\ u_dim u = (2 ^ n)%nat /\ meq (2 ^ n) (u_mat u) M.
Proof. intros (u & E & D & _ & _ & X). exists u. split; [exact E|]. split; [exact D|]. apply X, eps_clean_0. Qed.

Lemma unitary_meq n A B : meq n A B -> unitary_mx n A -> unitary_mx n B.
Proof.
  intros E H. unfold unitary_mx in *. eapply meq_trans; [|exact H].
  apply mmul_meq; [now apply meq_sym|]. now apply adj_meq, meq_sym.
Qed.

Lemma stored_at_hand eps n r A nm ps B :
  r = mk_unitary eps (2 ^ n) (Some (square (2 ^ n) A)) nm ps false [] -> meq (2 ^ n) A B -> special (2 ^ n) B ->
  small_drift eps n 1 -> exists M, matrix_of r = Ok (square (2 ^ n) M) /\ at_hand eps (2 ^ n) M.
Proof.
  intros -> E HB H. destruct (small_lim eps n 1 1 H ltac:(lia)) as [E0 L].
  destruct (mk_meq eps n A nm ps false [] B E HB E0 L) as (u & Eu & (D & _) & _).
  rewrite Eu. unfold matrix_of. cbn [bind]. rewrite D. exists (u_mat u). split; [reflexivity|]. right. exists u.
  split; [|auto]. exists (2 ^ n)%nat, A, nm, ps, false, []. split; [|exact Eu].
  eapply unitary_meq; [symmetry; exact E|]. apply HB.
Qed.

Lemma library_good_lemma : forall eps, small_drift eps 2 1 ->
  (exists pu, pd_rotation_xy eps = Ok pu /\ good_source eps (Family pu)) /\
  (exists pu, pd_rotation_xyz = Ok pu /\ good_source eps (Family pu)) /\
  (exists pu, pd_xx eps = Ok pu /\ good_source eps (Family pu)).
Proof.
  intros eps SD. assert (HP := PI_RGT_0). split; [|split].
  - unfold pd_rotation_xy. rewrite !angle_ok by reflexivity. eexists. split; [reflexivity|]. split.
    + intros p [<-|[<-|[]]]; simpl; lra.
    + intros vs H. inversion H as [|? t ? ? Ht T]; subst. inversion T as [|? p ? ? Hp T']; subst. inversion T'; subst.
      cbn [pu_matrix pu_dim rotation_xy_matrix].
      refine (stored_at_hand eps 1 _ _ _ _ _ eq_refl (rphi_matrix t p) (rotation_special _ _ _ t (unit_xy p)) _).
      eapply small_drift_less; [|exact SD]. lia.
  - unfold pd_rotation_xyz. rewrite !angle_ok by reflexivity. eexists. split; [reflexivity|]. split.
    + intros p [<-|[<-|[<-|[]]]]; simpl; lra.
    + intros vs H. inversion H as [|? a ? ? Ha T]; subst. inversion T as [|? b ? ? Hb T']; subst.
      inversion T' as [|? c ? ? Hc T2]; subst. inversion T2; subst. simpl.
      eexists. split; [reflexivity|]. left.
      eapply unitary_meq; [symmetry; exact (xyz_matrix a b c)|]. apply euler_special.
  - unfold pd_xx. rewrite !angle_ok by reflexivity. eexists. split; [reflexivity|]. split.
    + intros p [<-|[]]; simpl; lra.
    + intros vs H. inversion H as [|? t ? ? Ht T]; subst. inversion T; subst.
      cbn [pu_matrix pu_dim xx_matrix].
      exact (stored_at_hand eps 2 _ _ _ _ _ eq_refl (xx_matrix_eq t) (xx_special t) SD).
Qed.

Lemma library_gms_lemma : forall n, exists pu, pd_gms 0 n = Ok pu /\ good_source 0 (Family pu).
Proof.
  intros n. assert (HP := PI_RGT_0).
  { unfold pd_gms. rewrite !angle_ok by reflexivity. cbn [bind]. unfold mk_punitary.
    assert (P : Nat.ltb 0 (2 ^ n) = true) by (apply Nat.ltb_lt, Nat.neq_0_lt_0, Nat.pow_nonzero; lia).
    rewrite P. cbn [bind assert]. eexists. split; [reflexivity|]. split.
    + intros p [<-|[]]; simpl; lra.
    + intros vs H. inversion H as [|? t ? ? Ht T]; subst. inversion T; subst.
      cbn [pu_matrix pu_dim gms_matrix].
      destruct (gms_lemma 0 n (n * n + 2) t ltac:(assert (B := gms_count n); lia) (proj1 (drift_0 n (n * n + 2))) (eps_clean_0 _ _)) as [(u & -> & D & _ & F) _].
      unfold matrix_of. cbn [bind]. rewrite D. exists (u_mat u). split; [reflexivity|].
      left. rewrite (proj2 (drift_0 n (n * n + 2))) in F.
      assert (M : meq (2 ^ n) (u_mat u) (global_coupling n t)).
      { assert (Z := fro_0 _ _ (Rle_antisym _ _ F (fro_nonneg _ _))). intros i j Hi Hj.
        specialize (Z i j Hi Hj). unfold mminus, mzero in Z. transitivity (u_mat u i j - global_coupling n t i j + global_coupling n t i j); [ring|].
        rewrite Z. ring. }
      eapply unitary_meq; [symmetry; exact M|]. apply couplings_special, all_pairs_ok. }
Qed.
