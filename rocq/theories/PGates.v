(** The gate library: rotations, fixed gates, couplings. *)
From Coq Require Import Reals List Arith Lia Lra Bool String ZArith.
From Coquelicot Require Import Complex.
From Verif Require Import Base CMat CMatFacts Det DetFacts Norms CRoot ModelUnitary ModelEntry
  ModelPrimitive ModelGates ModelSequence Spec SpecModel SpecCompiler SpecGates PUnitary PEmbed PDrift
  PEntry PUnitaryProps PSeqNear PCompProps.
Import ListNotations.
Open Scope R_scope.
Open Scope C_scope.
Open Scope res_scope.

(** ** Small matrices *)
Ltac cases2 :=
  let i := fresh "i" in let j := fresh "j" in let Hi := fresh "Hi" in let Hj := fresh "Hj" in
  intros i j Hi Hj; destruct i as [|[|i]]; [| |exfalso; simpl in Hi; lia];
  (destruct j as [|[|j]]; [| |exfalso; simpl in Hj; lia]).

Lemma pyth t : (cos t * cos t + sin t * sin t = 1)%R.
Proof. assert (H := sin2_cos2 t). unfold Rsqr in H. lra. Qed.

Lemma cos_half a b : cos ((a + b) / 2) = (cos (a / 2) * cos (b / 2) - sin (a / 2) * sin (b / 2))%R.
Proof. replace ((a + b) / 2)%R with (a / 2 + b / 2)%R by field. apply cos_plus. Qed.
Lemma sin_half a b : sin ((a + b) / 2) = (sin (a / 2) * cos (b / 2) + cos (a / 2) * sin (b / 2))%R.
Proof. replace ((a + b) / 2)%R with (a / 2 + b / 2)%R by field. apply sin_plus. Qed.

Lemma rotation_entries x y z t :
  meq 2 (rotation x y z t)
    (mat22 (cos (t / 2), - (sin (t / 2) * z))%R (- (sin (t / 2) * y), - (sin (t / 2) * x))%R
           (sin (t / 2) * y, - (sin (t / 2) * x))%R (cos (t / 2), sin (t / 2) * z)%R).
Proof.
  cases2; unfold rotation, mat22, pauli_x, pauli_y, pauli_z, mid, mat22; simpl; apply C_eq; simpl; ring.
Qed.

Lemma mmul_meq n A A' B B' : meq n A A' -> meq n B B' -> meq n (mmul n A B) (mmul n A' B').
Proof. intros HA HB i j Hi Hj. apply csum_ext. intros k Hk. now rewrite HA, HB. Qed.
Lemma adj_meq n A A' : meq n A A' -> meq n (adj A) (adj A').
Proof. intros HA i j Hi Hj. unfold adj. now rewrite HA. Qed.
Lemma meq_trans n A B D : meq n A B -> meq n B D -> meq n A D.
Proof. intros H1 H2 i j Hi Hj. now rewrite H1, H2. Qed.
Lemma meq_sym n A B : meq n A B -> meq n B A.
Proof. intros H i j Hi Hj. now rewrite H. Qed.
Lemma special_meq n A B : meq n A B -> special n A -> special n B.
Proof.
  intros E [H1 H2]. split; [|now rewrite <- (det_ext E)].
  eapply meq_trans; [|exact H1]. apply mmul_meq; apply meq_sym; auto. now apply adj_meq.
Qed.

Lemma rotation_special x y z t : (x * x + y * y + z * z = 1)%R -> special 2 (rotation x y z t).
Proof.
  intros Hn. eapply special_meq; [apply meq_sym, rotation_entries|].
  assert (Ht := pyth (t / 2)). set (c := cos (t / 2)) in *. set (s := sin (t / 2)) in *. clearbody c s.
  assert (Hx : (x * x = 1 - y * y - z * z)%R) by lra. assert (Hc : (c * c = 1 - s * s)%R) by lra.
  split.
  - cases2; unfold mmul, adj, mat22, mid, Cconj; simpl; apply C_eq; simpl; ring [Hx Hc].
  - rewrite det_2. unfold mat22. apply C_eq; simpl; ring [Hx Hc].
Qed.

Lemma rotation_add x y z a b : (x * x + y * y + z * z = 1)%R ->
  meq 2 (mmul 2 (rotation x y z b) (rotation x y z a)) (rotation x y z (a + b)).
Proof.
  intros Hn. eapply meq_trans; [apply mmul_meq; apply rotation_entries|].
  eapply meq_trans; [|apply meq_sym, rotation_entries].
  rewrite cos_half, sin_half.
  set (c := cos (a / 2)) in *. set (s := sin (a / 2)) in *.
  set (c' := cos (b / 2)) in *. set (s' := sin (b / 2)) in *. clearbody c s c' s'.
  assert (Hx : (x * x = 1 - y * y - z * z)%R) by lra.
  cases2; unfold mmul, mat22; simpl; apply C_eq; simpl; ring [Hx].
Qed.

(** ** One constructor call *)
Lemma eps_clean_meq eps n A B : meq n A B -> eps_clean eps n A -> eps_clean eps n B.
Proof. intros E H i j Hi Hj. rewrite <- (E i j Hi Hj). now apply H. Qed.

Lemma mk_meq eps n A nm ps iv ap B :
  meq (2 ^ n) A B -> special (2 ^ n) B -> (0 <= eps)%R -> lim eps n 1 ->
  exists p, mk_unitary eps (2 ^ n) (Some (square (2 ^ n) A)) nm ps iv ap = Ok p /\
    near eps n 1 B p /\
    u_name p = match nm with Some s => s | None => "U"%string end /\
    u_params p = ps /\ u_inv p = iv /\ u_apply p = ap /\
    (eps_clean eps (2 ^ n) B -> meq (2 ^ n) (u_mat p) B).
Proof.
  intros E HB E0 L.
  assert (HA : special (2 ^ n) A) by (eapply special_meq; [apply meq_sym, E|exact HB]).
  destruct (near_mk eps E0 n 0 B A nm ps iv ap HB) as (p & Ep & Np & N1 & N2 & N3 & N4); auto.
  - apply HA.
  - rewrite err_0, fro_minus_self by exact E. lra.
  - exists p. split; [exact Ep|]. split; [exact Np|]. repeat (split; [assumption|]).
    intros HC. destruct (mk_special eps (2 ^ n) A nm ps iv ap) as (p' & Ep' & _ & _ & _ & _ & _ & M); auto.
    + apply Nat.neq_0_lt_0, Nat.pow_nonzero. lia.
    + eapply eps_clean_meq; [apply meq_sym, E|exact HC].
    + rewrite Ep in Ep'. injection Ep' as <-. now rewrite M.
Qed.

Lemma small_lim eps n K c : small_drift eps n K -> (c <= 8 * K)%nat -> (0 <= eps)%R /\ lim eps n c.
Proof.
  intros H Hc. destruct (drift_small _ _ _ H) as [L _]. destruct H as ((E0 & E1) & _).
  split; auto. eapply lim_mono; eauto.
Qed.

Lemma near_bound eps n K c P p : small_drift eps n K -> (c <= 8 * K)%nat -> near eps n c P p ->
  (fro (2 ^ n) (mminus (u_mat p) P) <= drift_bound eps n K)%R.
Proof.
  intros H Hc (_ & _ & _ & HN). destruct (drift_small _ _ _ H) as [_ B]. destruct H as ((E0 & E1) & _).
  eapply Rle_trans; [exact HN|]. eapply Rle_trans; [|exact B]. now apply err_mono.
Qed.

Lemma mk_stores eps n A nm ps B :
  small_drift eps n 1 -> meq (2 ^ n) A B -> special (2 ^ n) B ->
  stores eps 1 n (mk_unitary eps (2 ^ n) (Some (square (2 ^ n) A)) (Some nm) ps false []) B /\
  labelled (mk_unitary eps (2 ^ n) (Some (square (2 ^ n) A)) (Some nm) ps false []) nm ps.
Proof.
  intros H E HB. destruct (small_lim eps n 1 1 H ltac:(lia)) as [E0 L].
  destruct (mk_meq eps n A (Some nm) ps false [] B E HB E0 L) as (p & Ep & Np & N1 & N2 & N3 & N4 & X).
  rewrite Ep. split; exists p; repeat (split; [reflexivity || assumption || apply Np|]); auto.
  split; auto. eapply near_bound; [exact H| |exact Np]. lia.
Qed.

(** ** Rotations *)
Lemma rx_matrix t :
  meq 2 (elt (np_array [[RtoC (cos (t / 2)); - Ci * RtoC (sin (t / 2))];
                        [- Ci * RtoC (sin (t / 2)); RtoC (cos (t / 2))]])) (rotation 1 0 0 t).
Proof.
  rewrite rotation_entries. cases2; unfold mat22; simpl; apply C_eq; simpl; ring.
Qed.
Lemma ry_matrix t :
  meq 2 (elt (np_array [[RtoC (cos (t / 2)); RtoC (- sin (t / 2))];
                        [RtoC (sin (t / 2)); RtoC (cos (t / 2))]])) (rotation 0 1 0 t).
Proof.
  rewrite rotation_entries. cases2; unfold mat22; simpl; apply C_eq; simpl; ring.
Qed.
Lemma rz_matrix t :
  meq 2 (elt (np_array [[cis (- t / 2); RtoC 0]; [RtoC 0; cis (t / 2)]])) (rotation 0 0 1 t).
Proof.
  rewrite rotation_entries.
  replace (- t / 2)%R with (- (t / 2))%R by field.
  cases2; unfold mat22; simpl; unfold cis; rewrite ?cos_neg, ?sin_neg; apply C_eq; simpl; ring.
Qed.
Lemma rphi_matrix t p :
  meq 2 (elt (np_array [[RtoC (cos (t / 2)); cis (- (PI / 2 + p)) * RtoC (sin (t / 2))];
                        [cis (- (PI / 2 - p)) * RtoC (sin (t / 2)); RtoC (cos (t / 2))]]))
        (rotation (cos p) (sin p) 0 t).
Proof.
  rewrite rotation_entries. unfold cis. rewrite !cos_neg, !sin_neg.
  replace (cos (PI / 2 + p)) with (- sin p)%R by (rewrite sin_antisym || (rewrite cos_plus, cos_PI2, sin_PI2; ring)).
  replace (sin (PI / 2 + p)) with (cos p) by (rewrite sin_plus, cos_PI2, sin_PI2; ring).
  replace (cos (PI / 2 - p)) with (sin p) by (now rewrite cos_shift).
  replace (sin (PI / 2 - p)) with (cos p) by (now rewrite sin_shift).
  cases2; unfold mat22; simpl; apply C_eq; simpl; ring.
Qed.

Lemma unit_x : (1 * 1 + 0 * 0 + 0 * 0 = 1)%R. Proof. ring. Qed.
Lemma unit_y : (0 * 0 + 1 * 1 + 0 * 0 = 1)%R. Proof. ring. Qed.
Lemma unit_z : (0 * 0 + 0 * 0 + 1 * 1 = 1)%R. Proof. ring. Qed.
Lemma unit_xy p : (cos p * cos p + sin p * sin p + 0 * 0 = 1)%R.
Proof. assert (H := pyth p). lra. Qed.

Lemma rx_ok eps t : small_drift eps 1 1 ->
  stores eps 1 1 (g_rx eps t) (rotation 1 0 0 t) /\ labelled (g_rx eps t) "Rx" [("θ"%string, (t, true))].
Proof. intros H. exact (mk_stores eps 1 _ _ _ _ H (rx_matrix t) (rotation_special _ _ _ t unit_x)). Qed.
Lemma ry_ok eps t : small_drift eps 1 1 ->
  stores eps 1 1 (g_ry eps t) (rotation 0 1 0 t) /\ labelled (g_ry eps t) "Ry" [("θ"%string, (t, true))].
Proof. intros H. exact (mk_stores eps 1 _ _ _ _ H (ry_matrix t) (rotation_special _ _ _ t unit_y)). Qed.
Lemma rz_ok eps t : small_drift eps 1 1 ->
  stores eps 1 1 (g_rz eps t) (rotation 0 0 1 t) /\ labelled (g_rz eps t) "Rz" [("θ"%string, (t, true))].
Proof. intros H. exact (mk_stores eps 1 _ _ _ _ H (rz_matrix t) (rotation_special _ _ _ t unit_z)). Qed.
Lemma rphi_ok eps t p : small_drift eps 1 1 ->
  stores eps 1 1 (g_rphi eps t p) (rotation (cos p) (sin p) 0 t) /\
  labelled (g_rphi eps t p) "R" [("θ"%string, (t, true)); ("Φ"%string, (p, true))].
Proof. intros H. exact (mk_stores eps 1 _ _ _ _ H (rphi_matrix t p) (rotation_special _ _ _ t (unit_xy p))). Qed.

(** Two calls that hand the same array to the constructor. *)
Lemma same_array eps d a nm ps iv ap nm' ps' iv' ap' u :
  mk_unitary eps d (Some a) nm ps iv ap = Ok u ->
  exists v, mk_unitary eps d (Some a) nm' ps' iv' ap' = Ok v /\ u_dim v = u_dim u /\ u_mat v = u_mat u.
Proof.
  intros H. destruct (mk_unitary_inv _ _ _ _ _ _ _ _ H) as (H1 & H2 & H3 & H4 & H5 & ->).
  rewrite mk_unitary_ok by assumption. eexists. split; [reflexivity|]. split; reflexivity.
Qed.

Lemma rphi_axes_lemma : forall eps t, small_drift eps 1 1 ->
  (exists u v, g_rphi eps t 0 = Ok u /\ g_rx eps t = Ok v /\ u_mat u = u_mat v) /\
  (exists u v, g_rphi eps t (PI / 2) = Ok u /\ g_ry eps t = Ok v /\ u_mat u = u_mat v).
Proof.
  intros eps t H. split.
  - destruct (rphi_ok eps t 0 H) as [(u & Eu & _) _].
    pose proof Eu as Eu'. unfold g_rphi in Eu'.
    destruct (same_array _ _ _ _ _ _ _ (Some "Rx"%string) [("θ"%string, (t, true))] false [] _ Eu') as (v & Ev & _ & M).
    exists u, v. split; [exact Eu|]. split; [|now rewrite M]. rewrite <- Ev. unfold g_rx. do 3 f_equal.
    assert (X : cis (- (PI / 2 + 0)) = - Ci /\ cis (- (PI / 2 - 0)) = - Ci).
    { unfold cis. replace (PI / 2 + 0)%R with (PI / 2)%R by ring. replace (PI / 2 - 0)%R with (PI / 2)%R by ring.
      rewrite cos_neg, sin_neg, cos_PI2, sin_PI2. split; apply C_eq; simpl; ring. }
    destruct X as [-> ->]. reflexivity.
  - destruct (rphi_ok eps t (PI / 2) H) as [(u & Eu & _) _].
    pose proof Eu as Eu'. unfold g_rphi in Eu'.
    destruct (same_array _ _ _ _ _ _ _ (Some "Ry"%string) [("θ"%string, (t, true))] false [] _ Eu') as (v & Ev & _ & M).
    exists u, v. split; [exact Eu|]. split; [|now rewrite M]. rewrite <- Ev. unfold g_ry. do 3 f_equal.
    assert (X : cis (- (PI / 2 + PI / 2)) = RtoC (-1) /\ cis (- (PI / 2 - PI / 2)) = RtoC 1).
    { unfold cis. replace (PI / 2 + PI / 2)%R with PI by field. replace (PI / 2 - PI / 2)%R with 0%R by ring.
      rewrite !cos_neg, !sin_neg, cos_PI, sin_PI, cos_0, sin_0. split; apply C_eq; simpl; ring. }
    destruct X as [-> ->].
    replace (RtoC (-1) * RtoC (sin (t / 2))) with (RtoC (- sin (t / 2))) by (rewrite <- RtoC_mult; f_equal; ring).
    replace (RtoC 1 * RtoC (sin (t / 2))) with (RtoC (sin (t / 2))) by (rewrite <- RtoC_mult; f_equal; ring).
    reflexivity.
Qed.

(** ** Angles add *)
Lemma stores_near eps n r M : small_drift eps n 1 ->
  (exists A nm ps, r = mk_unitary eps (2 ^ n) (Some (square (2 ^ n) A)) (Some nm) ps false [] /\
     meq (2 ^ n) A M /\ special (2 ^ n) M) ->
  exists u, r = Ok u /\ near eps n 1 M u.
Proof.
  intros H (A & nm & ps & -> & E & HB). destruct (small_lim eps n 1 1 H ltac:(lia)) as [E0 L].
  destruct (mk_meq eps n A (Some nm) ps false [] M E HB E0 L) as (p & Ep & Np & _). eauto.
Qed.

Lemma rx_near eps t : small_drift eps 1 1 -> exists u, g_rx eps t = Ok u /\ near eps 1 1 (rotation 1 0 0 t) u.
Proof. intros H. apply stores_near; auto. eexists _, _, _. split; [reflexivity|]. split; [apply rx_matrix|apply rotation_special, unit_x]. Qed.
Lemma ry_near eps t : small_drift eps 1 1 -> exists u, g_ry eps t = Ok u /\ near eps 1 1 (rotation 0 1 0 t) u.
Proof. intros H. apply stores_near; auto. eexists _, _, _. split; [reflexivity|]. split; [apply ry_matrix|apply rotation_special, unit_y]. Qed.
Lemma rz_near eps t : small_drift eps 1 1 -> exists u, g_rz eps t = Ok u /\ near eps 1 1 (rotation 0 0 1 t) u.
Proof. intros H. apply stores_near; auto. eexists _, _, _. split; [reflexivity|]. split; [apply rz_matrix|apply rotation_special, unit_z]. Qed.
Lemma rphi_near eps t p : small_drift eps 1 1 ->
  exists u, g_rphi eps t p = Ok u /\ near eps 1 1 (rotation (cos p) (sin p) 0 t) u.
Proof. intros H. apply stores_near; auto. eexists _, _, _. split; [reflexivity|]. split; [apply rphi_matrix|apply rotation_special, unit_xy]. Qed.

Lemma near_close eps n K c P p M : small_drift eps n K -> (c <= 8 * K)%nat -> near eps n c P p -> meq (2 ^ n) P M ->
  u_dim p = (2 ^ n)%nat /\ det (2 ^ n) (u_mat p) = 1 /\
  (fro (2 ^ n) (mminus (u_mat p) M) <= drift_bound eps n K)%R.
Proof.
  intros H Hc N E. assert (N' := near_meq eps n c P M p E N).
  split; [apply N|]. split; [apply N|]. eapply near_bound; eauto.
Qed.

Lemma adds_near eps gate x y z : small_drift eps 1 1 -> (x * x + y * y + z * z = 1)%R ->
  (forall t, exists u, gate t = Ok u /\ near eps 1 1 (rotation x y z t) u) -> adds eps gate (rotation x y z).
Proof.
  intros H Hn HG a b. destruct (HG a) as (u & Eu & Nu). destruct (HG b) as (v & Ev & Nv).
  destruct (small_lim eps 1 1 3 H ltac:(lia)) as [E0 L].
  destruct (near_left eps E0 1 1 1 _ _ _ _ Nu Nv L) as (w & Ew & Nw).
  destruct (near_close _ _ _ _ _ _ _ H (ltac:(lia) : (3 <= 8 * 1)%nat) Nw (rotation_add x y z a b Hn)) as (D & _ & B).
  exists u, v, w. auto.
Qed.

Lemma adds_lemma : forall eps, small_drift eps 1 1 ->
  adds eps (g_rx eps) (rotation 1 0 0) /\ adds eps (g_ry eps) (rotation 0 1 0) /\
  adds eps (g_rz eps) (rotation 0 0 1) /\
  forall phi, adds eps (fun t => g_rphi eps t phi) (rotation (cos phi) (sin phi) 0).
Proof.
  intros eps H. repeat split.
  - apply adds_near; auto using unit_x, rx_near.
  - apply adds_near; auto using unit_y, ry_near.
  - apply adds_near; auto using unit_z, rz_near.
  - intros phi. apply adds_near; auto using unit_xy, rphi_near.
Qed.

(** ** Fixed single-qubit gates *)
Lemma renamed_near eps n c P u nm : (0 <= eps)%R -> near eps n c P u -> lim eps n (S c) ->
  exists v, renamed eps u nm = Ok v /\ near eps n (S c) P v /\
    u_name v = nm /\ u_params v = [] /\ u_inv v = false /\ u_apply v = [].
Proof.
  intros E0 N L. unfold renamed. destruct N as (Hd & HP & HD & HF). rewrite Hd.
  destruct (near_mk eps E0 n c P (u_mat u) (Some nm) [] false [] HP HD HF L) as (v & Ev & Nv & X). eauto.
Qed.

Lemma stores_phase_near eps n K c r M f u : small_drift eps n K -> (c <= 8 * K)%nat ->
  r = Ok u -> near eps n c (mscale f M) u -> Cmod f = 1%R -> stores_phase eps K n r M.
Proof.
  intros H Hc E N Hf. destruct (near_close _ _ _ _ _ _ _ H Hc N (meq_refl _ _)) as (D & X & B).
  exists u, f. auto.
Qed.

Lemma Cmod_Ci : Cmod Ci = 1%R.
Proof. unfold Cmod, Ci. simpl. replace (0 * (0 * 1) + 1 * (1 * 1))%R with 1%R by ring. apply sqrt_1. Qed.
Lemma Cmod_mCi : Cmod (- Ci) = 1%R.
Proof. rewrite Cmod_opp. apply Cmod_Ci. Qed.

Lemma half_pi_rot x y z : meq 2 (rotation x y z PI)
  (mscale (- Ci) (fun i j => RtoC x * pauli_x i j + RtoC y * pauli_y i j + RtoC z * pauli_z i j)).
Proof.
  intros i j Hi Hj. unfold rotation, mscale. rewrite cos_PI2, sin_PI2. ring.
Qed.

Lemma sigma_lemma eps : small_drift eps 1 1 ->
  stores_phase eps 1 1 (g_sigmax eps) pauli_x /\ labelled (g_sigmax eps) "X" [] /\
  stores_phase eps 1 1 (g_sigmay eps) pauli_y /\ labelled (g_sigmay eps) "Y" [] /\
  stores_phase eps 1 1 (g_sigmaz eps) pauli_z /\ labelled (g_sigmaz eps) "Z" [].
Proof.
  intros H. destruct (small_lim eps 1 1 2 H ltac:(lia)) as [E0 L].
  assert (G : forall r x y z P nm, (exists u, r = Ok u /\ near eps 1 1 (rotation x y z PI) u) ->
    meq 2 (fun i j => RtoC x * pauli_x i j + RtoC y * pauli_y i j + RtoC z * pauli_z i j) P ->
    stores_phase eps 1 1 (do u <- r; renamed eps u nm) P /\ labelled (do u <- r; renamed eps u nm) nm []).
  { intros r x y z P nm (u & -> & N) EP. simpl.
    destruct (renamed_near eps 1 1 _ u nm E0 N L) as (v & Ev & Nv & N1 & N2 & N3 & N4).
    split; [|exists v; auto].
    refine (stores_phase_near eps 1 1 2 _ P (- Ci) v H ltac:(lia) Ev _ Cmod_mCi).
    eapply near_meq; [|exact Nv]. simpl Nat.pow. rewrite half_pi_rot. now rewrite EP. }
  assert (X := G (g_rx eps PI) 1 0 0 pauli_x "X"%string (rx_near eps PI H)).
  assert (Y := G (g_ry eps PI) 0 1 0 pauli_y "Y"%string (ry_near eps PI H)).
  assert (Z := G (g_rz eps PI) 0 0 1 pauli_z "Z"%string (rz_near eps PI H)).
  destruct X as [X1 X2]; [intros i j Hi Hj; simpl; ring|].
  destruct Y as [Y1 Y2]; [intros i j Hi Hj; simpl; ring|].
  destruct Z as [Z1 Z2]; [intros i j Hi Hj; simpl; ring|].
  repeat (split; [assumption|]); assumption.
Qed.

(** T: [rz (pi/4)] is diag(1, e^{i pi/4}) up to the phase [e^{-i pi/8}]. *)
Lemma rz_phase t : meq 2 (rotation 0 0 1 t) (mscale (cis (- (t / 2))) (phase_gate t)).
Proof.
  rewrite rotation_entries. unfold phase_gate, mscale, cis. rewrite cos_neg, sin_neg.
  assert (Hc := cos_half t 0). assert (E1 : cos t = (cos (t / 2) * cos (t / 2) - sin (t / 2) * sin (t / 2))%R).
  { rewrite <- cos_plus. f_equal. field. }
  assert (E2 : sin t = (2 * sin (t / 2) * cos (t / 2))%R).
  { replace t with (t / 2 + t / 2)%R at 1 by field. rewrite sin_plus. ring. }
  rewrite E1, E2. assert (P := pyth (t / 2)). assert (P' : (cos (t / 2) * cos (t / 2) = 1 - sin (t / 2) * sin (t / 2))%R) by lra.
  cases2; unfold mat22; simpl; apply C_eq; simpl; ring [P'].
Qed.
Lemma t_near eps : small_drift eps 1 1 -> exists u, g_t eps = Ok u /\
  near eps 1 2 (rotation 0 0 1 (PI / 4)) u /\ labelled (g_t eps) "T" [].
Proof.
  intros H. destruct (small_lim eps 1 1 2 H ltac:(lia)) as [E0 L].
  destruct (rz_near eps (PI / 4) H) as (u & Eu & Nu). unfold g_t. rewrite Eu. simpl.
  destruct (renamed_near eps 1 1 _ u "T" E0 Nu L) as (v & Ev & Nv & N1 & N2 & N3 & N4).
  exists v. split; [exact Ev|]. split; [exact Nv|]. exists v. auto.
Qed.

(** H: [ry (pi/2) rz pi] is [-i] times the Hadamard matrix. *)
Lemma sqrt2_inv : (cos (PI / 4) = / sqrt 2)%R /\ (sin (PI / 4) = / sqrt 2)%R.
Proof. rewrite cos_PI4, sin_PI4. split; field; apply Rgt_not_eq, Rlt_sqrt2_0. Qed.
Lemma h_matrix : meq 2 (mmul 2 (rotation 0 1 0 (PI / 2)) (rotation 0 0 1 PI)) (mscale (- Ci) hadamard).
Proof.
  rewrite rotation_entries, (rotation_entries 0 0 1).
  replace (PI / 2 / 2)%R with (PI / 4)%R by field.
  destruct sqrt2_inv as [-> ->]. rewrite cos_PI2, sin_PI2.
  unfold hadamard. cases2; unfold mmul, mat22, mscale; simpl; apply C_eq; simpl; ring.
Qed.
Lemma h_near eps : small_drift eps 1 1 -> exists u, g_h eps = Ok u /\
  near eps 1 4 (mscale (- Ci) hadamard) u /\ labelled (g_h eps) "H" [].
Proof.
  intros H. destruct (small_lim eps 1 1 3 H ltac:(lia)) as [E0 L3].
  destruct (small_lim eps 1 1 4 H ltac:(lia)) as [_ L4].
  destruct (rz_near eps PI H) as (z & Ez & Nz). destruct (ry_near eps (PI / 2) H) as (y & Ey & Ny).
  destruct (near_left eps E0 1 1 1 _ _ _ _ Nz Ny L3) as (w & Ew & Nw).
  unfold g_h. rewrite Ez, Ey. simpl bind. rewrite Ew. simpl bind.
  destruct (renamed_near eps 1 3 _ w "H" E0 Nw L4) as (v & Ev & Nv & N1 & N2 & N3 & N4).
  exists v. split; [exact Ev|]. split; [|exists v; auto].
  eapply near_meq; [|exact Nv]. apply h_matrix.
Qed.

Lemma h_t_lemma : forall eps, small_drift eps 1 1 ->
  stores_phase eps 1 1 (g_h eps) hadamard /\ labelled (g_h eps) "H" [] /\
  stores_phase eps 1 1 (g_t eps) (phase_gate (PI / 4)) /\ labelled (g_t eps) "T" [].
Proof.
  intros eps H. destruct (h_near eps H) as (h & Eh & Nh & Lh). destruct (t_near eps H) as (t & Et & Nt & Lt).
  split; [|split; [exact Lh|split; [|exact Lt]]].
  - exact (stores_phase_near _ _ _ _ _ _ _ _ H (ltac:(lia) : (4 <= 8 * 1)%nat) Eh Nh Cmod_mCi).
  - refine (stores_phase_near eps 1 1 2 _ _ (cis (- (PI / 4 / 2))) t H ltac:(lia) Et _ (Cmod_cis _)).
    eapply near_meq; [apply rz_phase|exact Nt].
Qed.

Lemma hadamard_sq : meq 2 (mmul 2 hadamard hadamard) mid.
Proof.
  assert (E : (/ sqrt 2 * / sqrt 2 = / 2)%R).
  { rewrite <- Rinv_mult, sqrt_sqrt by lra. reflexivity. }
  unfold hadamard. set (q := (/ sqrt 2)%R) in *. clearbody q.
  cases2; unfold mmul, mscale, mat22, mid; simpl; apply C_eq; simpl; try ring; nra.
Qed.

Lemma h_self_inverse_lemma : forall eps, small_drift eps 1 3 ->
  exists h p c, g_h eps = Ok h /\ u_left_multiply eps h h = Ok p /\ u_dim p = 2%nat /\ Cmod c = 1%R /\
    (fro 2 (mminus (u_mat p) (mscale c mid)) <= drift_bound eps 1 3)%R.
Proof.
  intros eps H. assert (H1 : small_drift eps 1 1).
  { destruct H as (E & B1 & B2). split; [exact E|]. unfold drift_bound in *.
    assert (0 <= INR (2 ^ 1) * (sqrt (INR (2 ^ 1)) + 1) * eps)%R.
    { apply Rmult_le_pos; [|apply E]. apply Rmult_le_pos; [apply pos_INR|].
      assert (0 <= sqrt (INR (2 ^ 1)))%R by apply sqrt_pos. lra. }
    assert (0 <= INR (2 ^ 1))%R by apply pos_INR. simpl (INR 3) in *. simpl (INR 1) in *. split; [|nra]. lra. }
  destruct (h_near eps H1) as (h & Eh & Nh & _). destruct (small_lim eps 1 3 9 H ltac:(lia)) as [E0 L].
  destruct (near_left eps E0 1 4 4 _ _ _ _ Nh Nh L) as (p & Ep & Np).
  exists h, p, (RtoC (-1)). split; [exact Eh|]. split; [exact Ep|].
  assert (X : meq 2 (mmul 2 (mscale (- Ci) hadamard) (mscale (- Ci) hadamard)) (mscale (RtoC (-1)) mid)).
  { rewrite mmul_mscale_l, mmul_mscale_r, hadamard_sq, mscale_mscale.
    intros i j Hi Hj. unfold mscale. f_equal. apply C_eq; simpl; ring. }
  destruct (near_close eps 1 3 9 _ _ _ H ltac:(lia) Np X) as (D & _ & B).
  split; [exact D|]. split; [rewrite Cmod_R, Rabs_left; lra|exact B].
Qed.

Lemma small_drift_le eps n K K' : (K' <= K)%nat -> small_drift eps n K -> small_drift eps n K'.
Proof.
  intros HK (E & B1 & B2). split; [exact E|].
  assert (X : (drift_bound eps n K' <= drift_bound eps n K)%R).
  { unfold drift_bound. apply le_INR in HK.
    assert (0 <= INR (2 ^ n) * (sqrt (INR (2 ^ n)) + 1) * eps)%R.
    { apply Rmult_le_pos; [|apply E]. apply Rmult_le_pos; [apply pos_INR|].
      assert (0 <= sqrt (INR (2 ^ n)))%R by apply sqrt_pos. lra. }
    assert (0 <= INR K')%R by apply pos_INR. nra. }
  assert (0 <= INR (2 ^ n))%R by apply pos_INR. split; [lra|nra].
Qed.

Lemma t_fourth_lemma : forall eps, small_drift eps 1 3 ->
  exists t t2 t4 c, g_t eps = Ok t /\ u_left_multiply eps t t = Ok t2 /\ u_left_multiply eps t2 t2 = Ok t4 /\
    u_dim t4 = 2%nat /\ Cmod c = 1%R /\
    (fro 2 (mminus (u_mat t4) (mscale c pauli_z)) <= drift_bound eps 1 3)%R.
Proof.
  intros eps H. assert (H1 := small_drift_le eps 1 3 1 ltac:(lia) H).
  destruct (t_near eps H1) as (t & Et & Nt & _). destruct (small_lim eps 1 3 5 H ltac:(lia)) as [E0 L5].
  destruct (small_lim eps 1 3 11 H ltac:(lia)) as [_ L].
  destruct (near_left eps E0 1 2 2 _ _ _ _ Nt Nt L5) as (t2 & E2 & N2).
  destruct (near_left eps E0 1 5 5 _ _ _ _ N2 N2 L) as (t4 & E4 & N4).
  exists t, t2, t4, (- Ci). split; [exact Et|]. split; [exact E2|]. split; [exact E4|].
  match type of N4 with near _ _ _ ?P _ => assert (X : meq 2 P (mscale (- Ci) pauli_z)) end.
  { change (2 ^ 1)%nat with 2%nat. rewrite !rotation_add by apply unit_z.
    replace (PI / 4 + PI / 4 + (PI / 4 + PI / 4))%R with PI by field.
    rewrite half_pi_rot. intros i j Hi Hj. unfold mscale. simpl. ring. }
  destruct (near_close eps 1 3 11 _ _ _ H ltac:(lia) N4 X) as (D & _ & B).
  split; [exact D|]. split; [apply Cmod_mCi|exact B].
Qed.

(** ** Integer matrices *)
Definition zget (rows : list (list Z)) (i j : nat) : Z := nth j (nth i rows []) 0%Z.
Fixpoint zsum (n : nat) (f : nat -> Z) : Z :=
  match n with O => 0%Z | S k => (zsum k f + f k)%Z end.
Definition zorth (n : nat) (N : Z) (rows : list (list Z)) : bool :=
  forallb_lt n (fun i => forallb_lt n (fun j =>
    Z.eqb (zsum n (fun k => zget rows i k * zget rows j k)%Z) (if Nat.eqb i j then N else 0%Z))).

Lemma int_rows_elt rows i j : elt (np_array (int_rows rows)) i j = RtoC (IZR (zget rows i j)).
Proof.
  unfold np_array, int_rows, zget. simpl.
  rewrite (map_nth (map (fun z => RtoC (IZR z))) rows [] i : nth i _ [] = _).
  exact (map_nth (fun z => RtoC (IZR z)) (nth i rows []) 0%Z j).
Qed.
Lemma zsum_csum n f : csum n (fun k => RtoC (IZR (f k))) = RtoC (IZR (zsum n f)).
Proof. induction n as [|n IH]; simpl; [reflexivity|]. now rewrite IH, <- RtoC_plus, <- plus_IZR. Qed.

Lemma zorth_unitary n N rows : (0 < N)%Z -> zorth n N rows = true ->
  unitary_mx n (mscale (RtoC (1 / sqrt (IZR N))) (elt (np_array (int_rows rows)))).
Proof.
  intros HN H i j Hi Hj. unfold zorth in H. rewrite forallb_lt_spec in H. specialize (H i Hi).
  rewrite forallb_lt_spec in H. specialize (H j Hj). apply Z.eqb_eq in H.
  assert (P : (0 < IZR N)%R) by now apply IZR_lt. assert (Q := sqrt_lt_R0 _ P).
  transitivity (RtoC (/ IZR N) * RtoC (IZR (zsum n (fun k => zget rows i k * zget rows j k)%Z))).
  - unfold mmul. rewrite <- zsum_csum, <- csum_mult_l. apply csum_ext. intros k Hk.
    unfold mscale, adj. rewrite !int_rows_elt, Cconj_mult, !Cconj_R, mult_IZR, <- !RtoC_mult. f_equal.
    replace (/ IZR N)%R with (1 / sqrt (IZR N) * (1 / sqrt (IZR N)))%R; [ring|].
    rewrite <- (sqrt_sqrt (IZR N)) at 3 by lra. field. lra.
  - rewrite H, <- RtoC_mult. unfold mid. destruct (Nat.eqb i j); f_equal; [field; lra|ring].
Qed.

Lemma unit_scale_1 n A : unitary_mx n (mscale (RtoC (1 / sqrt (IZR 1))) A) -> unitary_mx n A.
Proof.
  intros H. replace (1 / sqrt 1)%R with 1%R in H by (rewrite sqrt_1; field).
  unfold unitary_mx in *. now rewrite !mscale_1 in H.
Qed.

Lemma int_clean eps n c rows : (0 < c)%R -> (eps <= c)%R ->
  forallb_lt n (fun i => forallb_lt n (fun j => Z.leb (Z.abs (zget rows i j)) 1)) = true ->
  eps_clean eps n (mscale (RtoC c) (elt (np_array (int_rows rows)))).
Proof.
  intros Hc He H i j Hi Hj. rewrite forallb_lt_spec in H. specialize (H i Hi).
  rewrite forallb_lt_spec in H. specialize (H j Hj). apply Z.leb_le in H.
  unfold mscale. rewrite int_rows_elt. simpl. split; [|intros _; ring].
  intros X. assert (zget rows i j = 0 \/ zget rows i j = 1 \/ zget rows i j = -1)%Z as [E|[E|E]] by lia;
    rewrite E in *.
  - ring.
  - replace (c * 1 - 0 * 0)%R with c in X by ring. rewrite Rabs_pos_eq in X by lra. lra.
  - replace (c * -1 - 0 * 0)%R with (- c)%R in X by ring. rewrite Rabs_Ropp, Rabs_pos_eq in X by lra. lra.
Qed.

Lemma exact_phase eps n A nm M : (0 < n)%nat -> unitary_mx n A -> eps_clean eps n A -> meq n A M ->
  stores_exactly n (mk_unitary eps n (Some (square n A)) (Some nm) [] false []) M /\
  labelled (mk_unitary eps n (Some (square n A)) (Some nm) [] false []) nm [].
Proof.
  intros Hn HU HC E.
  destruct (mk_unitary_exact eps n A (Some nm) [] false [] Hn HU HC) as (u & Eu & D & N1 & N2 & N3 & N4 & M1 & M2 & S).
  rewrite Eu. split; exists u; [|auto]. split; [reflexivity|]. split; [exact D|]. split; [apply S|].
  exists (croot n (/ det n A)). split; [exact M2|]. eapply meq_trans; [exact M1|]. now apply mscale_proper.
Qed.

Ltac split_index i := destruct i as [|i]; [|first [exfalso; lia | split_index i]].
Ltac cases8 :=
  let i := fresh "i" in let j := fresh "j" in let Hi := fresh "Hi" in let Hj := fresh "Hj" in
  intros i j Hi Hj; split_index i; clear Hi; split_index j; clear Hj.

Lemma cnot_lemma : forall eps, (eps <= 1)%R ->
  stores_exactly 4 (g_cnot eps) (controlled_not 1) /\ labelled (g_cnot eps) "CNOT" [] /\
  stores_exactly 8 (g_ccnot eps) (controlled_not 2) /\ labelled (g_ccnot eps) "CCNOT" [].
Proof.
  intros eps He.
  assert (G : forall n rows, zorth n 1 rows = true ->
    forallb_lt n (fun i => forallb_lt n (fun j => Z.leb (Z.abs (zget rows i j)) 1)) = true ->
    unitary_mx n (elt (np_array (int_rows rows))) /\ eps_clean eps n (elt (np_array (int_rows rows)))).
  { intros n rows H1 H2. split.
    - apply unit_scale_1. now apply zorth_unitary.
    - eapply eps_clean_meq; [apply mscale_1|]. apply int_clean; auto. lra. }
  match goal with |- stores_exactly _ ?r _ /\ labelled ?r _ _ /\ _ => unfold g_cnot, g_ccnot end.
  match goal with |- context [mk_unitary eps 4 (Some ?a)] =>
    assert (X := exact_phase eps 4 (elt a) "CNOT" (controlled_not 1) ltac:(lia)) end.
  match goal with |- context [mk_unitary eps 8 (Some ?a)] =>
    assert (Y := exact_phase eps 8 (elt a) "CCNOT" (controlled_not 2) ltac:(lia)) end.
  destruct X as [X1 X2].
  { apply G; reflexivity. } { apply G; reflexivity. } { cases8; reflexivity. }
  destruct Y as [Y1 Y2].
  { apply G; reflexivity. } { apply G; reflexivity. } { cases8; reflexivity. }
  split; [exact X1|]. split; [exact X2|]. split; [exact Y1|exact Y2].
Qed.

(** ** The error-correction gate *)
Definition zmul (n : nat) (A B : list (list Z)) : list (list Z) :=
  map (fun i => map (fun j => zsum n (fun k => (zget A i k * zget B k j)%Z)) (seq 0 n)) (seq 0 n).
Lemma zmul_get n A B i j : (i < n)%nat -> (j < n)%nat ->
  zget (zmul n A B) i j = zsum n (fun k => (zget A i k * zget B k j)%Z).
Proof.
  intros Hi Hj. unfold zget at 1, zmul.
  rewrite nth_indep with (d' := (fun i => map (fun j => zsum n (fun k => (zget A i k * zget B k j)%Z)) (seq 0 n)) 0%nat)
    by (now rewrite map_length, seq_length).
  rewrite map_nth with (d := 0%nat).
  rewrite nth_indep with (d' := (fun j => zsum n (fun k => (zget A (nth i (seq 0 n) 0%nat) k * zget B k j)%Z)) 0%nat)
    by (now rewrite map_length, seq_length).
  rewrite map_nth with (d := 0%nat). now rewrite !seq_nth.
Qed.
Definition imat (rows : list (list Z)) : mat := elt (np_array (int_rows rows)).
Lemma imat_mul n A B : meq n (mmul n (imat A) (imat B)) (imat (zmul n A B)).
Proof.
  intros i j Hi Hj. unfold imat. rewrite int_rows_elt, zmul_get by assumption.
  rewrite <- zsum_csum. apply csum_ext. intros k Hk. rewrite !int_rows_elt, mult_IZR. symmetry. apply RtoC_mult.
Qed.

Definition tab (n : nat) (f : nat -> nat -> Z) : list (list Z) :=
  map (fun i => map (f i) (seq 0 n)) (seq 0 n).
Lemma sqrt8 : (/ sqrt 2 * (/ sqrt 2 * / sqrt 2) = 1 / sqrt 8)%R.
Proof.
  assert (0 < sqrt 2)%R by (apply sqrt_lt_R0; lra).
  replace 8%R with (2 * 2 * 2)%R by ring. rewrite sqrt_mult, sqrt_square by lra.
  assert (E : (sqrt 2 * sqrt 2 = 2)%R) by (apply sqrt_sqrt; lra).
  replace (2 * sqrt 2)%R with (sqrt 2 * sqrt 2 * sqrt 2)%R by (rewrite E; reflexivity). field. lra.
Qed.

Definition zcn (k n : nat) : list (list Z) := tab n (fun i j => if Nat.eqb i (flip_last k j) then 1 else 0)%Z.
Definition zemb (qs : list nat) : list (list Z) :=
  tab 8 (fun i j => if agree_off 3 qs i j then
     (if Nat.eqb (subindex 3 qs i) (flip_last 1 (subindex 3 qs j)) then 1 else 0) else 0)%Z.
Definition zh : list (list Z) := [[1; 1]; [1; -1]]%Z.
Definition zh3 : list (list Z) :=
  tab 8 (fun i j => zget zh (i / 4) (j / 4) * (zget zh (i mod 4 / 2) (j mod 4 / 2) * zget zh (i mod 4 mod 2) (j mod 4 mod 2)))%Z.

Lemma circuit_matrix : meq 8 phase_flip_circuit (mscale (RtoC (1 / sqrt 8)) (imat qecc_rows)).
Proof.
  unfold phase_flip_circuit.
  assert (E1 : meq 8 (controlled_not 2) (imat (zcn 2 8))) by (cases8; reflexivity).
  assert (E2 : meq 8 (embed 3 [2; 0]%nat (controlled_not 1)) (imat (zemb [2; 0]%nat))) by (cases8; reflexivity).
  assert (E3 : meq 8 (embed 3 [2; 1]%nat (controlled_not 1)) (imat (zemb [2; 1]%nat))) by (cases8; reflexivity).
  assert (H1 : forall i j, hadamard i j = RtoC (/ sqrt 2) * RtoC (IZR (zget zh i j))).
  { intros i j. unfold hadamard, mscale. f_equal. unfold mat22, zget, zh.
    destruct i as [|[|i]]; destruct j as [|[|j]]; try reflexivity.
    - now destruct j.
    - now destruct j.
    - now destruct i.
    - now destruct i.
    - now destruct i; destruct j. }
  assert (E4 : meq 8 (kron 4 hadamard (kron 2 hadamard hadamard)) (mscale (RtoC (1 / sqrt 8)) (imat zh3))).
  { intros i j Hi Hj. transitivity (RtoC (/ sqrt 2 * (/ sqrt 2 * / sqrt 2)) *
      RtoC (IZR (zget zh (i / 4) (j / 4) * (zget zh (i mod 4 / 2) (j mod 4 / 2) * zget zh (i mod 4 mod 2) (j mod 4 mod 2))))).
    - unfold kron. rewrite !H1, !mult_IZR, !RtoC_mult. ring.
    - rewrite sqrt8. unfold mscale. f_equal. unfold imat. rewrite int_rows_elt. do 2 f_equal.
      clear -Hi Hj. split_index i; clear Hi; split_index j; clear Hj; reflexivity. }
  rewrite E1, E2, E3, E4, imat_mul, mmul_mscale_r, mmul_mscale_r, imat_mul, imat_mul.
  assert (X : zmul 8 (zcn 2 8) (zmul 8 (zmul 8 (zemb [2%nat; 0%nat]) (zemb [2%nat; 1%nat])) zh3) = qecc_rows)
    by (vm_compute; reflexivity).
  now rewrite X.
Qed.

Lemma sqrt8_ge : (/ 3 <= 1 / sqrt 8)%R.
Proof.
  assert (P : (0 < sqrt 8)%R) by (apply sqrt_lt_R0; lra).
  assert (S : (sqrt 8 <= 3)%R).
  { replace 3%R with (sqrt (3 * 3)) by (apply sqrt_square; lra). apply sqrt_le_1; lra. }
  apply Rmult_le_reg_r with (sqrt 8); [exact P|]. unfold Rdiv. rewrite Rmult_assoc, Rinv_l by lra. lra.
Qed.

Lemma qecc_lemma : forall eps, (eps <= / 3)%R ->
  stores_exactly 8 (g_qecc_phase_flip eps) phase_flip_circuit /\
  labelled (g_qecc_phase_flip eps) "QECC" [].
Proof.
  intros eps He. assert (Q := sqrt8_ge).
  apply (exact_phase eps 8 (mscale (RtoC (1 / sqrt 8)) (imat qecc_rows))).
  - lia.
  - apply (zorth_unitary 8 8 qecc_rows); [lia|vm_compute; reflexivity].
  - apply int_clean; [lra|lra|vm_compute; reflexivity].
  - apply meq_sym, circuit_matrix.
Qed.

Lemma qecc_corrects_matrix q a b i : (forall k, q = Some k -> (k < 3)%nat) -> (i < 8)%nat ->
  mapply 8 phase_flip_circuit (phase_flip q (encoded a b)) i = decoded (syndrome q) a b i.
Proof.
  intros Hq Hi.
  transitivity (mapply 8 (mscale (RtoC (1 / sqrt 8)) (imat qecc_rows)) (phase_flip q (encoded a b)) i).
  { apply csum_ext. intros k Hk. now rewrite (circuit_matrix i k Hi Hk). }
  assert (P : (0 < sqrt 8)%R) by (apply sqrt_lt_R0; lra).
  assert (Hy : (/ sqrt 8 * / sqrt 8 = / 8)%R) by (rewrite <- Rinv_mult, sqrt_sqrt by lra; reflexivity).
  unfold mapply, mscale, imat.
  rewrite (csum_ext 8 _ (fun k => RtoC (/ sqrt 8) * RtoC (IZR (zget qecc_rows i k)) *
    phase_flip q (fun i => RtoC (/ sqrt 8) * (a + b * sign (xorb (Nat.eqb (bit 3 i 0) 1) (xorb (Nat.eqb (bit 3 i 1) 1) (Nat.eqb (bit 3 i 2) 1))))) k)).
  2:{ intros k Hk. rewrite int_rows_elt. unfold Rdiv. now rewrite Rmult_1_l. }
  set (y := (/ sqrt 8)%R) in *. clearbody y. destruct a as [a1 a2], b as [b1 b2].
  assert (C : q = None \/ q = Some 0%nat \/ q = Some 1%nat \/ q = Some 2%nat).
  { destruct q as [k|]; [|now left]. specialize (Hq k eq_refl).
    destruct k as [|[|[|k]]]; auto; lia. }
  clear P Hq.
  destruct C as [->|[->|[->| ->]]]; split_index i; clear Hi; cbn -[RtoC Cmult Cplus];
    apply C_eq; simpl;
    match goal with |- _ = ?r => transitivity (8 * (y * y) * r)%R; [ring|rewrite Hy; field] end.
Qed.

Lemma qecc_corrects_lemma : forall eps, (eps <= / 3)%R ->
  exists u c, g_qecc_phase_flip eps = Ok u /\ u_dim u = 8%nat /\ Cmod c = 1%R /\
    forall q a b, (forall k, q = Some k -> (k < 3)%nat) -> forall i, (i < 8)%nat ->
      mapply 8 (u_mat u) (phase_flip q (encoded a b)) i = c * decoded (syndrome q) a b i.
Proof.
  intros eps He. destruct (qecc_lemma eps He) as [(u & Eu & D & _ & c & Hc & M) _].
  exists u, c. split; [exact Eu|]. split; [exact D|]. split; [exact Hc|].
  intros q a b Hq i Hi. rewrite <- qecc_corrects_matrix by assumption.
  unfold mapply. rewrite <- csum_mult_l. apply csum_ext. intros k Hk.
  rewrite (M i k Hi Hk). unfold mscale. ring.
Qed.
