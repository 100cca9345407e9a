(** Named gates, wrong claims about noise, and JAQAL lines as native gates. *)
From Coq Require Import Reals List Arith Lia Lra Bool Psatz Setoid Morphisms String.
From Coquelicot Require Import Rcomplements Complex.
From Verif Require Import Base CMat CMatFacts Det DetFacts Norms Spec SpecModel SpecGates SpecChannel
  ModelUnitary ModelGates SpecCompiler ModelNoise SpecNoise PUnitary PBits PEmbed PEntry PSeqNear PChannel PGates PNoise PNoise2 PNoise3 PNoise4 PGatesEx PTextSeq.
Import ListNotations.
Open Scope R_scope.
Open Scope C_scope.

(** ** No noise *)
Lemma ideal_R f a X : meq 2 (of_process 2 pauli (gate_R no_noise f a) X) (turned 2 (equatorial f a) X).
Proof.
  rewrite (gate_R_lemma no_noise f a a 1).
  - cbn [r_phase_error no_noise]. rewrite Rmult_0_r, Rplus_0_r. apply turned_meq; [reflexivity|apply depolarise_1].
  - left. cbn [depolarization no_noise]. split; [lra|]. unfold Rpower. rewrite Rminus_0_r, ln_1, Rmult_0_r. now rewrite exp_0.
  - cbn [r_rotation_error no_noise]. unfold overrotated. lra.
Qed.
Lemma ideal_MS f a X : meq 4 (of_process 4 pauli2 (gate_MS no_noise f a) X) (turned 4 (ms_coupling f a) X).
Proof.
  rewrite gate_MS_acts, term_zero by reflexivity. apply turned_meq; [|apply process_diag2_1].
  unfold noisy_MS. cbn [ms_phase_error ms_rotation_error no_noise].
  rewrite Rmult_0_r, Rplus_0_r, Rmult_0_l, Rplus_0_r. apply U_MS_coupling.
Qed.
Lemma turned_phase d c U V X : Cmod c = 1%R -> meq d U (mscale c V) -> meq d (turned d U X) (turned d V X).
Proof.
  intros Hc HU i j Hi Hj. rewrite !turned_entry. apply csum_ext. intros k Hk. apply csum_ext. intros l Hl.
  rewrite !HU by auto. unfold mscale. rewrite Cconj_mult.
  assert (E : c * Cconj c = 1).
  { destruct c as [x y]. unfold Cmod in Hc. simpl in Hc. 
    assert (Q : (x * (x * 1) + y * (y * 1) = 1)%R).
    { rewrite <- (sqrt_sqrt (x * (x * 1) + y * (y * 1))) by nra. rewrite Hc. ring. }
    apply C_eq; simpl; lra. }
  transitivity (c * Cconj c * (V i k * Cconj (V j l) * X k l)); [ring|]. rewrite E. ring.
Qed.
Lemma Cmod_mi : Cmod (- Ci) = 1%R.
Proof. rewrite Cmod_opp. apply Cmod_Ci || (unfold Cmod, Ci; simpl; rewrite <- sqrt_1; f_equal; ring). Qed.
Lemma eq_x a : meq 2 (equatorial 0 a) (rotation 1 0 0 a).
Proof. unfold equatorial. rewrite cos_0, sin_0. reflexivity. Qed.
Lemma eq_y a : meq 2 (equatorial (PI / 2) a) (rotation 0 1 0 a).
Proof. unfold equatorial. rewrite cos_PI2, sin_PI2. reflexivity. Qed.
Lemma half_turn x y z : meq 2 (rotation x y z PI)
  (mscale (- Ci) (fun i j => RtoC x * pauli_x i j + RtoC y * pauli_y i j + RtoC z * pauli_z i j)).
Proof.
  rewrite rotation_entries, cos_PI2, sin_PI2.
  cases2; unfold mscale, mat22, pauli_x, pauli_y, pauli_z, mat22; simpl; apply C_eq; simpl; ring.
Qed.
Lemma half_turned x y z V X : 
  meq 2 (fun i j => RtoC x * pauli_x i j + RtoC y * pauli_y i j + RtoC z * pauli_z i j) V ->
  meq 2 (turned 2 (rotation x y z PI) X) (turned 2 V X).
Proof. intros H. apply (turned_phase 2 (- Ci)); [apply Cmod_mi|]. rewrite half_turn. now rewrite H. Qed.

Lemma named_lemma : forall X a,
  let acts M U := meq 2 (of_process 2 pauli M X) (turned 2 U X) in
  let e := no_noise in
  acts (gate_Rx e a) (rotation 1 0 0 a) /\ acts (gate_Ry e a) (rotation 0 1 0 a) /\ acts (gate_Rz a) (rotation 0 0 1 a) /\
  acts (gate_Px e) pauli_x /\ acts (gate_Py e) pauli_y /\ acts gate_Pz pauli_z /\
  acts (gate_Sx e) (rotation 1 0 0 (PI / 2)) /\ acts (gate_Sy e) (rotation 0 1 0 (PI / 2)) /\
  acts gate_Sz (rotation 0 0 1 (PI / 2)) /\
  acts (gate_Sxd e) (adj (rotation 1 0 0 (PI / 2))) /\ acts (gate_Syd e) (adj (rotation 0 1 0 (PI / 2))) /\
  acts gate_Szd (adj (rotation 0 0 1 (PI / 2))).
Proof.
  intros X a acts e.
  assert (RX : forall t, acts (gate_R e 0 t) (rotation 1 0 0 t)).
  { intros t. unfold acts, e. rewrite ideal_R. apply turned_meq; [apply eq_x|reflexivity]. }
  assert (RY : forall t, acts (gate_R e (PI / 2) t) (rotation 0 1 0 t)).
  { intros t. unfold acts, e. rewrite ideal_R. apply turned_meq; [apply eq_y|reflexivity]. }
  assert (RZ : forall t, acts (gate_Rz t) (rotation 0 0 1 t)) by (intros t; apply gate_Rz_lemma).
  assert (BACK : forall x y z t, meq 2 (rotation x y z (- t)) (adj (rotation x y z t))).
  { intros x y z t. rewrite !rotation_entries. replace (- t / 2)%R with (- (t / 2))%R by field.
    rewrite cos_neg, sin_neg. cases2; unfold adj, mat22; simpl; apply C_eq; simpl; ring. }
  assert (TR : forall M U V, acts M U -> meq 2 (turned 2 U X) (turned 2 V X) -> acts M V).
  { intros M U V H1 H2. exact (meq_trans _ _ _ _ H1 H2). }
  split; [exact (RX a)|]. split; [exact (RY a)|]. split; [exact (RZ a)|].
  split; [apply (TR _ _ _ (RX PI)), half_turned; intros i j _ _; ring|].
  split; [apply (TR _ _ _ (RY PI)), half_turned; intros i j _ _; ring|].
  split; [apply (TR _ _ _ (RZ PI)), half_turned; intros i j _ _; ring|].
  split; [exact (RX (PI / 2)%R)|]. split; [exact (RY (PI / 2)%R)|]. split; [exact (RZ (PI / 2)%R)|].
  split; [apply (TR _ _ _ (RX (- (PI / 2))%R)); apply turned_meq; [apply BACK|reflexivity]|].
  split; [apply (TR _ _ _ (RY (- (PI / 2))%R)); apply turned_meq; [apply BACK|reflexivity]|].
  apply (TR _ _ _ (RZ (- (PI / 2))%R)). apply turned_meq; [apply BACK|reflexivity].
Qed.
Lemma named2_lemma : forall X a f,
  meq 4 (of_process 4 pauli2 (gate_MS no_noise f a) X) (turned 4 (ms_coupling f a) X) /\
  meq 4 (of_process 4 pauli2 (gate_MS no_noise 0 a) X) (turned 4 (xx_coupling (a / 2)) X) /\
  meq 4 (of_process 4 pauli2 (gate_Sxx no_noise) X) (turned 4 (xx_coupling (PI / 4)) X).
Proof.
  intros X a f.
  assert (H : forall t, meq 4 (of_process 4 pauli2 (gate_MS no_noise 0 t) X) (turned 4 (xx_coupling (t / 2)) X)).
  { intros t. rewrite ideal_MS. apply turned_meq; [|reflexivity]. unfold ms_coupling, xx_coupling. rewrite cos_0, sin_0.
    intros i j _ _. unfold kron. apply f_equal. ring. }
  split; [apply ideal_MS|]. split; [apply H|]. unfold gate_Sxx. rewrite H.
  replace (PI / 2 / 2)%R with (PI / 4)%R by field. reflexivity.
Qed.

(** A gate by the angle 0 does nothing, whatever the errors. *)
Lemma zero_angle_lemma : forall e f X Y,
  meq 2 (of_process 2 pauli (gate_R e f 0) X) X /\ meq 4 (of_process 4 pauli2 (gate_MS e f 0) Y) Y.
Proof.
  intros e f X Y.
  assert (Z : (gateduration_R 0 = 0)%R) by (unfold gateduration_R; rewrite Rabs_R0; unfold Rdiv; ring).
  assert (Z2 : (gateduration_MS 0 = 0)%R) by (unfold gateduration_MS; rewrite Rabs_R0; unfold Rdiv; ring).
  assert (T : depolarization_term e 0 = 1%R) by (unfold depolarization_term, np_power; destruct (Req_EM_T 0 0); lra).
  assert (S0 : np_sign 0 = 0%R) by (unfold np_sign; destruct (Rlt_dec 0 0); lra).
  assert (D0 : (0 / 2 = 0)%R) by field.
  split.
  - rewrite gate_R_acts, Z, T. rewrite <- (turned_mid 2 X) at 2. apply turned_meq; [|apply depolarise_1].
    unfold noisy_R, U_R. rewrite S0, Rmult_0_r, Rplus_0_r, D0, cos_0, sin_0.
    cases2; unfold mid; simpl; ring.
  - rewrite gate_MS_acts, Z2, T. rewrite <- (turned_mid 4 Y) at 2. apply turned_meq; [|apply process_diag2_1].
    unfold noisy_MS, U_MS. rewrite S0, Rmult_0_r, Rplus_0_r, D0, cos_0, sin_0.
    cases4; unfold mid; simpl; ring.
Qed.

(** ** Wrong claims *)
Lemma process_basis d P M k : obasis d P -> (k < d * d)%nat ->
  meq d (of_process d P M (P k)) (fun a b => csum (d * d) (fun i => M i k * P i a b)).
Proof.
  intros OB Hk a b Ha Hb. assert (N := INR_C d (ob_pos d P OB)). unfold of_process. rewrite <- csum_mult_l.
  apply csum_ext. intros i Hi. rewrite (csum_single (d * d) k); auto.
  - rewrite (ob_orth d P OB k k) by auto. rewrite Nat.eqb_refl. field. exact N.
  - intros j Hj Nj. rewrite (ob_orth d P OB j k) by auto. apply Nat.eqb_neq in Nj. rewrite Nj. ring.
Qed.
Lemma process_scale d P M c X : meq d (of_process d P M (mscale c X)) (mscale c (of_process d P M X)).
Proof.
  intros a b _ _. unfold of_process, mscale.
  transitivity (/ RtoC (INR d) * (c * csum (d * d) (fun i =>
    csum (d * d) (fun j => M i j * mtrace d (mmul d (P j) X)) * P i a b))); [|ring].
  f_equal. rewrite <- csum_mult_l. apply csum_ext. intros i _.
  replace (csum (d * d) (fun j => M i j * mtrace d (mmul d (P j) (fun i0 j0 => c * X i0 j0))))
    with (c * csum (d * d) (fun j => M i j * mtrace d (mmul d (P j) X))); [ring|].
  rewrite <- csum_mult_l. apply csum_ext. intros j _.
  assert (E : mtrace d (mmul d (P j) (fun i0 j0 => c * X i0 j0)) = c * mtrace d (mmul d (P j) X)); [|rewrite E; ring].
  unfold mtrace, mmul. rewrite <- csum_mult_l. apply csum_ext. intros x _. rewrite <- csum_mult_l.
  apply csum_ext. intros y _. ring.
Qed.
Lemma turned_scale d U c X : meq d (turned d U (mscale c X)) (mscale c (turned d U X)).
Proof.
  intros i j _ _. unfold mscale. rewrite !turned_entry. rewrite <- csum_mult_l. apply csum_ext. intros k _.
  rewrite <- csum_mult_l. apply csum_ext. intros l _. ring.
Qed.
Lemma dep_12 s : meq 4 (of_process 4 pauli2 (kron 4 (diag1 s) (diag1 s)) (pauli2 12)) (mscale (RtoC s) (pauli2 12)).
Proof.
  rewrite (process_basis 4 pauli2 _ 12 pauli2_basis) by (simpl; lia). intros a b _ _. unfold mscale.
  rewrite (csum_single (4 * 4) 12); [|simpl; lia|].
  - unfold kron, diag1. simpl. ring.
  - intros i Hi N. unfold kron, diag1.
    do 16 (destruct i as [|i]; [try congruence; simpl; ring|]). exfalso. simpl in Hi. lia.
Qed.
Lemma dep_9 s : meq 4 (of_process 4 pauli2 (kron 4 (diag1 s) (diag1 s)) (pauli2 9)) (mscale (RtoC s * RtoC s) (pauli2 9)).
Proof.
  rewrite (process_basis 4 pauli2 _ 9 pauli2_basis) by (simpl; lia). intros a b _ _. unfold mscale.
  rewrite (csum_single (4 * 4) 9); [|simpl; lia|].
  - unfold kron, diag1. simpl. ring.
  - intros i Hi N. unfold kron, diag1.
    do 16 (destruct i as [|i]; [try congruence; simpl; ring|]). exfalso. simpl in Hi. lia.
Qed.
Lemma U_MS_meq f f' a a' : f = f' -> a = a' -> U_MS f a = U_MS f' a'.
Proof. now intros -> ->. Qed.
Lemma c4 : (cos (PI / 2 / 2) = sin (PI / 2 / 2) /\ cos (PI / 2 / 2) * cos (PI / 2 / 2) = / 2)%R.
Proof.
  replace (PI / 2 / 2)%R with (PI / 4)%R by field. rewrite cos_PI4, sin_PI4. split; auto.
  assert (Q : (sqrt 2 * sqrt 2 = 2)%R) by (apply sqrt_sqrt; lra). assert (N : (0 < sqrt 2)%R) by (apply sqrt_lt_R0; lra).
  replace (1 / sqrt 2 * (1 / sqrt 2))%R with (/ (sqrt 2 * sqrt 2))%R by (field; lra). now rewrite Q.
Qed.
Lemma turn_12 : meq 4 (turned 4 (U_MS 0 (PI / 2)) (pauli2 12)) (mscale (- (1)) (pauli2 9)).
Proof.
  destruct c4 as [E H]. unfold U_MS, cis. rewrite <- E. rewrite Rmult_0_r, Ropp_0, cos_0, sin_0.
  set (c := cos (PI / 2 / 2)) in *. clearbody c. assert (H2 : (2 * (c * c) = 1)%R) by lra.
  cases4; unfold turned, mmul, adj, mscale, pauli2, kron; simpl; apply C_eq; simpl; try ring; lra.
Qed.
Lemma turn_9 : meq 4 (turned 4 (U_MS 0 (- (PI / 2))) (pauli2 9)) (mscale (- (1)) (pauli2 12)).
Proof.
  destruct c4 as [E H]. unfold U_MS, cis. replace (- (PI / 2) / 2)%R with (- (PI / 2 / 2))%R by field.
  rewrite cos_neg, sin_neg, <- E. rewrite Rmult_0_r, Ropp_0, cos_0, sin_0.
  set (c := cos (PI / 2 / 2)) in *. clearbody c. assert (H2 : (2 * (c * c) = 1)%R) by lra.
  cases4; unfold turned, mmul, adj, mscale, pauli2, kron; simpl; apply C_eq; simpl; try ring; lra.
Qed.
Lemma run_MS_2 e f a X : (0 <= depolarization e <= 1)%R ->
  meq 4 (nop_run e 2 (NMS 0 1 f a) X) (of_process 4 pauli2 (gate_MS e f a) X).
Proof.
  intros He. destruct (gate_MS_mixture e f a He) as (m & p & V & _ & _ & _ & M). cbn [nop_run].
  eapply meq_trans; [exact (on_qubits_mix 2 [0%nat; 1%nat] _ m p V X M)|]. rewrite M. apply wsum_meq.
  intros k _. apply turned_meq; [apply (embed_all 2)|reflexivity].
Qed.
Definition half_noise : noise :=
  {| depolarization := / 2; r_rotation_error := 0; r_phase_error := 0; ms_rotation_error := 0; ms_phase_error := 0 |}.
Lemma run_half a X s : s = Rpower (/ 2) 10 -> Rabs a = (PI / 2)%R ->
  meq 4 (nop_run half_noise 2 (NMS 0 1 0 a) X)
        (turned 4 (U_MS 0 a) (of_process 4 pauli2 (kron 4 (diag1 s) (diag1 s)) X)).
Proof.
  intros Hs Ha. assert (P := PI_RGT_0). rewrite run_MS_2 by (cbn; lra). rewrite gate_MS_acts.
  assert (T : depolarization_term half_noise (gateduration_MS a) = s).
  { unfold depolarization_term, gateduration_MS, np_power. rewrite Ha. cbn [depolarization half_noise].
    replace (10 * (PI / 2) / (PI / 2))%R with 10%R by (field; lra). destruct (Req_EM_T 10 0); [lra|].
    replace (1 - / 2)%R with (/ 2)%R by field. destruct (Rle_dec (/ 2) 0); lra. }
  rewrite T. apply turned_meq; [|reflexivity]. unfold noisy_MS. cbn [ms_phase_error ms_rotation_error half_noise].
  rewrite Rmult_0_r, Rmult_0_l, !Rplus_0_r. reflexivity.
Qed.
Lemma ms_mirror_refuted_lemma : exists e c X t, (0 <= depolarization e <= 1)%R /\ circuit_ok 2 c /\
  survives e (2 * total_duration c) t /\
  ~ meq 4 (emulate e 2 (c ++ mirror c) X) (on_qubits 2 [0%nat] (depolarise t) (on_qubits 2 [1%nat] (depolarise t) X)).
Proof.
  assert (P := PI_RGT_0). set (s := Rpower (/ 2) 10).
  exists half_noise, [NMS 0 1 0 (PI / 2)], (pauli2 12), (s * s)%R.
  split; [cbn; lra|]. split.
  { intros o [<-|[]]. split; [|exact I]. split; [|split].
    - repeat constructor; simpl; intuition discriminate.
    - discriminate.
    - intros q [<-|[<-|[]]]; lia. }
  split.
  { left. cbn [depolarization half_noise]. split; [lra|]. unfold s. rewrite <- Rpower_plus.
    cbn [total_duration fold_right nop_duration]. rewrite Rabs_right by lra.
    replace (2 * (10 * (PI / 2 / (PI / 2)) + 0))%R with (10 + 10)%R by (field; lra).
    now replace (1 - / 2)%R with (/ 2)%R by field. }
  intros H. 
  assert (L : meq 4 (emulate half_noise 2 ([NMS 0 1 0 (PI / 2)] ++ mirror [NMS 0 1 0 (PI / 2)]) (pauli2 12))
                    (mscale (RtoC (s * s * s)) (pauli2 12))).
  { cbn [mirror map rev app nop_back emulate fold_left].
    rewrite (run_half (- (PI / 2)) _ s eq_refl) by (rewrite Rabs_Ropp, Rabs_right; lra).
    assert (A : meq 4 (nop_run half_noise 2 (NMS 0 1 0 (PI / 2)) (pauli2 12)) (mscale (- RtoC s) (pauli2 9))).
    { rewrite (run_half (PI / 2) _ s eq_refl) by (rewrite Rabs_right; lra).
      rewrite (turned_meq 4 _ _ _ _ (meq_refl 4 _) (dep_12 s)). rewrite turned_scale.
      intros i j Hi Hj. unfold mscale. rewrite (turn_12 i j Hi Hj). unfold mscale. ring. }
    assert (B : meq 4 (of_process 4 pauli2 (kron 4 (diag1 s) (diag1 s)) (nop_run half_noise 2 (NMS 0 1 0 (PI / 2)) (pauli2 12)))
                      (mscale (- RtoC (s * s * s)) (pauli2 9))).
    { rewrite (process_meq 4 pauli2 pauli2_basis _ _ _ _ (meq_refl _ _) A). rewrite process_scale.
      intros i j Hi Hj. unfold mscale. rewrite (dep_9 s i j Hi Hj). unfold mscale. rewrite !RtoC_mult. ring. }
    rewrite (turned_meq 4 _ _ _ _ (meq_refl 4 _) B). rewrite turned_scale.
    intros i j Hi Hj. unfold mscale. rewrite (turn_9 i j Hi Hj). unfold mscale. ring. }
  assert (R0 : meq 4 (on_qubits 2 [0%nat] (depolarise (s * s)) (on_qubits 2 [1%nat] (depolarise (s * s)) (pauli2 12)))
                     (mscale (RtoC (s * s)) (pauli2 12))).
  { rewrite <- local_depolarise. apply dep_12. }
  assert (Z0 : (0 < 4)%nat) by lia.
  specialize (L 0%nat 0%nat Z0 Z0). specialize (H 0%nat 0%nat Z0 Z0). specialize (R0 0%nat 0%nat Z0 Z0).
  assert (H1 := eq_trans (eq_trans (eq_sym L) H) R0). clear H. rename H1 into H.
  unfold mscale, pauli2, kron in H. simpl in H. rewrite !Cmult_1_r in H. apply RtoC_inj in H.
  assert (S1 : (0 < s)%R) by apply exp_pos.
  assert (S2 : (s < 1)%R).
  { unfold s, Rpower. rewrite <- exp_0. apply exp_increasing. assert (ln (/ 2) < 0)%R; [|lra].
    rewrite <- ln_1. apply ln_increasing; lra. }
  assert (0 < s * s)%R by now apply Rmult_lt_0_compat. assert (s * s * (1 - s) = 0)%R by lra.
  assert (0 < s * s * (1 - s))%R by (apply Rmult_lt_0_compat; lra). lra.
Qed.

Lemma negative_refuted_lemma : exists e c X, (depolarization e < 0)%R /\ circuit_ok 1 c /\ density 2 X /\
  ~ density 2 (emulate e 1 c X).
Proof.
  exists {| depolarization := -1; r_rotation_error := 0; r_phase_error := 0; ms_rotation_error := 0; ms_phase_error := 0 |},
    [NIdle 0 1], (mat22 1 0 0 0).
  split; [cbn; lra|]. split.
  { intros o [<-|[]]. split; [apply (placement_all 1); lia|lra]. }
  split.
  { split; [|split].
    - cases2; unfold adj, mat22; simpl; apply C_eq; simpl; ring.
    - unfold mtrace, mat22. simpl. ring.
    - intros x. unfold mat22. simpl. unfold Cconj. destruct (x 0%nat) as [u v]. simpl.
      ring_simplify. nra. }
  intros D. cbn [emulate fold_left] in D. set (e := Build_noise _ _ _ _ _) in D.
  assert (E : meq 2 (nop_run e 1 (NIdle 0 1) (mat22 1 0 0 0)) (depolarise 2 (mat22 1 0 0 0))).
  { rewrite one_qubit_run by reflexivity. cbn [nop_unitary nop_duration]. rewrite turned_mid.
    assert (T : depolarization_term e 1 = 2%R); [|now rewrite T].
    unfold depolarization_term, np_power, e. cbn [depolarization]. destruct (Req_EM_T 1 0); [lra|].
    destruct (Rle_dec (1 - -1) 0); [lra|]. rewrite Rpower_1 by lra. lra. }
  apply (density_meq 2 _ _ E) in D. destruct D as (_ & _ & D).
  specialize (D (fun i => match i with O => 0 | _ => 1 end)). unfold depolarise, mtrace, mat22, mid in D. simpl in D. lra.
Qed.

Lemma x_turn_z b : turned 2 (equatorial 0 b) pauli_z 0%nat 0%nat = RtoC (cos b).
Proof.
  assert (Z0 : (0 < 2)%nat) by lia.
  rewrite (turned_meq 2 _ _ _ _ (meq_trans _ _ _ _ (eq_x b) (rotation_entries 1 0 0 b)) (meq_refl 2 pauli_z) 0%nat 0%nat Z0 Z0).
  assert (E : (cos b = cos (b / 2) * cos (b / 2) - sin (b / 2) * sin (b / 2))%R) by (rewrite <- cos_2a; f_equal; field).
  rewrite E.
  unfold turned, mmul, adj, mat22, pauli_z, mat22. simpl. apply C_eq; simpl; ring.
Qed.
Lemma overrotation_refuted_lemma : exists e X, depolarization e = 0%R /\
  ~ meq 2 (emulate e 1 [NR 0 0 (PI / 2); NR 0 0 (PI / 2)] X) (emulate e 1 [NR 0 0 PI] X).
Proof.
  assert (P := PI_RGT_0).
  exists {| depolarization := 0; r_rotation_error := PI / 2; r_phase_error := 0; ms_rotation_error := 0; ms_phase_error := 0 |}, pauli_z.
  split; [reflexivity|]. set (e := Build_noise _ _ _ _ _). intros H.
  assert (RUN : forall a X, (0 < a)%R -> meq 2 (nop_run e 1 (NR 0 0 a) X) (turned 2 (equatorial 0 (a + PI / 2)) X)).
  { intros a X Ha. rewrite one_qubit_run by reflexivity. rewrite term_zero by reflexivity.
    apply turned_meq; [|apply depolarise_1]. cbn [nop_unitary]. unfold noisy_R, e. cbn [r_phase_error r_rotation_error].
    rewrite Rmult_0_r, Rplus_0_r. unfold np_sign. destruct (Rlt_dec 0 a); [|lra]. rewrite Rmult_1_r. apply U_R_equatorial. }
  assert (L : meq 2 (emulate e 1 [NR 0 0 (PI / 2); NR 0 0 (PI / 2)] pauli_z) pauli_z).
  { cbn [emulate fold_left]. rewrite RUN by lra. rewrite (turned_meq 2 _ _ _ _ (meq_refl 2 _) (RUN (PI / 2)%R pauli_z ltac:(lra))).
    replace (PI / 2 + PI / 2)%R with PI by field. rewrite <- turned_mmul.
    eapply meq_trans; [apply (turned_phase 2 (- (1)) _ mid)|apply turned_mid].
    - rewrite Cmod_opp. apply Cmod_1.
    - rewrite (mmul_meq 2 _ _ _ _ (meq_trans _ _ _ _ (eq_x PI) (rotation_entries 1 0 0 PI)) (meq_trans _ _ _ _ (eq_x PI) (rotation_entries 1 0 0 PI))).
      rewrite cos_PI2, sin_PI2. cases2; unfold mmul, mscale, mat22, mid; simpl; apply C_eq; simpl; ring. }
  assert (R0 : meq 2 (emulate e 1 [NR 0 0 PI] pauli_z) (turned 2 (equatorial 0 (PI + PI / 2)) pauli_z)).
  { cbn [emulate fold_left]. apply RUN. lra. }
  assert (Z0 : (0 < 2)%nat) by lia. specialize (H 0%nat 0%nat Z0 Z0).
  rewrite (L 0%nat 0%nat Z0 Z0), (R0 0%nat 0%nat Z0 Z0), x_turn_z in H.
  replace (PI + PI / 2)%R with (3 * (PI / 2))%R in H by field. rewrite cos_3PI2 in H. unfold pauli_z, mat22 in H. simpl in H.
  apply RtoC_inj in H. lra.
Qed.

(** ** Lines of JAQAL as native gates *)
Lemma jaqal_lemma : forall eps t p X, small_drift eps 1 1 ->
  let reads r U := exists u M, r = Ok u /\ native no_noise (u_name u) (listed u) = Some M /\
    meq 2 (of_process 2 pauli M X) (turned 2 U X) in
  reads (g_rx eps t) (rotation 1 0 0 t) /\ reads (g_ry eps t) (rotation 0 1 0 t) /\
  reads (g_rz eps t) (rotation 0 0 1 t) /\
  reads (g_rphi eps t p) (rotation (cos t) (sin t) 0 p).
Proof.
  intros eps t p X He reads.
  destruct (rotations_lemma eps t p He) as (_ & (u1 & E1 & N1 & L1 & _) & _ & (u2 & E2 & N2 & L2 & _) & _ & (u3 & E3 & N3 & L3 & _) & _ & (u4 & E4 & N4 & L4 & _)).
  destruct (named_lemma X t) as (R1 & R2 & R3 & _).
  split; [|split; [|split]].
  - exists u1, (gate_Rx no_noise t). split; [auto|]. unfold listed. rewrite N1, L1. split; [reflexivity|exact R1].
  - exists u2, (gate_Ry no_noise t). split; [auto|]. unfold listed. rewrite N2, L2. split; [reflexivity|exact R2].
  - exists u3, (gate_Rz t). split; [auto|]. unfold listed. rewrite N3, L3. split; [reflexivity|exact R3].
  - exists u4, (gate_R no_noise t p). split; [auto|]. unfold listed. rewrite N4, L4. split; [reflexivity|apply ideal_R].
Qed.
Lemma jaqal_R_refuted_lemma : exists t p X, forall eps, small_drift eps 1 1 ->
  exists u M, g_rphi eps t p = Ok u /\ native no_noise (u_name u) (listed u) = Some M /\
    ~ meq 2 (of_process 2 pauli M X) (turned 2 (rotation (cos p) (sin p) 0 t) X).
Proof.
  exists PI, 0%R, pauli_z. intros eps He. destruct (jaqal_lemma eps PI 0 pauli_z He) as (_ & _ & _ & (u & M & Eu & En & E)).
  exists u, M. split; [auto|]. split; [auto|]. intros H.
  assert (Z0 : (0 < 2)%nat) by lia.
  assert (A := eq_trans (eq_sym (H 0%nat 0%nat Z0 Z0)) (E 0%nat 0%nat Z0 Z0)).
  change (rotation (cos 0) (sin 0) 0 PI) with (equatorial 0 PI) in A. rewrite x_turn_z in A.
  assert (B : meq 2 (turned 2 (rotation (cos PI) (sin PI) 0 0) pauli_z) pauli_z).
  { eapply meq_trans; [apply turned_meq; [|apply meq_refl]|apply turned_mid]. rewrite rotation_entries.
    replace (0 / 2)%R with 0%R by field. rewrite cos_0, sin_0.
    cases2; unfold mat22, mid; simpl; apply C_eq; simpl; ring. }
  rewrite (B 0%nat 0%nat Z0 Z0), cos_PI in A. unfold pauli_z, mat22 in A. simpl in A. apply RtoC_inj in A. lra.
Qed.
Lemma jaqal_names_lemma : forall e vals name, In name ["H"; "T"; "X"; "Y"; "Z"; "CNOT"; "CCNOT"; "XX"; "QECC"; "Rxyz"; "Rxy"; "I"]%string ->
  native e name vals = None.
Proof.
  intros e vals name H. simpl in H.
  destruct vals as [|a [|b [|c vals]]]; unfold native; repeat (destruct H as [<-|H]; [reflexivity|]); destruct H.
Qed.
Lemma jaqal_inverse_lemma : forall eps e u v, u_inverse eps u = Ok v ->
  native e (u_name v) (listed v) = native e (u_name u) (listed u).
Proof.
  intros eps e u v H. apply u_inverse_labels in H. destruct H as (N & P & _). unfold listed. now rewrite N, P.
Qed.

Lemma idle_beside_lemma : forall e a t t' X,
  survives e (Rabs a / (PI / 2)) t -> survives e (10 * (Rabs a / (PI / 2))) t' ->
  meq 2 (of_process 2 pauli (idle e (gateduration_Rz a)) X) X /\
  meq 2 (of_process 2 pauli (idle e (gateduration_R a)) X) (depolarise t X) /\
  meq 2 (of_process 2 pauli (idle e (gateduration_MS a)) X) (depolarise t' X).
Proof.
  intros e a t t' X H H'. split; [|split].
  - eapply meq_trans; [apply (idle_lemma e _ 1%R)|].
    + right. right. split; reflexivity.
    + intros i j _ _. unfold depolarise. replace (1 - 1)%R with 0%R by ring. ring.
  - apply idle_lemma, H.
  - apply idle_lemma. unfold gateduration_MS. replace (10 * Rabs a / (PI / 2))%R with (10 * (Rabs a / (PI / 2)))%R; auto.
    unfold Rdiv. ring.
Qed.
