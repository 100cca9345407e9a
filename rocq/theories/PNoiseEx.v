(** Concrete cases for the statements about noise. *)
From Coq Require Import Reals List Arith Lia Lra Bool Psatz Setoid Morphisms String.
From Coquelicot Require Import Rcomplements Complex.
From Verif Require Import Base CMat CMatFacts Det DetFacts Norms Spec SpecModel SpecGates SpecChannel
  ModelUnitary ModelGates SpecCompiler ModelNoise SpecNoise PUnitary PBits PEmbed PEntry PSeqNear PChannel PGates PNoise PNoise2 PNoise3 PNoise4 PNoise5 PGatesEx.
Import ListNotations.
Open Scope R_scope.
Open Scope C_scope.

(** Half of the state is lost in a quarter turn; over-rotation by a third of a turn. *)
Definition some_noise : noise :=
  {| depolarization := / 2; r_rotation_error := PI / 3; r_phase_error := 1; ms_rotation_error := 1; ms_phase_error := / 4 |}.

Lemma ex_C76_lemma : exists e t b, survives e (Rabs (- (PI / 2)) / (PI / 2)) t /\
  overrotated (r_rotation_error e) (- (PI / 2)) b /\ t = (/ 2)%R /\ b = (- (5 * PI / 6))%R /\
  of_process 2 pauli (gate_R e 0 (- (PI / 2))) pauli_z 0%nat 0%nat = RtoC (- (sqrt 3 / 4)).
Proof.
  assert (P := PI_RGT_0). exists some_noise, (/ 2)%R, (- (5 * PI / 6))%R.
  assert (A : survives some_noise (Rabs (- (PI / 2)) / (PI / 2)) (/ 2)).
  { left. cbn [depolarization some_noise]. split; [lra|]. rewrite Rabs_Ropp, Rabs_right by lra.
    replace (PI / 2 / (PI / 2))%R with 1%R by (field; lra). replace (1 - / 2)%R with (/ 2)%R by field. rewrite Rpower_1; lra. }
  assert (B : overrotated (r_rotation_error some_noise) (- (PI / 2)) (- (5 * PI / 6))).
  { cbn [r_rotation_error some_noise]. unfold overrotated. lra. }
  split; [exact A|]. split; [exact B|]. split; [reflexivity|]. split; [reflexivity|].
  assert (Z0 : (0 < 2)%nat) by lia.
  rewrite (gate_R_lemma some_noise 0 (- (PI / 2)) _ _ pauli_z A B 0%nat 0%nat Z0 Z0).
  cbn [r_phase_error some_noise].
  assert (D : meq 2 (depolarise (/ 2) pauli_z) (mscale (RtoC (/ 2)) pauli_z)).
  { intros i j _ _. unfold depolarise, mscale. assert (T : mtrace 2 pauli_z = 0) by (unfold mtrace, pauli_z, mat22; simpl; apply C_eq; simpl; ring).
    rewrite T. unfold Cdiv. ring. }
  assert (Q : meq 2 (equatorial (0 + 2 * PI * 1) (- (5 * PI / 6))) (equatorial 0 (- (5 * PI / 6)))).
  { unfold equatorial. rewrite Rplus_0_l, Rmult_1_r, cos_2PI, sin_2PI, cos_0, sin_0. reflexivity. }
  rewrite (turned_meq 2 _ _ _ _ Q D 0%nat 0%nat Z0 Z0). rewrite (turned_scale 2 _ _ _ 0%nat 0%nat Z0 Z0).
  unfold mscale. rewrite x_turn_z, cos_neg. replace (5 * PI / 6)%R with (- (PI / 6) + PI)%R by field.
  rewrite neg_cos, cos_neg, cos_PI6. rewrite <- RtoC_mult. f_equal. field.
Qed.

Definition some_circuit : list nop := [NR 0 0 (PI / 2); NMS 1 0 (PI / 3) (- (PI / 2)); NRz 1 1; NIdle 0 2].
Lemma some_ok : circuit_ok 2 some_circuit.
Proof.
  assert (PL : forall q, (q < 2)%nat -> placement 2 [q]) by apply placement_2.
  intros o [<-|[<-|[<-|[<-|[]]]]]; cbn [nop_qubits]; (split; [|try exact I; lra]); try (apply PL; lia).
  split; [|split].
  - repeat constructor; simpl; intuition discriminate.
  - discriminate.
  - intros q [<-|[<-|[]]]; lia.
Qed.
Lemma unit_density d : (0 < d)%nat -> density d (unit_mx 0 0).
Proof.
  intros Hd. split; [|split].
  - intros i j _ _. unfold adj, unit_mx. rewrite andb_comm. destruct (Nat.eqb i 0 && Nat.eqb j 0); apply Cconj_R.
  - unfold mtrace. rewrite (csum_single d 0); auto. intros i _ N. unfold unit_mx. apply Nat.eqb_neq in N. now rewrite N.
  - intros x. rewrite (csum_single d 0); auto.
    + rewrite (csum_single d 0); auto.
      * unfold unit_mx. cbn [Nat.eqb andb]. destruct (x 0%nat) as [u v]. simpl. nra.
      * intros j _ N. unfold unit_mx. apply Nat.eqb_neq in N. rewrite N. cbn [Nat.eqb andb]. ring.
    + intros i _ N. apply csum_zero. intros j _. unfold unit_mx. apply Nat.eqb_neq in N. rewrite N. cbn [andb]. ring.
Qed.
Lemma ex_C77_lemma : exists e c, (0 <= depolarization e <= 1)%R /\ (0 < depolarization e)%R /\ circuit_ok 2 c /\
  In (NMS 1 0 (PI / 3) (- (PI / 2))) c /\ density (2 ^ 2) (unit_mx 0 0).
Proof.
  exists some_noise, some_circuit. split; [cbn; lra|]. split; [cbn; lra|]. split; [apply some_ok|].
  split; [right; left; reflexivity|]. apply unit_density. simpl. lia.
Qed.

(** Errors that a single gate shows and its mirror circuit does not. *)
Lemma ex_C78_lemma : exists e c, depolarization e = 0%R /\ circuit_ok 1 c /\
  ~ meq 2 (emulate e 1 c pauli_z) (emulate no_noise 1 c pauli_z) /\
  meq 2 (emulate e 1 (c ++ mirror c) pauli_z) (emulate no_noise 1 (c ++ mirror c) pauli_z).
Proof.
  assert (P := PI_RGT_0). exists (coherent some_noise), [NR 0 0 (PI / 2)].
  assert (OK : circuit_ok 1 [NR 0 0 (PI / 2)]).
  { intros o [<-|[]]. split; [apply (placement_all 1); lia|exact I]. }
  assert (Z0 : (0 < 2)%nat) by lia.
  split; [reflexivity|]. split; [exact OK|]. split.
  - intros H. cbn [emulate fold_left] in H. specialize (H 0%nat 0%nat Z0 Z0).
    rewrite (one_qubit_coherent_run some_noise _ pauli_z (eq_refl : nop_qubits (NR 0 0 (PI / 2)) = [0%nat]) 0%nat 0%nat Z0 Z0) in H.
    rewrite (one_qubit_run no_noise _ pauli_z (eq_refl : nop_qubits (NR 0 0 (PI / 2)) = [0%nat]) 0%nat 0%nat Z0 Z0) in H.
    rewrite term_zero in H by reflexivity. cbn [nop_unitary] in H. unfold noisy_R in H.
    cbn [r_phase_error r_rotation_error some_noise no_noise] in H.
    assert (SG : np_sign (PI / 2) = 1%R) by (unfold np_sign; destruct (Rlt_dec 0 (PI / 2)); lra). rewrite SG in H.
    rewrite !Rmult_1_r, Rplus_0_l, Rmult_0_r, !Rplus_0_r in H.
    rewrite (turned_meq 2 _ _ _ _ (U_R_equatorial (2 * PI) (PI / 2 + PI / 3)) (meq_refl 2 pauli_z) 0%nat 0%nat Z0 Z0) in H.
    rewrite (turned_meq 2 _ _ _ _ (U_R_equatorial 0 (PI / 2)) (depolarise_1 pauli_z) 0%nat 0%nat Z0 Z0) in H.
    replace (equatorial (2 * PI) (PI / 2 + PI / 3)) with (equatorial 0 (PI / 2 + PI / 3)) in H
      by (unfold equatorial; now rewrite cos_2PI, sin_2PI, cos_0, sin_0).
    rewrite !x_turn_z in H. apply RtoC_inj in H. rewrite cos_PI2 in H. rewrite cos_plus, cos_PI2, sin_PI2, sin_PI3 in H.
    assert (S3 : (0 < sqrt 3)%R) by (apply sqrt_lt_R0; lra). lra.
  - rewrite (mirror_lemma (coherent some_noise) 1 _ pauli_z eq_refl OK).
    now rewrite (mirror_lemma no_noise 1 _ pauli_z eq_refl OK).
Qed.
Lemma ex_C78_one_lemma : exists e c, circuit_ok 1 c /\ survives e (total_duration c) (/ 8) /\
  survives e (2 * total_duration c) (/ 64) /\ In (NIdle 0 2) c /\ In (NR 0 1 (PI / 2)) c.
Proof.
  assert (P := PI_RGT_0). exists some_noise, [NR 0 1 (PI / 2); NRz 0 3; NIdle 0 2].
  assert (D : total_duration [NR 0 1 (PI / 2); NRz 0 3; NIdle 0 2] = 3%R).
  { cbn [total_duration fold_right nop_duration]. rewrite Rabs_right by lra. field. lra. }
  rewrite D. split.
  { intros o [<-|[<-|[<-|[]]]]; (split; [apply (placement_all 1); lia|try exact I; lra]). }
  split; [|split].
  - left. cbn [depolarization some_noise]. split; [lra|]. replace 3%R with (INR 3) by (simpl; lra).
    rewrite Rpower_pow by lra. simpl. field.
  - left. cbn [depolarization some_noise]. split; [lra|]. replace (2 * 3)%R with (INR 6) by (simpl; lra).
    rewrite Rpower_pow by lra. simpl. field.
  - simpl. auto.
Qed.
Lemma ex_C79_lemma : small_drift eps_code 1 1 /\
  exists u, g_rx eps_code (PI / 2) = Ok u /\
    native no_noise (u_name u) (listed u) = Some (gate_Sx no_noise) /\
  exists v, g_rphi eps_code (PI / 2) 0 = Ok v /\ u_mat v = u_mat u /\
    native no_noise (u_name v) (listed v) = Some (gate_R no_noise (PI / 2) 0).
Proof.
  assert (H : small_drift eps_code 1 1) by apply ex_rotation_lemma. split; [exact H|].
  destruct (rotations_lemma eps_code (PI / 2) 0 H) as (_ & (u & Eu & Nu & Lu & _) & _ & _ & _ & _ & _ & (v & Ev & Nv & Lv & _)).
  exists u. split; [exact Eu|]. unfold listed. rewrite Nu, Lu. split; [reflexivity|].
  exists v. split; [exact Ev|]. rewrite Nv, Lv. split; [|reflexivity].
  destruct (rphi_axes_lemma eps_code (PI / 2) H) as [(v' & u' & E1 & E2 & E3) _]. congruence.
Qed.
