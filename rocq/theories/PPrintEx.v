(** Values of the JAQAL and display texts. *)
From Coq Require Import Reals List Arith Lia Lra Bool String Ascii ZArith Ratan.
From Coquelicot Require Import Rcomplements Complex.
From Verif Require Import Base CMat CMatFacts Det DetFacts Norms ModelUnitary ModelPrimitive ModelEntry ModelSequence ModelCompiler ModelGates ModelText
  ModelDecimal ModelExample Spec SpecModel SpecCompiler SpecText SpecGates SpecExample SpecDecimal SpecPrint PUnitary PBits PFamilies PNotebook PDecimal PDecimalOp
  PDecimalEx PPrint.
Import ListNotations.
Open Scope R_scope.
Open Scope string_scope.
Set Bullet Behavior "Strict Subproofs".

Lemma pi_digits : (3141592653 / 10 ^ 9 <= PI <= 3141592654 / 10 ^ 9)%R.
Proof.
  destruct (PI_2_3_7_ineq 6) as [L U].
  cbn [Nat.mul Nat.add] in L, U. unfold sum_f_R0, tg_alt, PI_2_3_7_tg, Ratan_seq in L, U. cbn [Nat.mul Nat.add] in L, U.
  cbn [INR pow] in L, U. split; lra.
Qed.

Lemma C105_angle_lemma : forall v, (0 <= v <= 2 * PI)%R ->
  (0 <= read_real (py_fmt 7 v) <= 2 * PI)%R /\ (Rabs (read_real (py_fmt 7 v) - v) <= / 2 / 10 ^ 7)%R /\
  (0 <= read_shown ("theta=" ++ display_value py_fmt (v, true)) <= 2 * PI)%R /\
  (Rabs (read_shown ("theta=" ++ display_value py_fmt (v, true)) - v) <= PI / 2 / 10 ^ 3)%R.
Proof.
  intros v Hv. assert (P := pi_digits). split; [|split; [apply (py_fmt_close 7)|split]].
  - assert (A := C95_order_lemma 7 _ _ (proj1 Hv)). assert (B := C95_order_lemma 7 _ _ (proj2 Hv)).
    assert (A0 := C95_exact_lemma 7 0). replace (0 / 10 ^ 7)%R with 0%R in A0 by field. rewrite A0 in A.
    enough (E : (read_real (py_fmt 7 (2 * PI)) <= 2 * PI)%R) by lra.
    apply Rle_trans with (62831853 / 10 ^ 7)%R; [|lra].
    assert (X := py_fmt_close 7 (2 * PI)). destruct (C95_number_lemma 7 (2 * PI)) as (_ & (m & Em) & _).
    rewrite Em in *. apply Rabs_le_between in X.
    assert (m <= 62831853)%Z.
    { apply Z.lt_succ_r, lt_IZR. change (Z.succ 62831853) with 62831854%Z. lra. }
    apply Rmult_le_compat_r; [lra|]. now apply IZR_le.
  - assert (E : read_shown ("theta=" ++ display_value py_fmt (v, true)) = (PI * read_real (py_fmt 3 (v / PI)))%R).
    { exact (shown_value "theta" v ltac:(apply plain_dec; reflexivity)). }
    rewrite E. assert (Q : (0 <= v / PI <= 2)%R).
    { split; [apply Rmult_le_pos; [lra|left; apply Rinv_0_lt_compat; lra]|]. apply (Rmult_le_reg_r PI); [lra|]. unfold Rdiv. rewrite Rmult_assoc, Rinv_l; lra. }
    assert (A := C95_order_lemma 3 _ _ (proj1 Q)). assert (B := C95_order_lemma 3 _ _ (proj2 Q)).
    assert (A0 := C95_exact_lemma 3 0). replace (0 / 10 ^ 3)%R with 0%R in A0 by field. rewrite A0 in A.
    assert (B0 := C95_exact_lemma 3 2000). replace (2000 / 10 ^ 3)%R with 2%R in B0 by field. rewrite B0 in B. nra.
  - exact (display_reads "theta" v ltac:(apply plain_dec; reflexivity)).
Qed.

Lemma C105_same_text_lemma : exists u v, library_gate 0 u /\ library_gate 0 v /\
  (forall qs, jaqal_line py_fmt (u, qs) = jaqal_line py_fmt (v, qs)) /\
  (forall qs, display_line py_fmt (u, qs) = display_line py_fmt (v, qs)) /\ ~ meq 4 (u_mat u) (u_mat v).
Proof.
  assert (SD : small_drift 0 2 1) by apply drift_0. assert (P := PI_RGT_0). assert (P4 := PI_4).
  destruct (xx_member 0 0 SD ltac:(lra)) as (u & Lu & Du & Nu & Pu & _ & Mu).
  destruct (xx_member 0 (PI / 10 ^ 9) SD ltac:(lra)) as (v & Lv & Dv & Nv & Pv & _ & Mv).
  exists u, v. split; [exact Lu|]. split; [exact Lv|].
  assert (C0 : forall A, eps_clean 0 4 A) by (intros A; apply eps_clean_0).
  specialize (Mu (C0 _)). specialize (Mv (C0 _)).
  assert (S : (0 < sin (PI / 10 ^ 9))%R) by (apply sin_gt_0; lra).
  split; [|split].
  - intros qs. unfold jaqal_line. cbn [fst snd]. rewrite Nu, Nv, Pu, Pv. cbn [map fst snd].
    assert (E : py_fmt 7 0 = py_fmt 7 (PI / 10 ^ 9)); [|now rewrite E].
    transitivity "0.0"; [units 0%Z|symmetry; units 0%Z].
  - intros qs. unfold display_line. cbn [fst snd]. rewrite Nu, Nv, Pu, Pv. cbn [map fst snd display_value].
    assert (E : py_fmt 3 (0 / PI) = py_fmt 3 (PI / 10 ^ 9 / PI)); [|now rewrite E].
    replace (0 / PI)%R with 0%R by (field; lra). replace (PI / 10 ^ 9 / PI)%R with (/ 10 ^ 9)%R by (field; lra).
    transitivity "0.0"; [units 0%Z|symmetry; units 0%Z].
  - intros E. specialize (E 0%nat 3%nat ltac:(lia) ltac:(lia)). rewrite (Mu 0%nat 3%nat), (Mv 0%nat 3%nat) in E by lia.
    unfold xx_coupling, kron, pauli_x, mid, mat22 in E. apply (f_equal snd) in E. cbn -[sin cos pow] in E. rewrite sin_0 in E. lra.
Qed.

Lemma ex_C105_lemma : exists w u v, drift_world eps_code 2 w /\ has_dim w 0 (2 ^ 2) /\ contents w 0 = [(u, [0; 1]%nat); (v, [1; 0]%nat)] /\
  small_drift eps_code 2 2 /\ small_drift eps_code 2 1 /\ (forall g, In g (contents w 0) -> library_gate eps_code (fst g)) /\
  map (jaqal_line py_fmt) (contents w 0) = [("XX", ["1.0471976"], [0; 1]%nat); ("XX", ["1.0"], [1; 0]%nat)] /\
  map (display_line py_fmt) (contents w 0) = [("XX", ["theta=0.333π"], [0; 1]%nat); ("XX", ["theta=0.318π"], [1; 0]%nat)].
Proof.
  destruct ex_C95_text_lemma as (w & u & v & HX & HD & C & Pu & Pv & S2 & S1 & HG). exists w, u, v.
  split; [exact HX|]. split; [exact HD|]. split; [exact C|]. split; [exact S2|]. split; [exact S1|]. split; [exact HG|].
  assert (N : forall g vs, library_gate eps_code g -> u_params g = [("theta", vs)] -> u_name g = "XX").
  { intros g vs HL HP. apply (one_angle_xx eps_code g vs S1 HL HP). }
  assert (Nu : u_name u = "XX") by (eapply (N u); [apply (HG (u, [0; 1]%nat)); rewrite C; left; reflexivity|exact Pu]).
  assert (Nv : u_name v = "XX") by (eapply (N v); [apply (HG (v, [1; 0]%nat)); rewrite C; right; left; reflexivity|exact Pv]).
  assert (P := pi_digits). rewrite C. unfold jaqal_line, display_line. cbn [map fst snd]. rewrite Nu, Nv, Pu, Pv. cbn [map fst snd display_value].
  assert (I : (3183 / 10 ^ 4 <= 1 / PI <= 3184 / 10 ^ 4)%R).
  { split; (apply (Rmult_le_reg_r PI); [lra|]); unfold Rdiv; rewrite Rmult_1_l, Rinv_l by lra; lra. }
  replace (PI / 3 / PI)%R with (1 / 3)%R by (field; lra).
  assert (E1 : py_fmt 7 (PI / 3) = "1.0471976") by units 10471976%Z.
  assert (E2 : py_fmt 7 1 = "1.0") by units 10000000%Z.
  assert (E3 : py_fmt 3 (1 / 3) = "0.333") by units 333%Z.
  assert (E4 : py_fmt 3 (1 / PI) = "0.318") by units 318%Z.
  rewrite E1, E2, E3, E4. split; reflexivity.
Qed.
