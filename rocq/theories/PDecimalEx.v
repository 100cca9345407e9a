(** Printed numbers: order, exactness, examples. *)
From Coq Require Import Reals List Arith Lia Lra Bool String Ascii ZArith.
From Flocq Require Import Core.Core.
From Coquelicot Require Import Rcomplements Complex.
From Verif Require Import Base CMat CMatFacts Det DetFacts Norms ModelUnitary ModelPrimitive ModelEntry ModelSequence ModelCompiler ModelGates ModelText
  ModelDecimal ModelExample Spec SpecModel SpecCompiler SpecText SpecGates SpecExample SpecDecimal PUnitary PGates PGms PFamilies PTextSeq PSeqProps PSeqEx PCompProps
  PDrift PEntry PSeqNear PCompTotal PCompMore PGatesEx PExample PTextEx PCompCases PCompEx
  PExample PNotebook PDecimal PDecimalOp PDecimalReport.
Import ListNotations.
Open Scope R_scope.
Open Scope string_scope.
Set Bullet Behavior "Strict Subproofs".

Lemma C95_number_lemma : forall k x, numeral (py_fmt k x) /\
  (exists n, read_real (py_fmt k x) = IZR n / 10 ^ k) /\ (Rabs (read_real (py_fmt k x) - x) <= / 2 * / 10 ^ k)%R /\
  (forall m, Rabs (read_real (py_fmt k x) - x) <= Rabs (IZR m / 10 ^ k - x))%R.
Proof.
  intros k x. split; [apply py_fmt_numeral|]. split; [rewrite read_py_fmt; eauto|]. split; [apply py_fmt_close|].
  intros m. rewrite read_py_fmt. assert (Hp : (0 < 10 ^ k)%R) by (apply pow_lt; lra).
  assert (H := Znearest_half (fun x => negb (Z.even x)) (x * 10 ^ k)%R). fold (round_units k x) in H.
  assert (E : forall z, (Rabs (IZR z / 10 ^ k - x) = Rabs (IZR z - x * 10 ^ k) * / 10 ^ k)%R).
  { intros z. rewrite <- (Rabs_pos_eq (/ 10 ^ k)) at 1 by (left; now apply Rinv_0_lt_compat). rewrite <- Rabs_mult. f_equal. field. lra. }
  rewrite !E. apply Rmult_le_compat_r; [left; now apply Rinv_0_lt_compat|].
  destruct (Z.eq_dec m (round_units k x)) as [->|N]; [lra|]. set (z := round_units k x) in *. set (y := (x * 10 ^ k)%R) in *.
  assert (D : (1 <= Rabs (IZR m - IZR z))%R) by (rewrite <- minus_IZR, <- abs_IZR; apply IZR_le; lia).
  assert (T := Rabs_triang (IZR m - y) (y - IZR z)). replace (IZR m - y + (y - IZR z))%R with (IZR m - IZR z)%R in T by ring.
  rewrite (Rabs_minus_sym (IZR z)). lra.
Qed.

(** Decimals with that many places are kept, and the order is. *)
Lemma C95_exact_lemma : forall k n, read_real (py_fmt k (IZR n / 10 ^ k)) = (IZR n / 10 ^ k)%R.
Proof.
  intros k n. rewrite read_py_fmt. unfold round_units. assert (Hp : (0 < 10 ^ k)%R) by (apply pow_lt; lra).
  replace (IZR n / 10 ^ k * 10 ^ k)%R with (IZR n) by (field; lra). now rewrite (Zrnd_IZR ZnearestE n).
Qed.
Lemma C95_order_lemma : forall k x y, (x <= y)%R -> (read_real (py_fmt k x) <= read_real (py_fmt k y))%R.
Proof.
  intros k x y H. rewrite !read_py_fmt. assert (Hp : (0 < 10 ^ k)%R) by (apply pow_lt; lra).
  apply Rmult_le_compat_r; [left; now apply Rinv_0_lt_compat|]. apply IZR_le. unfold round_units. apply (Zrnd_le ZnearestE).
  apply Rmult_le_compat_r; lra.
Qed.

Lemma C95_angle_lemma : forall v, (0 <= v <= 2 * PI)%R ->
  let v' := read_value (qasm_value py_fmt (v, true)) in (0 <= v' <= 2 * PI)%R /\ (Rabs (v' - v) <= PI / 2 / 10 ^ 7)%R.
Proof.
  intros v Hv v'. split; [|apply angle_close]. assert (P := PI_RGT_0).
  unfold v', qasm_value. cbn [append read_value].
  assert (A : (0 <= v / PI)%R) by (apply Rmult_le_pos; [lra|left; apply Rinv_0_lt_compat; lra]).
  assert (B : (v / PI <= 2)%R) by (apply Rle_div_l; lra).
  assert (E0 := C95_exact_lemma 7 0). assert (E2 := C95_exact_lemma 7 20000000).
  replace (IZR 0 / 10 ^ 7)%R with 0%R in E0 by lra. replace (IZR 20000000 / 10 ^ 7)%R with 2%R in E2 by lra.
  assert (O0 := C95_order_lemma 7 _ _ A). assert (O2 := C95_order_lemma 7 _ _ B). rewrite E0 in O0. rewrite E2 in O2. 
  split; [apply Rmult_le_pos; lra|]. rewrite (Rmult_comm 2). apply Rmult_le_compat_l; lra.
Qed.

Lemma fmt_units k x n : (Rabs (x * 10 ^ k - IZR n) < / 2)%R -> round_units k x = n.
Proof. intros H. unfold round_units. apply Znearest_imp. exact H. Qed.

Ltac units n := unfold py_fmt; (destruct (Rlt_dec _ 0); [try (exfalso; lra)|try (exfalso; lra)]);
  rewrite (fmt_units _ _ n) by (apply Rabs_def1; lra); vm_compute; reflexivity.
Lemma ex_C95_texts_lemma :
  py_fmt 7 (1 / 4) = "0.25" /\ py_fmt 7 2 = "2.0" /\ py_fmt 7 0 = "0.0" /\ py_fmt 7 (-1 / 3) = "-0.3333333" /\
  py_fmt 7 (25 / 2) = "12.5" /\ py_fmt 7 (/ 10 ^ 4) = "0.0001" /\ py_fmt 7 (/ 10 ^ 5) = "1e-05" /\
  py_fmt 7 (12 / 10 ^ 7) = "1.2e-06" /\ py_fmt 7 (-1 / 10 ^ 9) = "-0.0" /\ py_fmt 3 (1234 / 1000) = "1.234" /\
  read_real "1.2e-06" = (12 / 10 ^ 7)%R /\ read_value "pi*0.25" = (PI / 4)%R.
Proof.
  split; [units 2500000%Z|]. split; [units 20000000%Z|]. split; [units 0%Z|]. split; [units (-3333333)%Z|].
  split; [units 125000000%Z|]. split; [units 1000%Z|]. split; [units 100%Z|]. split; [units 12%Z|]. split; [units 0%Z|].
  split; [units 1234%Z|]. split.
  - change (read_real "1.2e-06") with (read_plain "1.2" * powerRZ 10 (-6))%R.
    change (read_plain "1.2") with (IZR 12 / 10 ^ 1)%R. change (powerRZ 10 (-6)) with (/ 10 ^ 6)%R. field.
  - change (read_value "pi*0.25") with (PI * (IZR 25 / 10 ^ 2))%R. field.
Qed.

(** Two gates of the library that print the same. *)
Lemma xx_member eps t : small_drift eps 2 1 -> (0 <= t <= 2 * PI)%R ->
  exists u, library_gate eps u /\ u_dim u = 4%nat /\ u_name u = "XX" /\ u_params u = [("theta", (t, true))] /\
    made eps u /\ (eps_clean eps 4 (xx_coupling t) -> meq 4 (u_mat u) (xx_coupling t)).
Proof.
  intros SD Ht. destruct (xx_family_lemma eps t SD Ht) as (pu & Ep & (u & Eu & D & _ & _ & X) & (v & Ev & N & P & _)).
  rewrite Eu in Ev. injection Ev as <-. exists u.
  assert (R : in_range (pu_params pu) [t]).
  { unfold pd_xx in Ep. rewrite !angle_ok in Ep by reflexivity. injection Ep as <-. cbn [pu_params]. constructor; [cbn [pr_min pr_max]; lra|constructor]. }
  split; [exists pu, [t]; auto|]. split; [exact D|]. split; [exact N|]. split; [exact P|]. split; [|exact X].
  destruct (library_good_lemma eps SD) as (_ & _ & (pu' & Ep' & _ & G)). rewrite Ep in Ep'. injection Ep' as <-.
  destruct (G [t] R) as (M & EM & HM). unfold as_unitary in Eu.
  destruct (check_values _ _) as [b|]; cbn [bind] in Eu; [|discriminate Eu]. destruct b; cbn [bind assert] in Eu; [|discriminate Eu].
  destruct (fill_dict _ _ _) as [d|]; cbn [bind] in Eu; [|discriminate Eu]. rewrite EM in Eu. cbn [bind] in Eu.
  do 6 eexists. split; [exact HM|exact Eu].
Qed.

Lemma C95_same_text_lemma : exists u v, library_gate 0 u /\ library_gate 0 v /\
  (forall qs, qasm_line py_fmt (u, qs) = qasm_line py_fmt (v, qs)) /\ u_params u <> u_params v /\
  ~ meq 4 (u_mat u) (u_mat v).
Proof.
  assert (SD : small_drift 0 2 1) by apply drift_0. assert (P := PI_RGT_0).
  destruct (xx_member 0 0 SD ltac:(lra)) as (u & Lu & Du & Nu & Pu & _ & Mu).
  destruct (xx_member 0 (PI / 10 ^ 9) SD ltac:(lra)) as (v & Lv & Dv & Nv & Pv & _ & Mv).
  exists u, v. split; [exact Lu|]. split; [exact Lv|].
  assert (C0 : forall A, eps_clean 0 4 A) by (intros A; apply eps_clean_0).
  specialize (Mu (C0 _)). specialize (Mv (C0 _)).
  assert (S : (0 < sin (PI / 10 ^ 9))%R) by (apply sin_gt_0; lra).
  split; [|split].
  - intros qs. unfold qasm_line. cbn [fst snd]. rewrite Nu, Nv, Pu, Pv. cbn [map snd qasm_value].
    assert (E : py_fmt 7 (0 / PI) = py_fmt 7 (PI / 10 ^ 9 / PI)); [|now rewrite E].
    replace (0 / PI)%R with 0%R by (field; lra). replace (PI / 10 ^ 9 / PI)%R with (/ 10 ^ 9)%R by (field; lra).
    transitivity "0.0"; [units 0%Z|symmetry; units 0%Z].
  - rewrite Pu, Pv. intros E. injection E as E. lra.
  - intros E. specialize (E 0%nat 3%nat ltac:(lia) ltac:(lia)). rewrite (Mu 0%nat 3%nat), (Mv 0%nat 3%nat) in E by lia.
    unfold xx_coupling, kron, pauli_x, mid, mat22 in E. apply (f_equal snd) in E. cbn -[sin cos pow] in E. rewrite sin_0 in E. lra.
Qed.

(** A sequence of two gates of the library at the threshold of the code. *)
Lemma ex_C95_text_lemma : exists w u v, drift_world eps_code 2 w /\ has_dim w 0 (2 ^ 2) /\ contents w 0 = [(u, [0; 1]%nat); (v, [1; 0]%nat)] /\
  u_params u = [("theta", ((PI / 3)%R, true))] /\ u_params v = [("theta", (1%R, true))] /\
  small_drift eps_code 2 2 /\ small_drift eps_code 2 1 /\ (forall g, In g (contents w 0) -> library_gate eps_code (fst g)).
Proof.
  assert (SD2 : small_drift eps_code 2 2) by exact (small_drift_steps eps_code 2 2 25 ltac:(lia) ex_C94_threshold).
  assert (SD : small_drift eps_code 2 1) by exact (small_drift_steps eps_code 2 1 2 ltac:(lia) SD2). assert (P := PI_RGT_0). assert (P2 := PI2_1).
  destruct (xx_member eps_code (PI / 3) SD ltac:(lra)) as (u & Lu & Du & Nu & Pu & Hu & _).
  destruct (xx_member eps_code 1 SD ltac:(lra)) as (v & Lv & Dv & Nv & Pv & Hv & _).
  set (os := [NewEntry u [0%Z; 1%Z]; NewEntry v [1%Z; 0%Z]; NewSequence 4 false [0; 1]%nat]).
  exists (exec eps_code os w_empty), u, v.
  assert (C : contents (exec eps_code os w_empty) 0 = [(u, [0; 1]%nat); (v, [1; 0]%nat)]).
  { unfold os. clear - Du Dv. destruct u as [du mu nu pu iu au], v as [dv mv nv pv iv av]. cbn in Du, Dv. subst. reflexivity. }
  split; [exists os; split; [reflexivity|]; split; [cbn [history os]; auto 20|reflexivity]|].
  split; [unfold os; clear - Du Dv; destruct u as [du mu nu pu iu au], v as [dv mv nv pv iv av]; cbn in Du, Dv; subst; eexists; split; reflexivity|].
  split; [exact C|]. split; [exact Pu|]. split; [exact Pv|]. split; [exact SD2|]. split; [exact SD|].
  rewrite C. intros g [<-|[<-|[]]]; assumption.
Qed.

Lemma ex_C95_gate_lemma : exists u, library_gate eps_code u /\ u_params u = [("theta", ((PI / 3)%R, true))] /\ small_drift eps_code 2 1 /\
  placement 3 [2; 0]%nat /\ (2 ^ List.length [2; 0]%nat)%nat = u_dim u.
Proof.
  assert (SD : small_drift eps_code 2 1) by exact (small_drift_steps eps_code 2 1 25 ltac:(lia) ex_C94_threshold). assert (P := PI_RGT_0).
  destruct (xx_member eps_code (PI / 3) SD ltac:(lra)) as (u & Lu & Du & Nu & Pu & _). exists u. rewrite Du.
  split; [exact Lu|]. split; [exact Pu|]. split; [exact SD|]. split; [|reflexivity].
  split; [repeat constructor; simpl; intuition discriminate|]. split; [discriminate|]. intros q [<-|[<-|[]]]; lia.
Qed.

Lemma ex_C95_report_lemma : exists g c T target (rvs : nat -> res ndarray), rng_ok g /\ drift_world eps_code 0 w_empty /\ good_compiler eps_code 2 c /\ c_array c = false /\
  List.length (c_prims c) = 2%nat /\ (forall p u, In p (c_prims c) -> instance eps_code p u -> library_gate eps_code u) /\
  unitary_mx (2 ^ 2) T /\ mk_unitary eps_code (2 ^ 2) (Some (square (2 ^ 2) T)) None [] false [] = Ok target /\
  rvs 4%nat = Ok (square 4 T) /\ (overlap 4 T mid = 0)%R /\
  small_drift eps_code 2 (S (0 + Z.to_nat 24)) /\ small_drift eps_code 2 (S (Z.to_nat 12 + Z.to_nat 12)) /\ small_drift eps_code 2 1 /\
  exists st r, compile_and_report py_fmt g eps_code target 24 ({| r_world := w_empty; r_draws := 0 |}, c) = (st, Ok r).
Proof.
  assert (SD : small_drift eps_code 2 1) by exact (small_drift_steps eps_code 2 1 25 ltac:(lia) ex_C94_threshold).
  destruct (example_compiler_lemma eps_code SD) as (c & Ec & HC & HA & HL & HI).
  destruct (drift_small _ _ _ ex_C94_threshold) as [L _]. destruct (proj1 ex_C94_threshold) as [e0 e1].
  destruct (made_ok eps_code e0 (2 ^ 2) (xx_coupling (PI / 2)) None [] false [] ltac:(simpl; lia) (or_introl (proj1 (xx_special (PI / 2))))
    (lim_tame eps_code e0 e1 2 2 (2 ^ 2) (le_n _) (le_n _) (lim_mono eps_code e0 e1 2 2 (8 * 25) ltac:(lia) L))) as (v & Ev & _).
  assert (O : (overlap 4 (xx_coupling (PI / 2)) mid = 0)%R).
  { rewrite <- (overlap_meq 4 _ _ _ _ (meq_refl _ _) coupling_zero), coupling_overlap, Rminus_0_r, cos_PI2. apply Rabs_R0. }
  assert (Hpl : forall p u, In p (c_prims c) -> instance eps_code p u -> plain_gate u).
  { intros p u Hp Hi. apply notebook_plain. now apply (HI p). }
  exists (const_rng 0 0), c, (xx_coupling (PI / 2)), v, (fun d => Ok (square d (xx_coupling (PI / 2)))).
  split; [apply const_rng_ok; lra|]. split; [apply empty_world_drift|]. split; [exact HC|]. split; [exact HA|]. split; [exact HL|].
  split; [intros p u; now apply example_library|]. split; [apply (xx_special (PI / 2))|]. split; [exact Ev|]. split; [reflexivity|]. split; [exact O|].
  split; [exact ex_C94_threshold|]. split; [exact ex_C94_threshold|]. split; [exact SD|].
  destruct (C94_report_lemma py_fmt (const_rng 0 0) eps_code 2 0 24 {| r_world := w_empty; r_draws := 0 |} c (xx_coupling (PI / 2)) None [] false [] v
    (const_rng_ok 0 0 ltac:(lra)) py_fmt_numeral (empty_world_drift eps_code 0) HC (or_introl HA) Hpl (proj1 (xx_special (PI / 2))) Ev ltac:(lia) ex_C94_threshold)
    as (st & b & _ & [(r & E & _)|(_ & F)]); [eauto|].
  exfalso. unfold infidelity in F. cbn [ordered fold_left] in F. change (ordered 2 []) with mid in F. change (2 ^ 2)%nat with 4%nat in F.
  rewrite O in F. destruct ex_C94_threshold as (_ & T & _). change (S (0 + Z.to_nat 24)) with 25%nat in F. change (S (Z.to_nat 12 + Z.to_nat 12)) with 25%nat in T. lra.
Qed.
