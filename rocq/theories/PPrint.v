(** The operation that a printed JAQAL or display text stands for. *)
From Coq Require Import Reals List Arith Lia Lra Bool String Ascii ZArith.
From Coquelicot Require Import Rcomplements Complex.
From Verif Require Import Base CMat CMatFacts Det DetFacts Norms ModelUnitary ModelPrimitive ModelEntry ModelSequence ModelCompiler ModelGates ModelText
  ModelDecimal ModelExample Spec SpecModel SpecCompiler SpecText SpecGates SpecExample SpecDecimal SpecPrint PUnitary PBits PEmbed PEntry PDrift PSeqNear PGates PGms
  PFamilies PText PTextSeq PSeqHeap PSeqMeth PSeqWorld PSeqUndo PSeqInv PSeqHist PSeqProps PCompProps PExample PNotebook PDecimal PDecimalOp PDecimalReport.
Import ListNotations.
Open Scope R_scope.
Open Scope C_scope.
Set Bullet Behavior "Strict Subproofs".

(** [val] prints a named value and [rd] reads it, with an error of at most [d]. *)
Definition reads_back (val : string * (R * bool) -> string) (rd : string -> R) (d : R) : Prop :=
  forall k v, plain k -> (Rabs (rd (val (k, (v, true))) - v) <= d)%R.
Definition line_by (val : string * (R * bool) -> string) (g : unitary * list nat) : line :=
  (u_name (fst g), map val (u_params (fst g)), snd g).

(** What is printed for a gate of the library stands for nearly the same gate. *)
Lemma library_print val rd d eps u : reads_back val rd d -> small_drift eps 2 1 -> library_gate eps u ->
  exists k M M', u_dim u = (2 ^ k)%nat /\ special (2 ^ k) M /\ (fro (2 ^ k) (mminus (u_mat u) M) <= drift_bound eps k 1)%R /\
    operator_named (u_name u) (map rd (map val (u_params u))) = Some M' /\
    unitary_mx (2 ^ k) M' /\ (fro (2 ^ k) (mminus M M') <= 3 / 2 * sqrt (INR (2 ^ k)) * d)%R /\
    plain_gate u.
Proof.
  intros RB H2 (pu & vs & Hpu & Hr & Hu). assert (H1 : small_drift eps 1 1) by (apply (small_drift_less eps 1 2 1); [lia|exact H2]).
  destruct Hpu as [Hpu|[Hpu|Hpu]].
  - assert (R : List.length vs = 2%nat /\ Forall (fun v => 0 <= v <= 2 * PI)%R vs).
    { unfold pd_rotation_xy in Hpu. rewrite !angle_ok in Hpu by reflexivity. injection Hpu as <-. apply in_range_angles in Hr; [exact Hr|]. repeat constructor. }
    destruct R as [L F]. destruct vs as [|t [|p [|? ?]]]; try discriminate L. inversion_clear F as [|? ? Ht F']. inversion_clear F' as [|? ? Hp _].
    destruct (rotation_xy_lemma eps t p H1 Ht Hp) as (pu' & Ep & (v & Ev & D & _ & Fr & _) & (v' & Ev' & N1 & N2 & _)).
    rewrite Hpu in Ep. injection Ep as <-. rewrite Hu in Ev, Ev'. injection Ev as <-. injection Ev' as <-.
    set (t' := rd (val ("theta"%string, (t, true)))). set (p' := rd (val ("phi"%string, (p, true)))).
    exists 1%nat, (rotation (cos p) (sin p) 0 t), (rotation (cos p') (sin p') 0 t').
    split; [exact D|]. split; [apply rotation_special, unit_xy|]. split; [exact Fr|]. split; [rewrite N1, N2; reflexivity|].
    split; [apply rotation_special, unit_xy|]. split.
    + assert (A := RB "theta"%string t ltac:(apply plain_dec; reflexivity)). assert (B := RB "phi"%string p ltac:(apply plain_dec; reflexivity)). fold t' in A. fold p' in B.
      change (2 ^ 1)%nat with 2%nat. change (INR 2) with 2%R. rewrite Rabs_minus_sym in A, B.
      eapply Rle_trans; [apply rotation_xy_turn|]. assert (S := sqrt_pos 2).
      replace (3 / 2 * sqrt 2 * d)%R with (sqrt 2 * (3 / 2 * d))%R by ring.
      apply Rmult_le_compat_l; [exact S|]. lra.
    + unfold plain_gate. rewrite N1, N2. split; [apply plain_dec; reflexivity|].
      intros k v [E|[E|[]]]; injection E as <- <-; apply plain_dec; reflexivity.
  - assert (R : List.length vs = 3%nat /\ Forall (fun v => 0 <= v <= 2 * PI)%R vs).
    { unfold pd_rotation_xyz in Hpu. rewrite !angle_ok in Hpu by reflexivity. injection Hpu as <-. apply in_range_angles in Hr; [exact Hr|]. repeat constructor. }
    destruct R as [L F]. destruct vs as [|a [|b [|c [|? ?]]]]; try discriminate L. inversion_clear F as [|? ? Ha F']. inversion_clear F' as [|? ? Hb F]. inversion_clear F as [|? ? Hc _].
    destruct (rotation_xyz_lemma eps a b c H1 Ha Hb Hc) as (pu' & Ep & (v & Ev & D & _ & Fr & _) & (v' & Ev' & N1 & N2 & _)).
    rewrite Hpu in Ep. injection Ep as <-. rewrite Hu in Ev, Ev'. injection Ev as <-. injection Ev' as <-.
    set (a' := rd (val ("alpha"%string, (a, true)))). set (b' := rd (val ("beta"%string, (b, true)))).
    set (c' := rd (val ("gamma"%string, (c, true)))).
    exists 1%nat, (euler a b c), (euler a' b' c').
    split; [exact D|]. split; [apply euler_special|]. split; [exact Fr|]. split; [rewrite N1, N2; reflexivity|].
    split; [apply euler_special|]. split.
    + assert (A := RB "alpha"%string a ltac:(apply plain_dec; reflexivity)). assert (B := RB "beta"%string b ltac:(apply plain_dec; reflexivity)). assert (C := RB "gamma"%string c ltac:(apply plain_dec; reflexivity)). fold a' in A. fold b' in B. fold c' in C.
      change (2 ^ 1)%nat with 2%nat. change (INR 2) with 2%R. rewrite Rabs_minus_sym in A, B, C.
      eapply Rle_trans; [apply euler_turn|]. assert (S := sqrt_pos 2).
      replace (3 / 2 * sqrt 2 * d)%R with (sqrt 2 * (3 / 2 * d))%R by ring.
      apply Rmult_le_compat_l; [exact S|]. lra.
    + unfold plain_gate. rewrite N1, N2. split; [apply plain_dec; reflexivity|].
      intros k v [E|[E|[E|[]]]]; injection E as <- <-; apply plain_dec; reflexivity.
  - assert (R : List.length vs = 1%nat /\ Forall (fun v => 0 <= v <= 2 * PI)%R vs).
    { unfold pd_xx in Hpu. rewrite !angle_ok in Hpu by reflexivity. injection Hpu as <-. apply in_range_angles in Hr; [exact Hr|]. repeat constructor. }
    destruct R as [L F]. destruct vs as [|t [|? ?]]; try discriminate L. inversion_clear F as [|? ? Ht _].
    destruct (xx_family_lemma eps t H2 Ht) as (pu' & Ep & (v & Ev & D & _ & Fr & _) & (v' & Ev' & N1 & N2 & _)).
    rewrite Hpu in Ep. injection Ep as <-. rewrite Hu in Ev, Ev'. injection Ev as <-. injection Ev' as <-.
    set (t' := rd (val ("theta"%string, (t, true)))).
    exists 2%nat, (xx_coupling t), (xx_coupling t').
    split; [exact D|]. split; [apply xx_special|]. split; [exact Fr|]. split; [rewrite N1, N2; reflexivity|].
    split; [apply xx_special|]. split.
    + assert (A := RB "theta"%string t ltac:(apply plain_dec; reflexivity)). fold t' in A.
      change (2 ^ 2)%nat with 4%nat. replace (INR 4) with (2 * 2)%R by (simpl; lra). rewrite sqrt_square by lra. rewrite Rabs_minus_sym in A.
      eapply Rle_trans; [apply coupling_turn|]. assert (P := Rabs_pos (t - t')). lra.
    + unfold plain_gate. rewrite N1, N2. split; [apply plain_dec; reflexivity|].
      intros k v [E|[]]; injection E as <- <-; apply plain_dec; reflexivity.
Qed.


Lemma placed_print val rd d eps n g : reads_back val rd d -> small_drift eps 2 1 -> library_gate eps (fst g) -> placement n (snd g) -> (2 ^ List.length (snd g))%nat = u_dim (fst g) ->
  exists M M', operator_named (u_name (fst g)) (map rd (map val (u_params (fst g)))) = Some M' /\
    unitary_mx (2 ^ n) (embed n (snd g) M) /\ unitary_mx (2 ^ n) (embed n (snd g) M') /\
    (fro (2 ^ n) (mminus (embed n (snd g) (u_mat (fst g))) (embed n (snd g) M)) <= drift_bound eps n 1)%R /\
    (fro (2 ^ n) (mminus (embed n (snd g) M) (embed n (snd g) M')) <= (3 / 2 * sqrt (INR (2 ^ n)) * d))%R.
Proof.
  intros RB H HL HP HD. destruct (library_print val rd d eps _ RB H HL) as (k & M & M' & D & S & F & O & U & B & _).
  rewrite D in HD. apply Nat.pow_inj_r in HD; [|lia]. subst k.
  assert (Hk : (List.length (snd g) <= n)%nat) by now apply placement_length.
  exists M, M'. split; [exact O|]. split; [now apply embed_special|]. split; [now apply embed_unitary|].
  rewrite !embed_fro by exact HP. assert (Q := sqrt_pos (INR (2 ^ (n - List.length (snd g))))). split.
  - eapply Rle_trans; [apply Rmult_le_compat_l; [exact Q|exact F]|]. apply drift_kron; [|exact Hk]. apply H.
  - eapply Rle_trans; [apply Rmult_le_compat_l; [exact Q|exact B]|]. rewrite <- (sqrt_kron n _ Hk). right. ring.
Qed.

Lemma lines_print val rd d eps n : reads_back val rd d -> small_drift eps 2 1 -> forall gs P0 P1 P2 e, 
  (forall g, In g gs -> library_gate eps (fst g) /\ placement n (snd g) /\ (2 ^ List.length (snd g))%nat = u_dim (fst g)) ->
  unitary_mx (2 ^ n) P1 -> unitary_mx (2 ^ n) P2 -> (0 <= e)%R ->
  (fro (2 ^ n) (mminus P0 P1) <= e)%R ->
  exists Q1 Q2, lines_by rd n (map (line_by val) gs) P2 = Some Q2 /\ unitary_mx (2 ^ n) Q1 /\ unitary_mx (2 ^ n) Q2 /\
    (fro (2 ^ n) (mminus (fold_left (fun P g => mmul (2 ^ n) (embed n (snd g) (u_mat (fst g))) P) gs P0) Q1) <=
       (1 + e) * (1 + drift_bound eps n 1) ^ List.length gs - 1)%R /\
    (fro (2 ^ n) (mminus Q1 Q2) <= fro (2 ^ n) (mminus P1 P2) + INR (List.length gs) * (3 / 2 * sqrt (INR (2 ^ n)) * d))%R.
Proof.
  intros RB H. induction gs as [|g gs IH]; intros P0 P1 P2 e HG U1 U2 He HF.
  - exists P1, P2. split; [reflexivity|]. split; [exact U1|]. split; [exact U2|]. simpl. split; lra.
  - destruct (HG g (or_introl eq_refl)) as (HL & HP & HD).
    destruct (placed_print val rd d eps n g RB H HL HP HD) as (M & M' & O & UM & UM' & F1 & F2).
    assert (D0 : (0 <= drift_bound eps n 1)%R) by (eapply Rle_trans; [apply fro_nonneg|exact F1]).
    cbn [map fold_left lines_by line_by]. unfold line_by at 1. cbn [fst snd]. rewrite O.
    assert (X := fro_product (2 ^ n) _ _ _ _ _ _ UM U1 F1 HF).
    destruct (IH (mmul (2 ^ n) (embed n (snd g) (u_mat (fst g))) P0) (mmul (2 ^ n) (embed n (snd g) M) P1) (mmul (2 ^ n) (embed n (snd g) M') P2) (drift_bound eps n 1 + e + drift_bound eps n 1 * e)%R
       (fun g' Hg' => HG g' (or_intror Hg')) (unitary_mmul _ _ _ UM U1) (unitary_mmul _ _ _ UM' U2) ltac:(nra) X) as (Q1 & Q2 & E & V1 & V2 & G1 & G2).
    exists Q1, Q2. split; [exact E|]. split; [exact V1|]. split; [exact V2|]. split.
    + eapply Rle_trans; [exact G1|]. cbn [List.length pow]. right. ring.
    + eapply Rle_trans; [exact G2|]. cbn [List.length]. rewrite S_INR.
      assert (Y : (fro (2 ^ n) (mminus (mmul (2 ^ n) (embed n (snd g) M) P1) (mmul (2 ^ n) (embed n (snd g) M') P2)) <=
                   fro (2 ^ n) (mminus P1 P2) + (3 / 2 * sqrt (INR (2 ^ n)) * d))%R).
      { eapply Rle_trans; [apply fro_minus_triangle with (B := mmul (2 ^ n) (embed n (snd g) M) P2)|].
        apply Rplus_le_compat.
        - right. rewrite <- mmul_mminus_r. now apply fro_unitary_l.
        - rewrite <- mmul_mminus_l. rewrite fro_unitary_r by exact U2. exact F2. }
      lra.
Qed.


Lemma operation_print : forall val rd d eps n gs, reads_back val rd d -> small_drift eps 2 1 ->
  (forall g, In g gs -> library_gate eps (fst g) /\ placement n (snd g) /\ (2 ^ List.length (snd g))%nat = u_dim (fst g)) ->
  exists Q, lines_by rd n (map (line_by val) gs) mid = Some Q /\ unitary_mx (2 ^ n) Q /\
    (fro (2 ^ n) (mminus (ordered n gs) Q) <= sqrt (INR (2 ^ n)) * shown_bound d (List.length gs) + store_bound eps n (List.length gs))%R.
Proof.
  intros val rd d eps n gs RB H HG.
  destruct (lines_print val rd d eps n RB H gs mid mid mid 0 HG (unitary_mid _) (unitary_mid _) ltac:(lra)) as (Q1 & Q2 & E & V1 & V2 & G1 & G2).
  { rewrite fro_minus_self by reflexivity. lra. }
  exists Q2. split; [exact E|]. split; [exact V2|]. rewrite (fro_minus_self _ mid mid) in G2 by reflexivity.
  eapply Rle_trans; [apply (fro_minus_triangle _ _ Q1)|]. unfold ordered, shown_bound, store_bound. lra.
Qed.


(** ** The two formats *)
Definition jaqal_val (kv : string * (R * bool)) : string := py_fmt 7 (fst (snd kv)).
Definition shown_val (kv : string * (R * bool)) : string := (fst kv ++ "=" ++ display_value py_fmt (snd kv))%string.

Lemma jaqal_reads : reads_back jaqal_val read_real (/ 2 / 10 ^ 7).
Proof. intros k v _. apply py_fmt_close. Qed.

Lemma lacks_numeral c k x : ~ In c (chars "0123456789.+-einfa") -> lacks c (py_fmt k x).
Proof. intros H I. apply H. exact (proj2 (py_fmt_numeral k x) c I). Qed.

Lemma shown_value k v : plain k -> read_shown (shown_val (k, (v, true))) = (PI * read_real (py_fmt 3 (v / PI)))%R.
Proof.
  intros Hk. unfold shown_val, read_shown. cbn [fst snd display_value].
  assert (E1 : split_on "=" (k ++ "=" ++ py_fmt 3 (v / PI) ++ "π") = [k; (py_fmt 3 (v / PI) ++ "π")%string]).
  { change ("=" ++ py_fmt 3 (v / PI) ++ "π")%string with (String "=" (py_fmt 3 (v / PI) ++ "π")).
    rewrite split_app.
    - f_equal. apply split_lacks. intros I. rewrite chars_app in I. apply in_app_iff in I. destruct I as [I|I].
      + revert I. apply lacks_numeral. vm_compute. intuition discriminate.
      + vm_compute in I. intuition discriminate.
    - intros I. apply (Hk _ I). vm_compute. tauto. }
  rewrite E1.
  assert (E2 : split_on "207" (py_fmt 3 (v / PI) ++ "π") = [py_fmt 3 (v / PI); String "128" ""]).
  { change "π"%string with (String "207" (String "128" "")). rewrite split_app; [reflexivity|].
    apply lacks_numeral. vm_compute. intuition discriminate. }
  rewrite E2. reflexivity.
Qed.

Lemma display_reads : reads_back shown_val read_shown (PI / 2 / 10 ^ 3).
Proof.
  intros k v Hk. rewrite shown_value by exact Hk.
  assert (H := py_fmt_close 3 (v / PI)). assert (P := PI_RGT_0). set (r := read_real (py_fmt 3 (v / PI))) in *.
  replace (PI * r - v)%R with (PI * (r - v / PI))%R by (field; lra).
  rewrite Rabs_mult, (Rabs_pos_eq PI) by lra. replace (PI / 2 / 10 ^ 3)%R with (PI * (/ 2 * / 10 ^ 3))%R by field.
  apply Rmult_le_compat_l; [lra|exact H].
Qed.

(** ** Texts *)
Lemma text_print (rl : string -> option line) (header : string) (show : unitary -> string) val rd d : reads_back val rd d ->
  (forall eps os s t, let w := exec eps os w_empty in (forall g, In g (contents w s) -> plain_gate (fst g)) ->
     snd (on_seq s (get_text eps header show) w) = Ok t -> read_text rl t = Some (map (line_by val) (contents w s))) ->
  forall eps K w s n, drift_world eps K w -> has_dim w s (2 ^ n) -> small_drift eps n K -> small_drift eps 2 1 ->
  (forall g, In g (contents w s) -> library_gate eps (fst g)) ->
  let L := List.length (contents w s) in
  exists t ls Q, snd (on_seq s (get_text eps header show) w) = Ok t /\ read_text rl t = Some ls /\ lines_by rd n ls mid = Some Q /\ unitary_mx (2 ^ n) Q /\
    (fro (2 ^ n) (mminus (ordered n (contents w s)) Q) <= sqrt (INR (2 ^ n)) * shown_bound d L + store_bound eps n L)%R.
Proof.
  intros RB RT eps K w s n HX HD SD S2 HG L. assert (HE := proj1 SD). assert (HW := drift_winv eps K w HE HX).
  destruct (drift_small _ _ _ SD) as [Lm _].
  assert (L6 : lim eps n (unit_cost false * K)).
  { eapply lim_mono; [exact (proj1 HE)|exact (proj2 HE)| |exact Lm]. unfold unit_cost, gc. lia. }
  destruct (winv_answers eps (proj1 HE) (proj2 HE) false K w s n HW HD (or_introl L6)) as (_ & _ & _ & HP & _).
  destruct HX as (os & -> & _ & _).
  destruct (text_exists eps (exec eps os w_empty) s (2 ^ n) header show (W_exec eps os) HD
    (winv_full eps false K _ s n HE HW HD (or_introl L6))) as (t & Et).
  destruct (operation_print val rd d eps n (contents (exec eps os w_empty) s) RB S2) as (Q & EQ & UQ & FQ).
  { intros g Hg. split; [now apply HG|]. destruct (HP g Hg) as [(_ & _ & _ & D & _) P]. now split. }
  exists t, (map (line_by val) (contents (exec eps os w_empty) s)), Q. split; [exact Et|]. split; [|split; [exact EQ|split; [exact UQ|exact FQ]]].
  apply (RT eps os s t); [|exact Et].
  intros g Hg. destruct (library_lemma eps _ S2 (HG g Hg)) as (? & ? & ? & _ & _ & _ & _ & _ & _ & P). exact P.
Qed.

Lemma jaqal_text_lemma : forall eps K w s n, drift_world eps K w -> has_dim w s (2 ^ n) -> small_drift eps n K -> small_drift eps 2 1 ->
  (forall g, In g (contents w s) -> library_gate eps (fst g)) ->
  let L := List.length (contents w s) in
  exists t Q, snd (on_seq s (get_jaqal py_fmt eps) w) = Ok t /\ jaqal_operation n t = Some Q /\ unitary_mx (2 ^ n) Q /\
    (fro (2 ^ n) (mminus (ordered n (contents w s)) Q) <= sqrt (INR (2 ^ n)) * shown_bound (/ 2 / 10 ^ 7) L + store_bound eps n L)%R.
Proof.
  intros eps K w s n HX HD SD S2 HG L.
  destruct (text_print read_jaqal_line "// JAQAL generated from UnitarySequence.get_jaqal()"%string (u_get_jaqal py_fmt) jaqal_val read_real (/ 2 / 10 ^ 7) jaqal_reads) with (eps := eps) (K := K) (w := w) (s := s) (n := n)
    as (t & ls & Q & Et & Er & El & UQ & FQ); try assumption.
  { intros eps' os s' t w' Hp Et. exact (proj1 (proj2 (C51_read_back_lemma py_fmt eps' os s' t py_fmt_numeral Hp)) Et). }
  exists t, Q. split; [exact Et|]. split; [unfold jaqal_operation; rewrite Er; exact El|]. now split.
Qed.

Lemma display_text_lemma : forall eps K w s n, drift_world eps K w -> has_dim w s (2 ^ n) -> small_drift eps n K -> small_drift eps 2 1 ->
  (forall g, In g (contents w s) -> library_gate eps (fst g)) ->
  let L := List.length (contents w s) in
  exists t Q, snd (on_seq s (get_display_output py_fmt eps) w) = Ok t /\ display_operation n t = Some Q /\ unitary_mx (2 ^ n) Q /\
    (fro (2 ^ n) (mminus (ordered n (contents w s)) Q) <= sqrt (INR (2 ^ n)) * shown_bound (PI / 2 / 10 ^ 3) L + store_bound eps n L)%R.
Proof.
  intros eps K w s n HX HD SD S2 HG L.
  destruct (text_print read_display_line "# Generated from UnitarySequence.get_display_output()"%string (u_get_display_name py_fmt) shown_val read_shown (PI / 2 / 10 ^ 3) display_reads) with (eps := eps) (K := K) (w := w) (s := s) (n := n)
    as (t & ls & Q & Et & Er & El & UQ & FQ); try assumption.
  { intros eps' os s' t w' Hp Et. exact (proj2 (proj2 (C51_read_back_lemma py_fmt eps' os s' t py_fmt_numeral Hp)) Et). }
  exists t, Q. split; [exact Et|]. split; [unfold display_operation; rewrite Er; exact El|]. now split.
Qed.

(** ** Costs *)
Lemma shown_overlap eps n T gs Q d L : small_drift eps 2 1 -> unitary_mx (2 ^ n) T -> (0 <= d)%R ->
  (fro (2 ^ n) (mminus (ordered n gs) Q) <= sqrt (INR (2 ^ n)) * shown_bound d L + store_bound eps n L)%R ->
  (Rabs (overlap (2 ^ n) T (ordered n gs) - overlap (2 ^ n) T Q) <= shown_bound d L + store_bound eps n L)%R.
Proof.
  intros S2 HT Hd FQ. assert (G := overlap_gap (2 ^ n) T (ordered n gs) Q (PBits.pow2_pos n) HT).
  assert (Hp : (1 <= sqrt (INR (2 ^ n)))%R).
  { rewrite <- sqrt_1. apply sqrt_le_1_alt. apply (le_INR 1), PBits.pow2_pos. }
  assert (D0 : (0 <= drift_bound eps n 1)%R).
  { unfold drift_bound. destruct S2 as ((e0 & _) & _). assert (P1 := pos_INR (2 ^ n)).
    repeat apply Rmult_le_pos; try lra; [apply pos_INR]. }
  assert (S0 : (0 <= store_bound eps n L)%R).
  { unfold store_bound. assert (1 <= (1 + drift_bound eps n 1) ^ L)%R by (apply pow_R1_Rle; lra). lra. }
  apply Rmult_le_reg_l with (sqrt (INR (2 ^ n))); [lra|]. eapply Rle_trans; [exact G|]. eapply Rle_trans; [exact FQ|]. clear - Hp S0. nra.
Qed.

Lemma jaqal_report_lemma : forall g eps n K max st c T nm ps iv ap target,
  rng_ok g -> drift_world eps K (r_world st) -> good_compiler eps n c ->
  c_array c = false \/ List.length (c_prims c) = 1%nat ->
  (forall p u, In p (c_prims c) -> instance eps p u -> library_gate eps u) ->
  unitary_mx (2 ^ n) T -> mk_unitary eps (2 ^ n) (Some (square (2 ^ n) T)) nm ps iv ap = Ok target ->
  (0 < max)%Z -> small_drift eps n (S (K + Z.to_nat max)) -> small_drift eps 2 1 ->
  forall st' r, compile_and_report py_fmt g eps target max (st, c) = (st', Ok r) ->
  let gap := (6 * drift_bound eps n (S (K + Z.to_nat max)) + shown_bound (/ 2 / 10 ^ 7) (rp_length r) + store_bound eps n (rp_length r))%R in
  exists t Q, snd (on_seq (rp_seq r) (get_jaqal py_fmt eps) (r_world (fst st'))) = Ok t /\
    jaqal_operation n t = Some Q /\ unitary_mx (2 ^ n) Q /\
    (Rabs (rp_cost r - (1 - overlap (2 ^ n) T Q)) <= gap)%R /\
    ((Z.of_nat (rp_steps r) < max)%Z -> (1 - overlap (2 ^ n) T Q <= / 10 ^ 8 + gap)%R).
Proof.
  intros g eps n K max st c T nm ps iv ap target G HX HC HA HI HT Et Hm SD S2 st' r E gap.
  assert (Hpl : forall p u, In p (c_prims c) -> instance eps p u -> plain_gate u).
  { intros p u Hp Hi. destruct (library_lemma eps u S2 (HI p u Hp Hi)) as (? & ? & ? & _ & _ & _ & _ & _ & _ & P). exact P. }
  destruct (C94_report_lemma py_fmt g eps n K max st c T nm ps iv ap target G py_fmt_numeral HX HC HA Hpl HT Et Hm SD)
    as (st1 & b & HX1 & [(r' & E1 & T1 & A1 & _)|(E1 & _)]); rewrite E in E1; [|discriminate E1].
  injection E1 as -> <-. cbn [fst]. destruct T1 as (HD & HL & _ & HC1 & HE1 & _).
  assert (SD' : small_drift eps n (K + Z.to_nat max)) by exact (small_drift_steps eps n _ _ (Nat.le_succ_diag_r _) SD).
  destruct (jaqal_text_lemma eps _ _ (rp_seq r) n HX1 HD SD' S2) as (t & Q & Ett & EQ & UQ & FQ).
  { intros gt Hg. destruct (A1 gt Hg) as (p & (i & Hi & _) & Ha). apply (HI p); [|apply Ha]. apply nth_error_In in Hi. now apply filter_In in Hi. }
  exists t, Q. split; [exact Ett|]. split; [exact EQ|]. split; [exact UQ|].
  assert (X := shown_overlap eps n T _ Q (/ 2 / 10 ^ 7) _ S2 HT ltac:(lra) FQ).
  unfold infidelity in HC1, HE1. unfold gap. rewrite HL. split.
  - apply Rabs_le. apply Rabs_le_between in HC1. apply Rabs_le_between in X. lra.
  - intros H. specialize (HE1 H). apply Rabs_le_between in X. lra.
Qed.

Lemma one_angle_xx eps u vs : small_drift eps 2 1 -> library_gate eps u -> u_params u = [("theta"%string, vs)] -> u_name u = "XX"%string.
Proof.
  intros H2 (pu & l & Hpu & Hr & Hu) HP. assert (H1 : small_drift eps 1 1) by (apply (small_drift_less eps 1 2 1); [lia|exact H2]).
  destruct Hpu as [Hpu|[Hpu|Hpu]].
  - exfalso. assert (R : List.length l = 2%nat /\ Forall (fun v => 0 <= v <= 2 * PI)%R l).
    { unfold pd_rotation_xy in Hpu. rewrite !angle_ok in Hpu by reflexivity. injection Hpu as <-. apply in_range_angles in Hr; [exact Hr|]. repeat constructor. }
    destruct R as [L F]. destruct l as [|t [|p [|? ?]]]; try discriminate L. inversion_clear F as [|? ? Ht F']. inversion_clear F' as [|? ? Hp _].
    destruct (rotation_xy_lemma eps t p H1 Ht Hp) as (pu' & Ep & _ & (v' & Ev' & N1 & N2 & _)).
    rewrite Hpu in Ep. injection Ep as <-. rewrite Hu in Ev'. injection Ev' as <-. rewrite N2 in HP. discriminate HP.
  - exfalso. assert (R : List.length l = 3%nat /\ Forall (fun v => 0 <= v <= 2 * PI)%R l).
    { unfold pd_rotation_xyz in Hpu. rewrite !angle_ok in Hpu by reflexivity. injection Hpu as <-. apply in_range_angles in Hr; [exact Hr|]. repeat constructor. }
    destruct R as [L F]. destruct l as [|a [|b [|c [|? ?]]]]; try discriminate L. inversion_clear F as [|? ? Ha F']. inversion_clear F' as [|? ? Hb F]. inversion_clear F as [|? ? Hc _].
    destruct (rotation_xyz_lemma eps a b c H1 Ha Hb Hc) as (pu' & Ep & _ & (v' & Ev' & N1 & N2 & _)).
    rewrite Hpu in Ep. injection Ep as <-. rewrite Hu in Ev'. injection Ev' as <-. rewrite N2 in HP. discriminate HP.
  - assert (R : List.length l = 1%nat /\ Forall (fun v => 0 <= v <= 2 * PI)%R l).
    { unfold pd_xx in Hpu. rewrite !angle_ok in Hpu by reflexivity. injection Hpu as <-. apply in_range_angles in Hr; [exact Hr|]. repeat constructor. }
    destruct R as [L F]. destruct l as [|t [|? ?]]; try discriminate L. inversion_clear F as [|? ? Ht _].
    destruct (xx_family_lemma eps t H2 Ht) as (pu' & Ep & _ & (v' & Ev' & N1 & _)).
    rewrite Hpu in Ep. injection Ep as <-. rewrite Hu in Ev'. injection Ev' as <-. exact N1.
Qed.
