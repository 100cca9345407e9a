(** Sequences whose gates differ by phases: C114. *)
From Coq Require Import Reals List Arith Lia Lra Bool String Setoid Morphisms.
From Coquelicot Require Import Complex.
From Verif Require Import Base CMat CMatFacts Det DetFacts Norms CRoot ModelUnitary ModelEntry ModelPrimitive ModelSequence
  ModelCompiler ModelRound Spec SpecModel SpecCompiler SpecAgree SpecRepro SpecTurn PUnitary PDrift PSu2 PAgree PRepro PPhase.
Import ListNotations.
Open Scope R_scope.
Open Scope C_scope.

(** * The phases *)
Lemma quarter_mod c : quarter c -> Cmod c = 1%R.
Proof.
  intros [->|[->|[->| ->]]]; rewrite ?Cmod_opp, ?Cmod_1; auto; unfold Cmod, Ci; cbn [fst snd];
      replace (0 ^ 2 + 1 ^ 2)%R with 1%R by ring; apply sqrt_1.
Qed.
Lemma quarter_mult a b : quarter a -> quarter b -> quarter (a * b).
Proof.
  assert (I2 : Ci * Ci = - (1)) by (apply injective_projections; cbn; ring).
  intros [->|[->|[->| ->]]] [->|[->|[->| ->]]]; unfold quarter;
    first [left; ring [I2] | right; left; ring [I2] | right; right; left; ring [I2] | right; right; right; ring [I2]].
Qed.
Lemma quarter_4 c : quarter c -> cpow c 4 = 1.
Proof.
  assert (I2 : Ci * Ci = - (1)) by (apply injective_projections; cbn; ring).
  intros [->|[->|[->| ->]]]; cbn [cpow]; ring [I2].
Qed.

Section Turn.
Variable eps : R.
Notation ph := (plain_phase eps).

Lemma ph_mod c : ph c -> Cmod c = 1%R.
Proof. intros [H|[_ H]]; [now apply quarter_mod|exact H]. Qed.
Lemma ph_mult a b : ph a -> ph b -> ph (a * b).
Proof.
  intros [A|[E A]] [B|[F B]].
  - left. now apply quarter_mult.
  - right. split; auto. rewrite Cmod_mult, B, quarter_mod by exact A. ring.
  - right. split; auto. rewrite Cmod_mult, A, quarter_mod by exact B. ring.
  - right. split; auto. rewrite Cmod_mult, A, B. ring.
Qed.
Lemma ph_conj c : ph c -> ph (Cconj c).
Proof. intros [H|[E H]]; [left; now apply quarter_conj|right]. split; auto. now rewrite Cmod_conj. Qed.
Lemma ph_clean c z : ph c -> clean_C eps (c * z) = c * clean_C eps z.
Proof.
  intros [H|[E H]]; [now apply clean_quarter|]. subst eps.
  assert (K := fun w : C => clean_id 0 1 (fun _ _ => w) (eps_clean_0 1 _) 0%nat 0%nat ltac:(lia) ltac:(lia)).
  unfold clean in K. now rewrite !K.
Qed.
Lemma ph_1 : ph 1.
Proof. left. now left. Qed.

Lemma cpow_4 c k : cpow c 4 = 1 -> cpow c (4 * k) = 1.
Proof.
  intros H. induction k as [|k IH]; [reflexivity|]. replace (4 * S k)%nat with (4 + 4 * k)%nat by lia.
  rewrite cpow_add, H, IH. ring.
Qed.

Lemma ph_norm n c (z : C) : ph c -> z <> 0 ->
  ph (croot (2 ^ n) (/ (cpow c (2 ^ n) * z)) * c / croot (2 ^ n) (/ z)).
Proof.
  intros Hc Hz. assert (M := ph_mod c Hc). assert (C0 : c <> 0) by now apply Cmod_one_neq0.
  remember (2 ^ n)%nat as d eqn:Ed. assert (D0 : (0 < d)%nat) by (subst d; apply Nat.neq_0_lt_0, Nat.pow_nonzero; lia).
  assert (CD := cpow_neq0 c d C0). assert (N := croot_neq0 d (/ z)).
  assert (CZ : cpow c d * z <> 0) by (intros X; destruct (Cmult_zero _ _ X); contradiction).
  assert (KD : cpow (croot d (/ (cpow c d * z)) * c / croot d (/ z)) d = 1).
  { rewrite cpow_div, cpow_mult_l by exact N. rewrite (croot_pow d _ D0 (Cinv_neq0 _ CZ)), (croot_pow d _ D0 (Cinv_neq0 _ Hz)).
    generalize dependent (cpow c d). intros y Y _. field. repeat split; auto. intros X; injection X; lra. }
  destruct Hc as [Hc|[E0 Hc]].
  - left. destruct n as [|[|n]].
    + cbn in Ed. subst d. apply quarter_root. right. revert KD. generalize (croot 1 (/ (cpow c 1 * z)) * c / croot 1 (/ z)).
      intros k K. cbn [cpow] in K. replace k with (RtoC 1) by (rewrite <- K; ring). apply cpow_1.
    + cbn in Ed. subst d. apply quarter_root. now left.
    + assert (X : cpow c d = 1).
      { replace d with (4 * 2 ^ n)%nat by (subst d; cbn; lia). apply cpow_4. now apply quarter_4. }
      rewrite X. rewrite Cmult_1_l. replace (croot d (/ z) * c / croot d (/ z)) with c by (field; exact N). exact Hc.
  - right. split; auto. assert (CM : Cmod (cpow c d) = 1%R) by (rewrite Cmod_cpow, Hc; apply pow1).
    assert (GM : Cmod (croot d (/ (cpow c d * z))) = Cmod (croot d (/ z))).
    { rewrite !Cmod_croot. f_equal. rewrite !Cmod_inv by auto. rewrite Cmod_mult, CM. now rewrite Rmult_1_l. }
    rewrite Cmod_div by exact N. rewrite Cmod_mult, GM, Hc. field. intros H. apply N. now apply Cmod_eq_0.
Qed.

(** * Constructor and products *)
Notation turn := (turned eps).
Definition near_same d (A B : mat) : Prop := exists c, ph c /\ meq d B (mscale c A).

Definition mk_rel d : res unitary -> res unitary -> Prop :=
  same_res (fun u1 u2 => u_dim u1 = d /\ u_dim u2 = d /\ ((exists n, d = 2 ^ n)%nat -> turn u1 u2)).

Lemma mk_turned d A1 A2 nm1 ps1 iv1 ap1 nm2 ps2 iv2 ap2 : near_same d A1 A2 ->
  mk_rel d (mk_unitary eps d (Some (square d A1)) nm1 ps1 iv1 ap1) (mk_unitary eps d (Some (square d A2)) nm2 ps2 iv2 ap2).
Proof.
  unfold mk_rel, same_res. intros (c & Hc & E0). assert (M := ph_mod c Hc).
  assert (E : meq d (clean eps A2) (mscale c (clean eps A1))).
  { intros i j Hi Hj. unfold clean. rewrite (E0 i j Hi Hj). unfold mscale. now apply ph_clean. }
  unfold mk_unitary, assert, bind. destruct (Nat.ltb 0 d); [|reflexivity].
  cbn [nrows ncols elt square]. rewrite Nat.eqb_refl. cbn [andb].
  rewrite (allclose_same d _ _ (phase_square d c _ _ M E)).
  destruct (allclose d (mmul d (clean eps A1) (adj (clean eps A1))) mid); [|reflexivity].
  assert (D : det d (clean eps A2) = cpow c d * det d (clean eps A1)) by now rewrite (@det_ext _ _ _ E), det_mscale.
  assert (C0 : c <> 0) by now apply Cmod_one_neq0. assert (CD := cpow_neq0 c d C0).
  destruct (Ceq_dec (det d (clean eps A1)) 0) as [Z|Z].
  { destruct (Ceq_dec (det d (clean eps A2)) 0) as [_|X]; [reflexivity|]. exfalso. apply X. rewrite D, Z. ring. }
  destruct (Ceq_dec (det d (clean eps A2)) 0) as [X|X].
  { exfalso. apply Z. rewrite D in X. destruct (Cmult_zero _ _ X); [contradiction|assumption]. }
  cbn [u_dim u_mat]. split; [reflexivity|]. split; [reflexivity|]. intros (n & Hn). split; [reflexivity|].
  cbn [u_dim u_mat]. assert (PN := ph_norm n c _ Hc Z). rewrite <- Hn, <- D in PN. eexists. split; [exact PN|].
  intros i j Hi Hj. unfold mscale. rewrite (E i j Hi Hj). unfold mscale. field. apply croot_neq0.
Qed.

Lemma mk_turned_ok n A1 A2 nm1 ps1 iv1 ap1 nm2 ps2 iv2 ap2 : let d := (2 ^ n)%nat in near_same d A1 A2 ->
  same_res (fun u v => turn u v /\ u_dim u = d)
    (mk_unitary eps d (Some (square d A1)) nm1 ps1 iv1 ap1) (mk_unitary eps d (Some (square d A2)) nm2 ps2 iv2 ap2).
Proof.
  intros d H. assert (K := mk_turned d A1 A2 nm1 ps1 iv1 ap1 nm2 ps2 iv2 ap2 H). unfold mk_rel, same_res in *.
  destruct (mk_unitary eps d (Some (square d A1)) nm1 ps1 iv1 ap1), (mk_unitary eps d (Some (square d A2)) nm2 ps2 iv2 ap2); auto.
  destruct K as (D & _ & T). split; auto. apply T. now exists n.
Qed.

Lemma same_bind {A B A' B'} (P : A -> B -> Prop) (Q : A' -> B' -> Prop) x y f g :
  same_res P x y -> (forall a b, P a b -> same_res Q (f a) (g b)) -> same_res Q (bind x f) (bind y g).
Proof. unfold same_res, bind. destruct x, y; intros H K; try contradiction; auto; exact (K _ _ H). Qed.
Lemma same_mono {A B} (P Q : A -> B -> Prop) x y : same_res P x y -> (forall a b, P a b -> Q a b) -> same_res Q x y.
Proof. unfold same_res. destruct x, y; auto. Qed.

Lemma near_turned d u v : turn u v -> u_dim u = d -> near_same d (u_mat u) (u_mat v).
Proof. intros (_ & c & Hc & E) <-. now exists c. Qed.
Lemma near_mul d A1 A2 B1 B2 : near_same d A1 A2 -> near_same d B1 B2 -> near_same d (mmul d A1 B1) (mmul d A2 B2).
Proof.
  intros (a & Ha & EA) (b & Hb & EB). exists (a * b). split; [now apply ph_mult|].
  rewrite EA, EB, mmul_mscale_l, mmul_mscale_r, mscale_mscale. reflexivity.
Qed.
Lemma near_adj d A1 A2 : near_same d A1 A2 -> near_same d (adj A1) (adj A2).
Proof. intros (c & Hc & E). exists (Cconj c). split; [now apply ph_conj|]. rewrite E. apply adj_mscale. Qed.
Lemma near_refl d A : near_same d A A.
Proof. exists 1. split; [apply ph_1|]. now rewrite mscale_1. Qed.

Notation ex := exact_arith.
Lemma inverse_turned n u v : turn u v -> u_dim u = (2 ^ n)%nat ->
  same_res (fun u v => turn u v /\ u_dim u = (2 ^ n)%nat) (r_inverse ex eps u) (r_inverse ex eps v).
Proof.
  intros T D. unfold r_inverse. rewrite !r_unitary_exact, (proj1 T), D. apply mk_turned_ok, near_adj. now apply near_turned.
Qed.
Lemma left_turned n u v f g : turn u v -> u_dim u = (2 ^ n)%nat -> turn f g ->
  same_res (fun u v => turn u v /\ u_dim u = (2 ^ n)%nat) (r_left_multiply ex eps u f) (r_left_multiply ex eps v g).
Proof.
  intros T D F. unfold r_left_multiply. rewrite (proj1 T), (proj1 F), D.
  destruct (Nat.eqb_spec (2 ^ n) (u_dim f)) as [E|E]; [|exact eq_refl]. cbn [assert bind]. rewrite !r_unitary_exact.
  apply mk_turned_ok. apply near_mul; [now apply near_turned|now apply near_turned].
Qed.
Lemma right_turned n u v f g : turn u v -> u_dim u = (2 ^ n)%nat -> turn f g ->
  same_res (fun u v => turn u v /\ u_dim u = (2 ^ n)%nat) (r_right_multiply ex eps u f) (r_right_multiply ex eps v g).
Proof.
  intros T D F. unfold r_right_multiply. rewrite (proj1 T), (proj1 F), D.
  destruct (Nat.eqb_spec (2 ^ n) (u_dim f)) as [E|E]; [|exact eq_refl]. cbn [assert bind]. rewrite !r_unitary_exact.
  apply mk_turned_ok. apply near_mul; [now apply near_turned|now apply near_turned].
Qed.

Definition gate_turned (g h : unitary * list nat) : Prop := turn (fst g) (fst h) /\ snd h = snd g.

Lemma full_turned n g h : gate_turned g h ->
  same_res (fun u v => turn u v /\ u_dim u = (2 ^ n)%nat) (r_full ex eps g (2 ^ n)) (r_full ex eps h (2 ^ n)).
Proof.
  intros [T Q]. unfold r_full. rewrite Q, (proj1 T). destruct (Nat.leb (u_dim (fst g)) (2 ^ n)); [|exact eq_refl]. cbn [assert bind].
  destruct (r_identity ex eps (2 ^ n / u_dim (fst g))) as [x|e]; [|exact eq_refl]. cbn [bind].
  assert (KT : mk_rel (u_dim x * u_dim (fst g)) (r_tensor ex eps (fst g) x) (r_tensor ex eps (fst h) x)).
  { unfold r_tensor. rewrite !r_unitary_exact, (proj1 T). rewrite (Nat.mul_comm (u_dim (fst g)) (u_dim x)). apply mk_turned.
    destruct T as (_ & c & Hc & E). exists c. split; auto. cbn [a_kron exact_arith]. intros i j Hi Hj. unfold kron, mscale.
    assert (X0 : u_dim x <> 0%nat) by (intros X0; rewrite X0 in Hi; lia).
    rewrite (E (i / u_dim x)%nat (j / u_dim x)%nat); [|apply Nat.div_lt_upper_bound; auto|apply Nat.div_lt_upper_bound; auto].
    unfold mscale. ring. }
  unfold mk_rel, same_res in KT.
  destruct (r_tensor ex eps (fst g) x) as [a|e], (r_tensor ex eps (fst h) x) as [b|f]; try contradiction; [|exact KT]. cbn [bind].
  destruct KT as (D1 & D2 & KT). rewrite D2, <- D1 in *. destruct (Nat.eqb_spec (u_dim a) (2 ^ n)) as [E|E]; [|exact eq_refl]. cbn [assert bind].
  assert (TAB : turn a b) by (apply KT; now exists n).
  assert (PE : get_permute_matrix {| e_unitary := fst h; e_apply := snd g; e_cache := [] |} (2 ^ n) =
    get_permute_matrix {| e_unitary := fst g; e_apply := snd g; e_cache := [] |} (2 ^ n)).
  { unfold get_permute_matrix, e_dim. cbn [e_unitary e_apply]. now rewrite (proj1 T). }
  rewrite PE. eapply same_bind with (P := eq).
  { match goal with |- same_res _ ?x _ => destruct x; exact eq_refl end. }
  intros P ? <-. rewrite !r_unitary_exact.
  apply mk_turned_ok. apply near_mul; [|apply near_refl]. apply near_mul; [apply near_refl|]. now apply near_turned.
Qed.

(** * Sequences *)
Definition opt_rel {A} (P : A -> A -> Prop) (x y : option A) : Prop :=
  match x, y with Some a, Some b => P a b | None, None => True | _, _ => False end.
Definition seq_turned (n : nat) (q r : rseq) : Prop :=
  rs_dim q = (2 ^ n)%nat /\ rs_dim r = (2 ^ n)%nat /\ Forall2 gate_turned (rs_entries q) (rs_entries r) /\
  opt_rel (fun u v => turn u v /\ u_dim u = (2 ^ n)%nat) (rs_product q) (rs_product r) /\
  opt_rel (Forall2 gate_turned) (rs_prev q) (rs_prev r) /\
  opt_rel (fun u v => turn u v /\ u_dim u = (2 ^ n)%nat) (rs_prev_product q) (rs_prev_product r).
Definition op_turned (o p : rop) : Prop :=
  match o, p with
  | RFirst g s, RFirst h t | RLast g s, RLast h t => gate_turned g h /\ s = t
  | RPopFirst s, RPopFirst t | RPopLast s, RPopLast t => s = t
  | RUndo, RUndo | RProduct, RProduct => True
  | _, _ => False
  end.

Lemma save_turned n s q r : seq_turned n q r -> same_res (fun q' r' => seq_turned n q' r' /\ rs_entries q' = rs_entries q /\ rs_entries r' = rs_entries r)
  (r_save ex eps s q) (r_save ex eps s r).
Proof.
  intros H. unfold r_save. destruct s; [|cbn; auto]. destruct H as (D1 & D2 & H1 & H2 & H3 & H4).
  eapply same_bind with (P := opt_rel (fun u v => turn u v /\ u_dim u = (2 ^ n)%nat)).
  - destruct (rs_product q) as [p|], (rs_product r) as [p'|]; try contradiction.
    + destruct H2 as [T D]. rewrite !r_unitary_exact, (proj1 T), D.
      eapply same_bind; [apply mk_turned_ok, (near_turned _ _ _ T D)|]. intros a b X. exact X.
    + exact H4.
  - intros a b X. cbn. unfold seq_turned. cbn [rs_dim rs_entries rs_product rs_prev rs_prev_product]. auto 10.
Qed.
Lemma set_turned n q r es fs f g : seq_turned n q r -> Forall2 gate_turned es fs ->
  (forall u v, turn u v -> u_dim u = (2 ^ n)%nat -> same_res (fun u v => turn u v /\ u_dim u = (2 ^ n)%nat) (f u) (g v)) ->
  same_res (seq_turned n) (r_set q es f) (r_set r fs g).
Proof.
  intros (D1 & D2 & H1 & H2 & H3 & H4) HE HF. unfold r_set.
  eapply same_bind with (P := opt_rel (fun u v => turn u v /\ u_dim u = (2 ^ n)%nat)).
  - destruct (rs_product q) as [p|], (rs_product r) as [p'|]; try contradiction; [|exact I].
    destruct H2 as [T D]. eapply same_bind; [apply (HF _ _ T D)|]. intros a b X. exact X.
  - intros a b X. cbn. unfold seq_turned. cbn [rs_dim rs_entries rs_product rs_prev rs_prev_product]. auto 10.
Qed.
Lemma fold_turned n : forall es fs, Forall2 gate_turned es fs -> forall u v, turn u v -> u_dim u = (2 ^ n)%nat ->
  same_res (fun u v => turn u v /\ u_dim u = (2 ^ n)%nat) (r_fold ex eps (2 ^ n) es u) (r_fold ex eps (2 ^ n) fs v).
Proof.
  intros es fs H. induction H as [|g h es fs G _ IH]; intros u v T D; cbn [r_fold]; [cbn; auto|].
  eapply same_bind; [apply (full_turned n _ _ G)|]. intros a b [TA DA].
  eapply same_bind; [apply (left_turned n _ _ _ _ T D TA)|]. intros c d [TC DC]. now apply IH.
Qed.
Lemma product_turned n q r : seq_turned n q r ->
  same_res (fun u v => turn u v /\ u_dim u = (2 ^ n)%nat) (r_product ex eps q) (r_product ex eps r).
Proof.
  intros (D1 & D2 & H1 & H2 & H3 & H4). unfold r_product.
  destruct (rs_product q) as [p|], (rs_product r) as [p'|]; try contradiction; [exact H2|].
  rewrite D1, D2, !r_unitary_exact, !mk_unitary_none.
  eapply same_bind; [apply mk_turned_ok, near_refl|]. intros a b [T D]. now apply fold_turned.
Qed.

Lemma F2_rev {A B} (P : A -> B -> Prop) l m : Forall2 P l m -> Forall2 P (rev l) (rev m).
Proof. intros H. induction H; cbn; [constructor|]. apply Forall2_app; auto. Qed.

Lemma step_turned n q r o p : seq_turned n q r -> op_turned o p ->
  same_res (seq_turned n) (r_step ex eps q o) (r_step ex eps r p).
Proof.
  intros H HO. assert (H' := H). destruct H' as (D1 & D2 & H1 & H2 & H3 & H4).
  destruct o as [g s|g s|s|s| |], p as [h t|h t|t|t| |]; try contradiction; cbn [op_turned] in HO; cbn [r_step].
  - destruct HO as [G <-]. unfold r_valid. rewrite D1, D2, (proj2 G), (proj1 (proj1 G)).
    destruct (Nat.leb _ _ && _); [|exact eq_refl]. cbn [assert bind].
    eapply same_bind; [apply (save_turned n s _ _ H)|]. intros q1 r1 (S1 & E1 & E2).
    apply set_turned; auto; [rewrite E1, E2; now constructor|]. intros u v T D.
    eapply same_bind; [apply (full_turned n _ _ G)|]. intros a b [TA _]. now apply right_turned.
  - destruct HO as [G <-]. unfold r_valid. rewrite D1, D2, (proj2 G), (proj1 (proj1 G)).
    destruct (Nat.leb _ _ && _); [|exact eq_refl]. cbn [assert bind].
    eapply same_bind; [apply (save_turned n s _ _ H)|]. intros q1 r1 (S1 & E1 & E2).
    apply set_turned; auto; [rewrite E1, E2; apply Forall2_app; auto|]. intros u v T D.
    eapply same_bind; [apply (full_turned n _ _ G)|]. intros a b [TA _]. now apply left_turned.
  - subst t. destruct H1 as [|g h es fs G H1]; [exact H|].
    eapply same_bind; [apply (save_turned n s _ _ H)|]. intros q1 r1 (S1 & E1 & E2).
    apply set_turned; auto. intros u v T D. rewrite D1, D2.
    eapply same_bind; [apply (full_turned n _ _ G)|]. intros a b [TA DA].
    eapply same_bind; [apply (inverse_turned n _ _ TA DA)|]. intros c d [TC _]. now apply right_turned.
  - subst t. apply F2_rev in H1. destruct H1 as [|g h es fs G H1]; [exact H|].
    eapply same_bind; [apply (save_turned n s _ _ H)|]. intros q1 r1 (S1 & E1 & E2).
    apply set_turned; auto; [now apply F2_rev|]. intros u v T D. rewrite D1, D2.
    eapply same_bind; [apply (full_turned n _ _ G)|]. intros a b [TA DA].
    eapply same_bind; [apply (inverse_turned n _ _ TA DA)|]. intros c d [TC _]. now apply left_turned.
  - destruct (rs_prev q) as [es|], (rs_prev r) as [fs|]; try contradiction; [|exact eq_refl].
    cbn. unfold seq_turned. cbn [rs_dim rs_entries rs_product rs_prev rs_prev_product]. repeat (split; auto).
  - eapply same_bind; [apply (product_turned n _ _ H)|]. intros a b X. cbn. unfold seq_turned.
    cbn [rs_dim rs_entries rs_product rs_prev rs_prev_product]. auto 10.
Qed.

(** * Distances *)
Lemma turned_phase u v : turn u v -> phase_eq (u_dim u) (u_mat v) (u_mat u).
Proof. intros (_ & c & Hc & E). exists c. split; auto. now apply ph_mod. Qed.
Lemma distance_turned t u v : turn u v -> u_distance_from eps t u = u_distance_from eps t v.
Proof. intros T. apply distance_right; [apply T|now apply turned_phase]. Qed.
Lemma close_turned u v t thr : turn u v -> u_close_to eps u t thr = u_close_to eps v t thr.
Proof.
  intros T. unfold u_close_to. assert (X := near_adj _ _ _ (near_turned _ _ _ T eq_refl)).
  destruct X as (c & Hc & E). rewrite (distance_left eps u v c); [reflexivity|apply T|now apply ph_mod|].
  intros i j Hi Hj. unfold clean. rewrite (E i j Hi Hj). unfold mscale. now apply ph_clean.
Qed.
End Turn.
