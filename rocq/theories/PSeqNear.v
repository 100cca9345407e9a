(** Objects that are close to an exact operator, and how every operation of the
    library moves them.  For [eps = 0] close means equal. *)
From Coq Require Import Reals List Arith Lia Lra Psatz String Setoid Morphisms ClassicalEpsilon.
From Coquelicot Require Import Rcomplements Complex.
From Verif Require Import Base CMat CMatFacts Det DetFacts CRoot Norms ModelUnitary ModelEntry
  ModelSequence Spec SpecModel PUnitary PBits PEmbed PEntry PDrift PSu2 PSeqHeap PSeqMeth.
Import ListNotations.
Open Scope R_scope.
Open Scope C_scope.

(** ** Ordered products *)
Lemma ordered_acc n gs : forall A,
  meq (2 ^ n) (fold_left (fun P g => mmul (2 ^ n) (embed n (snd g) (u_mat (fst g))) P) gs A)
              (mmul (2 ^ n) (ordered n gs) A).
Proof.
  unfold ordered. induction gs as [|g gs IH]; intros A; simpl.
  - now rewrite mmul_1_l.
  - rewrite IH. rewrite (IH (mmul (2 ^ n) _ mid)). rewrite mmul_1_r. apply mmul_assoc.
Qed.
Lemma ordered_nil n : ordered n [] = mid.
Proof. reflexivity. Qed.
Lemma ordered_app n g1 g2 :
  meq (2 ^ n) (ordered n (g1 ++ g2)) (mmul (2 ^ n) (ordered n g2) (ordered n g1)).
Proof. unfold ordered at 1. rewrite fold_left_app. apply ordered_acc. Qed.
Lemma ordered_one n g : meq (2 ^ n) (ordered n [g]) (embed n (snd g) (u_mat (fst g))).
Proof. unfold ordered. simpl. apply mmul_1_r. Qed.
Lemma ordered_cons n g gs :
  meq (2 ^ n) (ordered n (g :: gs)) (mmul (2 ^ n) (ordered n gs) (embed n (snd g) (u_mat (fst g)))).
Proof. change (g :: gs) with ([g] ++ gs). rewrite ordered_app, ordered_one. reflexivity. Qed.
Lemma ordered_snoc n g gs :
  meq (2 ^ n) (ordered n (gs ++ [g])) (mmul (2 ^ n) (embed n (snd g) (u_mat (fst g))) (ordered n gs)).
Proof. rewrite ordered_app, ordered_one. reflexivity. Qed.

Section Near.
Variable eps : R.
Hypothesis eps0 : (0 <= eps)%R.
Hypothesis eps1 : (eps <= 1)%R.

Definition xi (n : nat) : R := (kappa0 (2 ^ n) * eps)%R.
Definition err (n c : nat) : R := ((1 + xi n) ^ c - 1)%R.
Definition lim (n c : nat) : Prop :=
  (err n c <= 45 / 10 ^ 10)%R /\ (INR (2 ^ n) * err n c <= / 100)%R.

Lemma xi_pos n : (0 <= xi n)%R.
Proof. apply Rmult_le_pos; auto. apply kappa0_pos. Qed.
Lemma err_0 n : err n 0 = 0%R.
Proof. unfold err. simpl. ring. Qed.
Lemma err_pos n c : (0 <= err n c)%R.
Proof.
  unfold err. assert (X := xi_pos n). assert (1 <= (1 + xi n) ^ c)%R by (apply pow_R1_Rle; lra). lra.
Qed.
Lemma err_add n c1 c2 : (err n (c1 + c2) = err n c1 + err n c2 + err n c1 * err n c2)%R.
Proof. unfold err. rewrite pow_add. ring. Qed.
Lemma err_mono n c1 c2 : (c1 <= c2)%nat -> (err n c1 <= err n c2)%R.
Proof.
  intros H. replace c2 with (c1 + (c2 - c1))%nat by lia. rewrite err_add.
  assert (A := err_pos n c1). assert (B := err_pos n (c2 - c1)). nra.
Qed.
Lemma err_S n c : (err n c + xi n <= err n (S c))%R.
Proof.
  replace (S c) with (c + 1)%nat by lia. rewrite err_add.
  replace (err n 1) with (xi n) by (unfold err; simpl; ring).
  assert (A := err_pos n c). assert (B := xi_pos n). nra.
Qed.
Lemma lim_mono n c1 c2 : (c1 <= c2)%nat -> lim n c2 -> lim n c1.
Proof.
  intros H [L1 L2]. assert (E := err_mono n c1 c2 H). assert (P := pos_INR (2 ^ n)).
  split; [lra|]. nra.
Qed.

(** [p] is within the error of [c] constructor calls of the operator [P]. *)
Definition near (n c : nat) (P : mat) (p : unitary) : Prop :=
  u_dim p = (2 ^ n)%nat /\ special (2 ^ n) P /\ det (2 ^ n) (u_mat p) = 1 /\
  (fro (2 ^ n) (mminus (u_mat p) P) <= err n c)%R.

Lemma near_mono n c1 c2 P p : (c1 <= c2)%nat -> near n c1 P p -> near n c2 P p.
Proof.
  intros H (A & B & C & D). split; auto. split; auto. split; auto.
  eapply Rle_trans; [exact D|now apply err_mono].
Qed.
Lemma near_meq n c P Q p : meq (2 ^ n) P Q -> near n c P p -> near n c Q p.
Proof.
  intros E (A & B & C & D). split; auto. split; [now rewrite <- E|]. split; auto. now rewrite <- E.
Qed.

(** The error of a constructor call on a matrix with determinant 1. *)
Lemma near_mk n c P A nm ps iv ap :
  special (2 ^ n) P -> det (2 ^ n) A = 1 -> (fro (2 ^ n) (mminus A P) <= err n c)%R ->
  lim n (S c) ->
  exists p, mk_unitary eps (2 ^ n) (Some (square (2 ^ n) A)) nm ps iv ap = Ok p /\
    near n (S c) P p /\
    u_name p = match nm with Some s => s | None => "U"%string end /\
    u_params p = ps /\ u_inv p = iv /\ u_apply p = ap.
Proof.
  intros HS HD HF [L1 L2]. assert (E := err_S n c). unfold xi in E.
  assert (P2 := pos_INR (2 ^ n)).
  destruct (normalise eps (2 ^ n) P A (err n c) nm ps iv ap)
    as (p & E1 & E2 & E3 & E4 & E5 & E6 & E7 & E8); auto using pow2_pos; try lra.
  - eapply Rle_trans; [apply Rmult_le_compat_l; [auto|exact E]|exact L2].
  - exists p. split; auto. split; auto. split; auto. split; auto. split; auto. lra.
Qed.

(** An exact constructor call. *)
Lemma near_exact n A nm ps iv ap :
  special (2 ^ n) A -> eps_clean eps (2 ^ n) A ->
  exists p, mk_unitary eps (2 ^ n) (Some (square (2 ^ n) A)) nm ps iv ap = Ok p /\
    near n 0 A p /\
    u_name p = match nm with Some s => s | None => "U"%string end /\
    u_params p = ps /\ u_inv p = iv /\ u_apply p = ap /\ meq (2 ^ n) (u_mat p) A.
Proof.
  intros HS HC. destruct (mk_special eps (2 ^ n) A nm ps iv ap) as (p & E & D & N1 & N2 & N3 & N4 & M);
    auto using pow2_pos.
  exists p. split; auto. split; auto. split; auto. split; auto. split.
  - apply mk_unitary_det in E. apply E.
  - rewrite err_0, fro_minus_self; auto. lra.
Qed.

Lemma near_id n nm ps iv ap :
  exists p, mk_unitary eps (2 ^ n) (Some (square (2 ^ n) mid)) nm ps iv ap = Ok p /\
    near n 0 mid p.
Proof.
  destruct (near_exact n mid nm ps iv ap) as (p & E & N & _); auto using special_mid, eps_clean_mid.
  exists p. auto.
Qed.

Lemma near_rewrap n c P p : near n c P p -> lim n (S c) ->
  exists p', rewrap eps p = Ok p' /\ near n (S c) P p'.
Proof.
  intros (D & S & De & F) L. unfold rewrap. rewrite D.
  destruct (near_mk n c P (u_mat p) None [] false []) as (p' & E & N & _); auto.
  exists p'. auto.
Qed.

Lemma fro_product d A A' P P' e e' :
  unitary_mx d P -> unitary_mx d P' ->
  (fro d (mminus A P) <= e)%R -> (fro d (mminus A' P') <= e')%R ->
  (fro d (mminus (mmul d A A') (mmul d P P')) <= e + e' + e * e')%R.
Proof.
  intros U U' H H'.
  assert (K : meq d (mminus (mmul d A A') (mmul d P P'))
    (mplus (mmul d (mminus A P) P') (mplus (mmul d P (mminus A' P')) (mmul d (mminus A P) (mminus A' P'))))).
  { rewrite !mmul_mminus_l, !mmul_mminus_r. intros i j _ _. unfold mplus, mminus. ring. }
  rewrite K. eapply Rle_trans; [apply fro_triangle|]. rewrite fro_unitary_r by auto.
  assert (T := fro_triangle d (mmul d P (mminus A' P')) (mmul d (mminus A P) (mminus A' P'))).
  rewrite fro_unitary_l in T by auto.
  assert (M := fro_mmul d (mminus A P) (mminus A' P')).
  assert (0 <= fro d (mminus A P))%R by apply fro_nonneg.
  assert (0 <= fro d (mminus A' P'))%R by apply fro_nonneg.
  assert (fro d (mminus A P) * fro d (mminus A' P') <= e * e')%R by (apply Rmult_le_compat; auto).
  lra.
Qed.

Lemma near_mul n c1 c2 P1 P2 p1 p2 nm ps iv ap :
  near n c1 P1 p1 -> near n c2 P2 p2 -> lim n (S (c1 + c2)) ->
  exists p, mk_unitary eps (2 ^ n) (Some (square (2 ^ n) (mmul (2 ^ n) (u_mat p1) (u_mat p2)))) nm ps iv ap = Ok p /\
    near n (S (c1 + c2)) (mmul (2 ^ n) P1 P2) p.
Proof.
  intros (D1 & S1 & De1 & F1) (D2 & S2 & De2 & F2) L.
  destruct (near_mk n (c1 + c2) (mmul (2 ^ n) P1 P2) (mmul (2 ^ n) (u_mat p1) (u_mat p2)) nm ps iv ap)
    as (p & E & N & _); auto.
  - now apply special_mmul.
  - rewrite det_mmul, De1, De2. ring.
  - rewrite err_add. apply fro_product; auto; [apply S1|apply S2].
  - exists p. auto.
Qed.

Lemma near_left n c1 c2 P F p f :
  near n c1 P p -> near n c2 F f -> lim n (S (c1 + c2)) ->
  exists q, u_left_multiply eps p f = Ok q /\ near n (S (c1 + c2)) (mmul (2 ^ n) F P) q.
Proof.
  intros Hp Hf L. unfold u_left_multiply. assert (D1 := proj1 Hp). assert (D2 := proj1 Hf).
  rewrite D1, D2, Nat.eqb_refl. unfold assert. cbn [bind].
  rewrite Nat.add_comm in *. now apply near_mul.
Qed.
Lemma near_right n c1 c2 P F p f :
  near n c1 P p -> near n c2 F f -> lim n (S (c1 + c2)) ->
  exists q, u_right_multiply eps p f = Ok q /\ near n (S (c1 + c2)) (mmul (2 ^ n) P F) q.
Proof.
  intros Hp Hf L. unfold u_right_multiply. assert (D1 := proj1 Hp). assert (D2 := proj1 Hf).
  rewrite D1, D2, Nat.eqb_refl. unfold assert. cbn [bind]. now apply near_mul.
Qed.
Lemma near_inverse n c P p :
  near n c P p -> lim n (S c) ->
  exists q, u_inverse eps p = Ok q /\ near n (S c) (adj P) q.
Proof.
  intros (D & S & De & F) L. unfold u_inverse. rewrite D.
  destruct (near_mk n c (adj P) (adj (u_mat p)) (Some (u_name p)) (u_params p) (negb (u_inv p)) (u_apply p))
    as (q & E & N & _); auto.
  - now apply special_adj.
  - rewrite det_adj, De. apply Cconj_R.
  - assert (E : meq (2 ^ n) (mminus (adj (u_mat p)) (adj P)) (adj (mminus (u_mat p) P))).
    { intros i j _ _. unfold mminus, adj. now rewrite Cconj_minus. }
    rewrite E, fro_adj. auto.
  - exists q. auto.
Qed.

(** ** Gates *)
(** Two constructor calls are harmless in dimension [d]. *)
Definition tame (d : nat) : Prop :=
  (2 * (kappa0 d * eps) <= 45 / 10 ^ 10)%R /\ (INR d * (2 * (kappa0 d * eps)) <= / 100)%R.

Lemma kappa0_mono a c : (a <= c)%nat -> (kappa0 a <= kappa0 c)%R.
Proof.
  intros H. unfold kappa0. apply le_INR in H. assert (A := pos_INR a).
  assert (S := sqrt_le_1 (INR a) (INR c) A (pos_INR c) H). assert (S0 := sqrt_pos (INR a)).
  apply Rmult_le_compat; lra.
Qed.
Lemma err_2 n : (2 * xi n <= err n 2)%R.
Proof. unfold err. assert (X := xi_pos n). simpl. assert (0 <= xi n * xi n)%R by now apply Rmult_le_pos. lra. Qed.
Lemma lim_tame n c d : (2 <= c)%nat -> (d <= 2 ^ n)%nat -> lim n c -> tame d.
Proof.
  intros Hc Hd L. apply (lim_mono n 2) in L; auto. destruct L as [L1 L2].
  assert (E2 := err_2 n). unfold xi in *.
  assert (K := kappa0_mono d (2 ^ n) Hd). assert (K0 := kappa0_pos d).
  apply le_INR in Hd. assert (D0 := pos_INR d).
  assert (M : (kappa0 d * eps <= kappa0 (2 ^ n) * eps)%R) by (apply Rmult_le_compat_r; auto).
  assert (0 <= kappa0 d * eps)%R by now apply Rmult_le_pos.
  split; [lra|]. eapply Rle_trans; [|exact L2]. apply Rmult_le_compat; auto; lra.
Qed.

(** A [Unitary] within the error of two constructor calls of an exact one. *)
Definition rough (u : unitary) : Prop :=
  (0 < u_dim u)%nat /\ det (u_dim u) (u_mat u) = 1 /\
  (tame (u_dim u) -> exists G, special (u_dim u) G /\
     (fro (u_dim u) (mminus (u_mat u) G) <= 2 * (kappa0 (u_dim u) * eps))%R).

Lemma kappa0_eps d : (0 <= kappa0 d * eps)%R.
Proof. apply Rmult_le_pos; auto. apply kappa0_pos. Qed.

Lemma from_exact d M nm ps iv ap : (0 < d)%nat -> unitary_mx d M -> tame d ->
  exists u G, mk_unitary eps d (Some (square d M)) nm ps iv ap = Ok u /\ u_dim u = d /\ det d (u_mat u) = 1 /\
    special d G /\ (fro d (mminus (u_mat u) G) <= kappa0 d * eps)%R.
Proof.
  intros Hd HU [T1 T2]. assert (HM : fro d (mminus M M) = 0%R) by now apply fro_minus_self.
  assert (K0 := kappa0_eps d). assert (D0 := pos_INR d).
  destruct (normalise_gen eps d M M 0 nm ps iv ap) as (p & c & Ep & Dp & De & _ & _ & _ & _ & C1 & C2 & _ & F);
    auto; try lra.
  - now apply unitary_det_mod.
  - exists p, (mscale c M). split; auto. split; auto. split; auto. split.
    + split.
      * unfold unitary_mx. rewrite adj_mscale, mmul_mscale_l, mmul_mscale_r, mscale_mscale.
        rewrite Cmod_one_conj by auto. red in HU. rewrite HU. apply mscale_1.
      * now rewrite det_mscale.
    + lra.
Qed.

Lemma from_hand d M nm ps iv ap : (0 < d)%nat -> at_hand eps d M -> tame d ->
  exists u G, mk_unitary eps d (Some (square d M)) nm ps iv ap = Ok u /\ u_dim u = d /\ det d (u_mat u) = 1 /\
    special d G /\ (fro d (mminus (u_mat u) G) <= 2 * (kappa0 d * eps))%R.
Proof.
  intros Hd H T. assert (K0 := kappa0_eps d). destruct H as [HU|(v & (d' & A & nm' & ps' & iv' & ap' & HU & E) & Dv & <-)].
  - destruct (from_exact d M nm ps iv ap Hd HU T) as (u & G & E & D & De & S & F).
    exists u, G. repeat (split; [assumption|]). lra.
  - assert (d' = d).
    { apply mk_unitary_inv in E. destruct E as (_ & _ & _ & _ & _ & E). rewrite E in Dv. exact Dv. }
    subst d'. destruct (from_exact d A nm' ps' iv' ap' Hd HU T) as (v' & G & E' & D & De & S & F).
    rewrite E in E'. injection E' as <-. destruct T as [T1 T2].
    destruct (normalise eps d G (u_mat v) (kappa0 d * eps) nm ps iv ap) as (p & Ep & Dp & Dep & _ & _ & _ & _ & Fp);
      auto; try lra.
    exists p, G. repeat (split; [assumption|]). lra.
Qed.

Lemma made_rough u : made eps u -> rough u.
Proof.
  intros (d & M & nm & ps & iv & ap & HU & E).
  assert (K := mk_unitary_det eps d _ nm ps iv ap u E). destruct K as (K1 & K3).
  assert (K2 := mk_unitary_inv _ _ _ _ _ _ _ _ E). destruct K2 as (K2 & _).
  split; [lia|]. split; [rewrite K1; exact K3|]. rewrite K1. intros T.
  destruct (from_hand d M nm ps iv ap K2 HU T) as (u' & G & E' & _ & _ & S & F).
  rewrite E in E'. injection E' as <-. eauto.
Qed.

Lemma made_ok d M nm ps iv ap : (0 < d)%nat -> at_hand eps d M -> tame d ->
  exists u, mk_unitary eps d (Some (square d M)) nm ps iv ap = Ok u /\ u_dim u = d.
Proof.
  intros Hd HU T. destruct (from_hand d M nm ps iv ap Hd HU T) as (u & G & E & D & _). eauto.
Qed.

Definition is_ideal (u : unitary) (G : mat) : Prop :=
  special (u_dim u) G /\ (wf u -> G = u_mat u) /\
  (rough u -> tame (u_dim u) -> (fro (u_dim u) (mminus (u_mat u) G) <= 2 * (kappa0 (u_dim u) * eps))%R).

(** The exact operator a gate stands for. *)
Definition ideal (u : unitary) : mat := epsilon (inhabits (mid : mat)) (is_ideal u).

Lemma wf_rough u : wf u -> rough u.
Proof.
  intros W. split; [apply W|]. split; [apply W|]. intros _. exists (u_mat u). split; [apply W|].
  rewrite fro_minus_self by reflexivity. assert (X := kappa0_eps (u_dim u)). lra.
Qed.

Lemma ideal_ok u : is_ideal u (ideal u).
Proof.
  unfold ideal. apply epsilon_spec. destruct (classic (wf u)) as [W|W].
  - exists (u_mat u). split; [apply W|]. split; auto. intros _ _.
    rewrite fro_minus_self by reflexivity. assert (X := kappa0_eps (u_dim u)). lra.
  - destruct (classic (rough u /\ tame (u_dim u))) as [[K T]|K].
    + destruct K as (K1 & K2 & K). destruct (K T) as (G & K3 & K4). exists G. split; auto. split; [contradiction|auto].
    + exists mid. split; [apply special_mid|]. split; [contradiction|]. tauto.
Qed.
Lemma ideal_special u : special (u_dim u) (ideal u).
Proof. apply ideal_ok. Qed.
Lemma ideal_wf u : wf u -> ideal u = u_mat u.
Proof. apply ideal_ok. Qed.
Lemma ideal_near u : rough u -> tame (u_dim u) -> (fro (u_dim u) (mminus (u_mat u) (ideal u)) <= 2 * (kappa0 (u_dim u) * eps))%R.
Proof. apply ideal_ok. Qed.

Definition idealise (g : unitary * list nat) : unitary * list nat :=
  ({| u_dim := u_dim (fst g); u_mat := ideal (fst g); u_name := u_name (fst g); u_params := u_params (fst g);
      u_inv := u_inv (fst g); u_apply := u_apply (fst g) |}, snd g).
(** The ordered product of the exact operators. *)
Definition iordered (n : nat) (gs : list (unitary * list nat)) : mat := ordered n (map idealise gs).

Lemma iordered_nil n : iordered n [] = mid.
Proof. reflexivity. Qed.
Lemma iordered_app n g1 g2 :
  meq (2 ^ n) (iordered n (g1 ++ g2)) (mmul (2 ^ n) (iordered n g2) (iordered n g1)).
Proof. unfold iordered. rewrite map_app. apply ordered_app. Qed.
Lemma iordered_cons n g gs :
  meq (2 ^ n) (iordered n (g :: gs)) (mmul (2 ^ n) (iordered n gs) (embed n (snd g) (ideal (fst g)))).
Proof. unfold iordered. cbn [map]. rewrite ordered_cons. reflexivity. Qed.
Lemma iordered_snoc n g gs :
  meq (2 ^ n) (iordered n (gs ++ [g])) (mmul (2 ^ n) (embed n (snd g) (ideal (fst g))) (iordered n gs)).
Proof. unfold iordered. rewrite map_app. cbn [map]. rewrite ordered_snoc. reflexivity. Qed.
Lemma iordered_wf n gs : (forall g, In g gs -> wf (fst g)) -> iordered n gs = ordered n gs.
Proof.
  intros H. unfold iordered, ordered. generalize (mid : mat).
  induction gs as [|g gs IH]; intros A; cbn [map fold_left]; auto.
  rewrite IH by (intros; apply H; simpl; auto). cbn [idealise fst snd u_mat]. now rewrite ideal_wf by (apply H; simpl; auto).
Qed.

(** A gate object that a sequence may hold; [b] says that it is exact and that no
    stored component is below the threshold. *)
Definition gok (b : bool) (g : unitary * list nat) : Prop :=
  rough (fst g) /\ NoDup (snd g) /\ snd g <> [] /\ (2 ^ List.length (snd g))%nat = u_dim (fst g) /\
  (b = true -> wf (fst g) /\ eps_clean eps (u_dim (fst g)) (u_mat (fst g))).

(** Error of one full unitary (and of its inverse). *)
Definition gc (b : bool) : nat := if b then 0%nat else 5%nat.

Lemma mtrace_kron a k A B : (0 < k)%nat -> mtrace (a * k) (kron k A B) = mtrace a A * mtrace k B.
Proof.
  intros Hk. unfold mtrace, kron. rewrite csum_prod, <- csum_mult_r. apply csum_ext. intros i _.
  rewrite <- csum_mult_l. apply csum_ext. intros j Hj.
  rewrite Nat.div_add_l, (Nat.div_small j k), Nat.add_0_r, Nat.add_comm, Nat.mod_add, Nat.mod_small by lia.
  reflexivity.
Qed.
Lemma fro2_kron_id a k A : (0 < k)%nat -> fro2 (a * k) (kron k A mid) = (INR k * fro2 a A)%R.
Proof.
  intros Hk. apply RtoC_inj. rewrite RtoC_mult, !fro2_trace.
  assert (E : meq (a * k) (mmul (a * k) (kron k A mid) (adj (kron k A mid))) (kron k (mmul a A (adj A)) mid)).
  { rewrite kron_adj. rewrite kron_mmul by auto. apply kron_proper; auto; [reflexivity|].
    rewrite adj_mid. apply mmul_1_l. }
  rewrite E. rewrite mtrace_kron by auto. rewrite mtrace_mid. ring.
Qed.
Lemma fro_kron_id a k A : (0 < k)%nat -> fro (a * k) (kron k A mid) = (sqrt (INR k) * fro a A)%R.
Proof.
  intros Hk. unfold fro. rewrite fro2_kron_id by auto. apply sqrt_mult; [apply pos_INR|apply fro2_nonneg].
Qed.
Lemma kappa0_kron a k : (0 < a)%nat -> (0 < k)%nat -> (sqrt (INR k) * kappa0 a <= kappa0 (a * k))%R.
Proof.
  intros Ha Hk. unfold kappa0. rewrite mult_INR. rewrite sqrt_mult by apply pos_INR.
  assert (A1 : (1 <= INR a)%R) by (change 1%R with (INR 1); apply le_INR; lia).
  assert (K1 := sqrt_INR_ge1 k Hk). assert (S1 := sqrt_INR_ge1 a Ha).
  assert (E : (sqrt (INR k) * sqrt (INR k) = INR k)%R) by (apply sqrt_sqrt, pos_INR).
  set (sk := sqrt (INR k)) in *. set (sa := sqrt (INR a)) in *. rewrite <- E.
  assert (H1 : (sa <= sa * sk)%R) by nra. assert (H2 : (sa * sk + 1 <= sk * (sa * sk + 1))%R) by nra.
  assert (H3 : (sk * (sa + 1) <= sk * (sk * (sa * sk + 1)))%R) by (apply Rmult_le_compat_l; lra).
  replace (sk * (8 / 5 * INR a * (sa + 1)))%R with (8 / 5 * INR a * (sk * (sa + 1)))%R by ring.
  replace (8 / 5 * (INR a * (sk * sk)) * (sa * sk + 1))%R with (8 / 5 * INR a * (sk * (sk * (sa * sk + 1))))%R by ring.
  apply Rmult_le_compat_l; lra.
Qed.

Lemma fro_reindex n f A :
  (forall i, (i < n)%nat -> (f i < n)%nat) ->
  (forall i j, (i < n)%nat -> (j < n)%nat -> f i = f j -> i = j) ->
  fro n (fun i j => A (f i) (f j)) = fro n A.
Proof.
  intros Hf Hi. rewrite <- (sel_mx_conj n f A Hf).
  assert (Ea : meq n (adj (sel_mx f)) (transpose (sel_mx f))).
  { intros i j _ _. unfold adj, transpose, sel_mx. destruct (Nat.eqb (f j) i); apply Cconj_R. }
  assert (U : unitary_mx n (sel_mx f)).
  { unfold unitary_mx. rewrite Ea. now apply sel_mx_orth. }
  rewrite <- Ea. rewrite fro_unitary_r by now apply unitary_adj. now rewrite fro_unitary_l.
Qed.

Lemma full_pure_compute n g :
  placement n (snd g) -> (2 ^ List.length (snd g))%nat = u_dim (fst g) ->
  full_pure eps (2 ^ n) g =
  compute_full_unitary eps {| e_unitary := fst g; e_apply := snd g; e_cache := [] |} (2 ^ n).
Proof.
  intros Hp Hd. unfold full_pure. apply get_full_fresh; auto. unfold e_dim. cbn [e_unitary].
  rewrite <- Hd. apply Nat.pow_le_mono_r; [lia|]. now apply placement_length.
Qed.

Lemma full_near n g :
  gok false g -> placement n (snd g) -> lim n 4 ->
  exists f, full_pure eps (2 ^ n) g = Ok f /\ near n 4 (embed n (snd g) (ideal (fst g))) f /\
    u_name f = u_name (fst g) /\ u_params f = u_params (fst g) /\ u_inv f = false /\ u_apply f = snd g.
Proof.
  intros (Hw & _ & _ & Hd & _) Hp L. rewrite full_pure_compute by auto.
  unfold compute_full_unitary, e_dim. cbn [e_unitary e_apply].
  set (qs := snd g) in *. set (u := fst g) in *.
  assert (Eb : (2 ^ n / u_dim u = 2 ^ (n - List.length qs))%nat).
  { rewrite <- Hd, <- (dim_split n qs Hp), Nat.mul_comm. apply Nat.div_mul.
    apply Nat.pow_nonzero. lia. }
  rewrite Eb. set (k := (n - List.length qs)%nat) in *.
  destruct (u_identity_ok eps (2 ^ k)) as (i & Ei & Di & _ & _ & _ & _ & Mi); auto using pow2_pos.
  rewrite Ei. cbn [bind]. unfold u_tensor. rewrite Di, <- Hd.
  assert (Edim : (2 ^ List.length qs * 2 ^ k = 2 ^ n)%nat) by now apply dim_split.
  rewrite (Nat.mul_comm (2 ^ k)), Edim.
  assert (Hs : special (2 ^ List.length qs) (ideal u)) by (rewrite Hd; apply ideal_special).
  assert (EK : meq (2 ^ n) (kron (2 ^ k) (u_mat u) (u_mat i)) (kron (2 ^ k) (u_mat u) mid)).
  { rewrite <- Edim. apply kron_proper; auto using pow2_pos. reflexivity. }
  assert (HsK : special (2 ^ n) (kron (2 ^ k) (ideal u) mid)).
  { rewrite <- Edim. apply special_kron; auto using pow2_pos, special_mid. }
  destruct (near_mk n 2 (kron (2 ^ k) (ideal u) mid) (kron (2 ^ k) (u_mat u) (u_mat i))
     (Some (u_name u ++ "--" ++ u_name i)%string) (u_params u) false (u_apply u))
    as (p & Ep & (Dp & _ & Dep & Fp) & _); auto.
  { rewrite (@det_ext _ _ _ EK). rewrite <- Edim, det_kron, det_mid by auto using pow2_pos.
    destruct Hw as (_ & Hw & _). rewrite <- Hd in Hw. rewrite Hw, !cpow_1. ring. }
  { rewrite EK. assert (E : meq (2 ^ n) (mminus (kron (2 ^ k) (u_mat u) mid) (kron (2 ^ k) (ideal u) mid))
      (kron (2 ^ k) (mminus (u_mat u) (ideal u)) mid)) by (intros a b _ _; unfold mminus, kron; ring).
    rewrite E, <- Edim, fro_kron_id by auto using pow2_pos. rewrite Hd.
    assert (F := ideal_near u Hw ltac:(apply (lim_tame n 4); auto; rewrite <- Hd; apply Nat.pow_le_mono_r; [lia|now apply placement_length])). eapply Rle_trans; [apply Rmult_le_compat_l; [apply sqrt_pos|exact F]|].
    eapply Rle_trans; [|apply err_2]. unfold xi. rewrite <- Edim, <- Hd.
    rewrite (Rmult_comm (sqrt _)), Rmult_assoc. apply Rmult_le_compat_l; [lra|].
    rewrite (Rmult_comm _ (sqrt _)), <- Rmult_assoc.
    apply Rmult_le_compat_r; auto. apply kappa0_kron; auto using pow2_pos. }
  { apply (lim_mono n 3 4); auto. }
  rewrite Ep. cbn [bind]. rewrite Dp, Nat.eqb_refl. unfold assert at 1. cbn [bind].
  rewrite get_permute_matrix_ok; [|exact Hp|exact Hd]. cbn [bind e_apply].
  assert (Hlt : forall a, (a < 2 ^ n)%nat -> (pind n qs a < 2 ^ n)%nat) by (intros; now apply pind_lt).
  assert (Hinj : forall a b, (a < 2 ^ n)%nat -> (b < 2 ^ n)%nat -> pind n qs a = pind n qs b -> a = b)
    by (intros; eapply pind_inj; eauto).
  assert (EC := sel_mx_conj (2 ^ n) (pind n qs) (u_mat p) Hlt).
  destruct (near_mk n 3 (embed n qs (ideal u))
    (mmul (2 ^ n) (mmul (2 ^ n) (sel_mx (pind n qs)) (u_mat p)) (transpose (sel_mx (pind n qs))))
    (Some (u_name u)) (u_params u) false qs) as (f & Ef & Nf & R); auto.
  - now apply embed_special.
  - rewrite (@det_ext _ _ _ EC). now rewrite det_reindex.
  - rewrite EC.
    assert (E : meq (2 ^ n) (mminus (fun a b => u_mat p (pind n qs a) (pind n qs b)) (embed n qs (ideal u)))
      (fun a b => mminus (u_mat p) (kron (2 ^ k) (ideal u) mid) (pind n qs a) (pind n qs b))).
    { intros a b Ha Hb. unfold mminus. f_equal. f_equal. symmetry. now apply embed_pind. }
    rewrite E. now rewrite fro_reindex.
  - exists f. auto.
Qed.

Lemma full_exact n g :
  gok true g -> placement n (snd g) ->
  exists f, full_pure eps (2 ^ n) g = Ok f /\ near n 0 (embed n (snd g) (u_mat (fst g))) f /\
    meq (2 ^ n) (u_mat f) (embed n (snd g) (u_mat (fst g))) /\
    u_name f = u_name (fst g) /\ u_params f = u_params (fst g) /\ u_inv f = false /\ u_apply f = snd g.
Proof.
  intros (_ & _ & _ & Hd & Hc) Hp. destruct (Hc eq_refl) as [Hw Hc']. rewrite full_pure_compute by auto.
  destruct (compute_full_unitary_ok eps n {| e_unitary := fst g; e_apply := snd g; e_cache := [] |})
    as (f & E & D & N1 & N2 & N3 & N4 & M); auto.
  exists f. split; auto. split; auto. cbn [e_unitary e_apply] in *.
  assert (HS : special (2 ^ n) (embed n (snd g) (u_mat (fst g)))).
  { apply embed_special; auto. rewrite Hd. apply Hw. }
  split; auto. split; auto. split.
  - rewrite (@det_ext _ _ _ M). apply HS.
  - rewrite err_0, fro_minus_self; auto. lra.
Qed.

(** The full unitary of a gate and its inverse. *)
Lemma gate_near b n g :
  gok b g -> placement n (snd g) -> lim n (gc b) ->
  exists f i, full_pure eps (2 ^ n) g = Ok f /\ u_inverse eps f = Ok i /\
    near n (gc b) (embed n (snd g) (ideal (fst g))) f /\
    near n (gc b) (adj (embed n (snd g) (ideal (fst g)))) i.
Proof.
  intros Hg Hp L. destruct b; cbn [gc] in *.
  - destruct (full_exact n g Hg Hp) as (f & E & N & M & _).
    destruct Hg as (_ & _ & _ & Hd & Hg). destruct (Hg eq_refl) as [Hw Hc]. rewrite (ideal_wf _ Hw).
    destruct N as (D & S & De & F).
    destruct (near_exact n (adj (u_mat f)) (Some (u_name f)) (u_params f) (negb (u_inv f)) (u_apply f))
      as (i & Ei & Ni & _).
    + rewrite M. now apply special_adj.
    + apply eps_clean_adj. rewrite M. apply embed_clean. now rewrite Hd.
    + exists f, i. split; auto. split; [unfold u_inverse; now rewrite D|].
      split; [repeat split; auto; apply S|]. apply near_meq with (P := adj (u_mat f)); auto. now rewrite M.
  - destruct (full_near n g Hg Hp) as (f & E & N & _); [apply (lim_mono n 4 5); auto|].
    destruct (near_inverse n 4 _ f N L) as (i & Ei & Ni).
    exists f, i. split; auto. split; auto. split; auto. apply near_mono with (c1 := 4%nat); auto.
Qed.

Lemma embed_near n g : gok false g -> placement n (snd g) -> lim n 2 ->
  (fro (2 ^ n) (mminus (embed n (snd g) (u_mat (fst g))) (embed n (snd g) (ideal (fst g)))) <= err n 2)%R.
Proof.
  intros (Hw & _ & _ & Hd & _) Hp L. set (qs := snd g) in *. set (u := fst g) in *.
  set (k := (n - List.length qs)%nat).
  assert (Edim : (2 ^ List.length qs * 2 ^ k = 2 ^ n)%nat) by now apply dim_split.
  assert (E : meq (2 ^ n) (mminus (embed n qs (u_mat u)) (embed n qs (ideal u)))
    (fun a b => kron (2 ^ k) (mminus (u_mat u) (ideal u)) mid (pind n qs a) (pind n qs b))).
  { intros a b Ha Hb. unfold mminus. rewrite <- (embed_pind n qs) by auto. rewrite <- (embed_pind n qs) by auto.
    fold k. unfold kron. ring. }
  rewrite E. rewrite fro_reindex.
  - rewrite <- Edim, fro_kron_id by auto using pow2_pos. rewrite Hd.
    assert (F := ideal_near u Hw ltac:(apply (lim_tame n 2); auto; rewrite <- Hd; apply Nat.pow_le_mono_r; [lia|now apply placement_length])).
    eapply Rle_trans; [apply Rmult_le_compat_l; [apply sqrt_pos|exact F]|].
    eapply Rle_trans; [|apply err_2]. unfold xi. rewrite <- Edim, <- Hd.
    rewrite (Rmult_comm (sqrt _)), Rmult_assoc. apply Rmult_le_compat_l; [lra|].
    rewrite (Rmult_comm _ (sqrt _)), <- Rmult_assoc.
    apply Rmult_le_compat_r; auto. apply kappa0_kron; auto using pow2_pos.
  - intros; now apply pind_lt.
  - intros; eapply pind_inj; eauto.
Qed.

(** The product of the stored matrices against that of the exact operators. *)
Lemma ordered_near n gs : (forall g, In g gs -> gok false g /\ placement n (snd g)) -> lim n 2 ->
  (fro (2 ^ n) (mminus (ordered n gs) (iordered n gs)) <= err n (2 * List.length gs))%R.
Proof.
  induction gs as [|g gs IH]; intros H L.
  - cbn [List.length]. rewrite Nat.mul_0_r, fro_minus_self by reflexivity. rewrite err_0. lra.
  - cbn [List.length]. rewrite ordered_cons, iordered_cons.
    destruct (H g) as [Hg Hp]; [simpl; auto|].
    replace (2 * S (List.length gs))%nat with (2 * List.length gs + 2)%nat by lia. rewrite err_add.
    apply fro_product; auto.
    + unfold iordered. clear IH. assert (K : forall g, In g gs -> gok false g /\ placement n (snd g)) by (intros; apply H; simpl; auto).
      clear H Hg Hp. induction gs as [|g' gs IH] using rev_ind; [apply unitary_mid|].
      rewrite map_app. cbn [map]. rewrite ordered_snoc. apply unitary_mmul.
      * destruct (K g') as [Kg Kp]; [apply in_or_app; simpl; auto|]. cbn [idealise fst snd u_mat].
        refine (proj1 (embed_special n _ Kp _ _)). destruct Kg as (_ & _ & _ & Kd & _). rewrite Kd. apply ideal_special.
      * apply IH. intros; apply K, in_or_app; auto.
    + refine (proj1 (embed_special n _ Hp _ _)). destruct Hg as (_ & _ & _ & Hd & _). rewrite Hd. apply ideal_special.
    + apply IH; auto. intros; apply H; simpl; auto.
    + now apply embed_near.
Qed.

(** ** One qubit with exact gates *)
(** In this mode the products stay exactly special unitary and no bound is needed. *)
Definition single (b : bool) (n : nat) : Prop := b = true /\ n = 1%nat /\ (eps <= / 1000)%R.
Definition limb (b : bool) (n c : nat) : Prop := lim n c \/ single b n.
Definition nearb (b : bool) (n c : nat) (P : mat) (p : unitary) : Prop :=
  near n c P p /\ (single b n -> special (2 ^ n) (u_mat p)).

Lemma limb_mono b n c1 c2 : (c1 <= c2)%nat -> limb b n c2 -> limb b n c1.
Proof. intros H [L|L]; [left; now apply lim_mono with (c2 := c2)|now right]. Qed.
Lemma nearb_mono b n c1 c2 P p : (c1 <= c2)%nat -> nearb b n c1 P p -> nearb b n c2 P p.
Proof. intros H [A B]. split; auto. now apply near_mono with (c1 := c1). Qed.
Lemma nearb_meq b n c P Q p : meq (2 ^ n) P Q -> nearb b n c P p -> nearb b n c Q p.
Proof. intros H [A B]. split; auto. now apply near_meq with (P := P). Qed.

Lemma nearb_mk b n c P A nm ps iv ap :
  special (2 ^ n) P -> det (2 ^ n) A = 1 -> (fro (2 ^ n) (mminus A P) <= err n c)%R ->
  (single b n -> special (2 ^ n) A) -> limb b n (S c) ->
  exists p, mk_unitary eps (2 ^ n) (Some (square (2 ^ n) A)) nm ps iv ap = Ok p /\ nearb b n (S c) P p.
Proof.
  intros HS HD HF HA HL. destruct (classic (single b n)) as [X|X].
  - specialize (HA X). destruct X as (-> & -> & X).
    destruct (mk_su2 eps A nm ps iv ap (conj eps0 X) HA) as (p & E & D & S & _ & _ & _ & _ & F & _).
    exists p. split; [exact E|]. split; [|intros _; exact S].
    split; [exact D|]. split; [exact HS|]. split; [apply S|].
    eapply Rle_trans; [apply fro_minus_triangle with (B := A)|].
    eapply Rle_trans; [|apply err_S]. unfold xi. change (2 ^ 1)%nat with 2%nat in *. lra.
  - destruct HL as [HL|]; [|contradiction].
    destruct (near_mk n c P A nm ps iv ap HS HD HF HL) as (p & E & N & _). exists p. split; auto. split; auto. contradiction.
Qed.

Lemma near_0 n P p : near n 0 P p -> meq (2 ^ n) (u_mat p) P.
Proof.
  intros (_ & _ & _ & F). rewrite err_0 in F.
  assert (E : meq (2 ^ n) (mminus (u_mat p) P) mzero).
  { apply fro_0. apply Rle_antisym; auto. apply fro_nonneg. }
  intros i j Hi Hj. specialize (E i j Hi Hj). unfold mminus, mzero in E.
  replace (u_mat p i j) with ((u_mat p i j - P i j) + P i j) by ring. rewrite E. ring.
Qed.
Lemma nearb_0 b n P p : near n 0 P p -> nearb b n 0 P p.
Proof. intros N. split; auto. intros _. rewrite (near_0 n P p N). apply N. Qed.

Lemma nearb_id b n nm ps iv ap :
  exists p, mk_unitary eps (2 ^ n) (Some (square (2 ^ n) mid)) nm ps iv ap = Ok p /\
    nearb b n 0 mid p.
Proof. destruct (near_id n nm ps iv ap) as (p & E & N). exists p. split; auto. now apply nearb_0. Qed.

Lemma nearb_rewrap b n c P p : nearb b n c P p -> limb b n (S c) ->
  exists p', rewrap eps p = Ok p' /\ nearb b n (S c) P p'.
Proof. intros [(D & S & De & F) H] L. unfold rewrap. rewrite D. now apply nearb_mk. Qed.

Lemma nearb_mul b n c1 c2 P1 P2 p1 p2 nm ps iv ap :
  nearb b n c1 P1 p1 -> nearb b n c2 P2 p2 -> limb b n (S (c1 + c2)) ->
  exists p, mk_unitary eps (2 ^ n) (Some (square (2 ^ n) (mmul (2 ^ n) (u_mat p1) (u_mat p2)))) nm ps iv ap = Ok p /\
    nearb b n (S (c1 + c2)) (mmul (2 ^ n) P1 P2) p.
Proof.
  intros [(D1 & S1 & De1 & F1) H1] [(D2 & S2 & De2 & F2) H2] L. apply nearb_mk; auto.
  - now apply special_mmul.
  - rewrite det_mmul, De1, De2. ring.
  - rewrite err_add. apply fro_product; auto; [apply S1|apply S2].
  - intros X. apply special_mmul; auto.
Qed.
Lemma nearb_left b n c1 c2 P F p f :
  nearb b n c1 P p -> nearb b n c2 F f -> limb b n (S (c1 + c2)) ->
  exists q, u_left_multiply eps p f = Ok q /\ nearb b n (S (c1 + c2)) (mmul (2 ^ n) F P) q.
Proof.
  intros Hp Hf L. unfold u_left_multiply. assert (D1 := proj1 (proj1 Hp)). assert (D2 := proj1 (proj1 Hf)).
  rewrite D1, D2, Nat.eqb_refl. unfold assert. cbn [bind].
  rewrite Nat.add_comm in *. now apply nearb_mul.
Qed.
Lemma nearb_right b n c1 c2 P F p f :
  nearb b n c1 P p -> nearb b n c2 F f -> limb b n (S (c1 + c2)) ->
  exists q, u_right_multiply eps p f = Ok q /\ nearb b n (S (c1 + c2)) (mmul (2 ^ n) P F) q.
Proof.
  intros Hp Hf L. unfold u_right_multiply. assert (D1 := proj1 (proj1 Hp)). assert (D2 := proj1 (proj1 Hf)).
  rewrite D1, D2, Nat.eqb_refl. unfold assert. cbn [bind]. now apply nearb_mul.
Qed.
Lemma nearb_inverse b n c P p :
  nearb b n c P p -> limb b n (S c) ->
  exists q, u_inverse eps p = Ok q /\ nearb b n (S c) (adj P) q.
Proof.
  intros [(D & S & De & F) H] L. unfold u_inverse. rewrite D. apply nearb_mk; auto.
  - now apply special_adj.
  - rewrite det_adj, De. apply Cconj_R.
  - assert (E : meq (2 ^ n) (mminus (adj (u_mat p)) (adj P)) (adj (mminus (u_mat p) P))).
    { intros i j _ _. unfold mminus, adj. now rewrite Cconj_minus. }
    rewrite E, fro_adj. auto.
  - intros X. apply special_adj; auto.
Qed.
Lemma nearb_gate b n g :
  gok b g -> placement n (snd g) -> limb b n (gc b) ->
  exists f i, full_pure eps (2 ^ n) g = Ok f /\ u_inverse eps f = Ok i /\
    nearb b n (gc b) (embed n (snd g) (ideal (fst g))) f /\
    nearb b n (gc b) (adj (embed n (snd g) (ideal (fst g)))) i.
Proof.
  intros Hg Hp L. assert (L' : lim n (gc b)).
  { destruct L as [L|(-> & _)]; auto. cbn [gc]. unfold lim. rewrite err_0. lra. }
  destruct (gate_near b n g Hg Hp L') as (f & i & E & Ei & Nf & Ni). exists f, i. split; auto. split; auto.
  destruct b; cbn [gc] in *.
  - split; now apply nearb_0.
  - split; split; auto; intros (X & _); discriminate.
Qed.
End Near.
