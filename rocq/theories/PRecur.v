(** Finitely many sequences come close to all products of gates, and powers of a product come
    back to the identity. *)
From Coq Require Import Reals List Arith Lia Lra ZArith ClassicalEpsilon.
From Coquelicot Require Import Coquelicot.
From Flocq Require Import Core.Core.
From Verif Require Import Base CMat CMatFacts Det DetFacts Norms ModelUnitary ModelEntry ModelPrimitive ModelSequence ModelCompiler
  Spec SpecModel SpecCompiler PUnitary PSeqNear PGates SpecChain PDecimalOp.
Import ListNotations.
Open Scope R_scope.
Set Bullet Behavior "Strict Subproofs".

(** * Codes *)
Definition zrange (K : nat) : list Z := map (fun k => (Z.of_nat k - Z.of_nat K)%Z) (seq 0 (2 * K + 1)).
Lemma zrange_in K z : (- Z.of_nat K <= z <= Z.of_nat K)%Z -> In z (zrange K).
Proof. intros H. unfold zrange. apply in_map_iff. exists (Z.to_nat (z + Z.of_nat K)). split; [lia|]. apply in_seq. lia. Qed.

Fixpoint codes (K L : nat) : list (list Z) :=
  match L with
  | O => [[]]
  | S L' => flat_map (fun z => map (cons z) (codes K L')) (zrange K)
  end.
Lemma codes_in K l : (forall z, In z l -> (- Z.of_nat K <= z <= Z.of_nat K)%Z) -> In l (codes K (List.length l)).
Proof.
  induction l as [|z l IH]; intros H; cbn [codes List.length]; [now left|]. apply in_flat_map. exists z. split.
  - apply zrange_in, H. now left.
  - apply in_map, IH. intros. apply H. now right.
Qed.

Lemma representatives {A C} (G : A -> Prop) (f : A -> C) cs :
  exists reps, (forall b, In b reps -> G b) /\ forall a, G a -> In (f a) cs -> exists b, In b reps /\ f b = f a.
Proof.
  induction cs as [|x cs (reps & R1 & R2)].
  - exists []. split; [intros b []|intros a _ []].
  - destruct (excluded_middle_informative (exists b, G b /\ f b = x)) as [(b & Gb & Eb)|N].
    + exists (b :: reps). split; [intros b' [<-|H]; auto|]. intros a Ga [E|H].
      * exists b. split; [now left|congruence].
      * destruct (R2 a Ga H) as (b' & ? & ?). exists b'. split; auto. now right.
    + exists reps. split; auto. intros a Ga [E|H]; auto. exfalso. apply N. exists a. auto.
Qed.

Lemma pigeon {C} (f : nat -> C) cs : (forall k, In (f k) cs) -> exists i j, (i < j)%nat /\ f i = f j.
Proof.
  intros H. destruct (excluded_middle_informative (exists i j, (i < j)%nat /\ f i = f j)) as [E|N]; auto. exfalso.
  assert (I : forall i j, f i = f j -> i = j).
  { intros i j E. destruct (lt_eq_lt_dec i j) as [[L|L]|L]; auto; exfalso; apply N.
    - exists i, j. auto.
    - exists j, i. auto. }
  assert (ND : NoDup (map f (seq 0 (S (List.length cs))))).
  { apply FinFun.Injective_map_NoDup; [exact I|apply seq_NoDup]. }
  apply NoDup_incl_length with (l' := cs) in ND.
  - rewrite map_length, seq_length in ND. lia.
  - intros y Hy. apply in_map_iff in Hy. destruct Hy as (k & <- & _). apply H.
Qed.

(** * Codes of matrices *)
Definition cell (s x : R) : Z := Zfloor (x / s).
Lemma cell_close s x y : 0 < s -> cell s x = cell s y -> Rabs (x - y) <= s.
Proof.
  intros Hs E. unfold cell in E. assert (X1 := Zfloor_lb (x / s)). assert (X2 := Zfloor_ub (x / s)).
  assert (Y1 := Zfloor_lb (y / s)). assert (Y2 := Zfloor_ub (y / s)). rewrite E in X1, X2.
  assert (D : Rabs (x / s - y / s) <= 1) by (apply Rabs_le; lra).
  replace (x - y) with ((x / s - y / s) * s) by (field; lra). rewrite Rabs_mult, (Rabs_pos_eq s) by lra. nra.
Qed.
Definition cellmax (s B : R) : nat := Z.to_nat (Zfloor (B / s) + 1).
Lemma cell_range s B x : 0 < s -> Rabs x <= B -> (- Z.of_nat (cellmax s B) <= cell s x <= Z.of_nat (cellmax s B))%Z.
Proof.
  intros Hs HB. assert (H0 : 0 <= B) by (eapply Rle_trans; [apply Rabs_pos|exact HB]).
  assert (I : 0 < / s) by now apply Rinv_0_lt_compat.
  assert (Q : 0 <= B / s) by (apply Rmult_le_pos; lra).
  assert (F0 : (0 <= Zfloor (B / s))%Z) by (apply Zfloor_lub; simpl; lra).
  unfold cellmax. rewrite Z2Nat.id by lia.
  assert (AB := Rabs_le_between x B). destruct AB as [AB _]. specialize (AB HB).
  assert (U : x / s <= B / s) by (apply Rmult_le_compat_r; lra).
  assert (L : - (B / s) <= x / s) by (replace (- (B / s)) with (- B * / s) by (unfold Rdiv; ring); apply Rmult_le_compat_r; lra).
  split.
  - unfold cell. apply Zfloor_lub. rewrite opp_IZR, plus_IZR. assert (X := Zfloor_ub (B / s)). lra.
  - unfold cell. apply Z.le_trans with (Zfloor (B / s)); [now apply Zfloor_le|lia].
Qed.

Definition entry_of (d : nat) (M : mat) (k : nat) : C := M (k / d)%nat (k mod d)%nat.
Definition code (d : nat) (s : R) (M : mat) : list Z :=
  map (fun k => cell s (Re (entry_of d M k))) (seq 0 (d * d)) ++ map (fun k => cell s (Im (entry_of d M k))) (seq 0 (d * d)).

Lemma re_le_Cmod z : Rabs (Re z) <= Cmod z.
Proof. eapply Rle_trans; [apply Rmax_l|apply Rmax_Cmod]. Qed.
Lemma im_le_Cmod z : Rabs (Im z) <= Cmod z.
Proof. eapply Rle_trans; [apply Rmax_r|apply Rmax_Cmod]. Qed.

Lemma code_in d s M : (0 < d)%nat -> 0 < s -> unitary_mx d M -> In (code d s M) (codes (cellmax s (sqrt (INR d))) (d * d + d * d)).
Proof.
  intros Hd Hs HU.
  assert (L : List.length (code d s M) = (d * d + d * d)%nat) by (unfold code; rewrite app_length, !map_length, seq_length; reflexivity).
  rewrite <- L. apply codes_in. intros z Hz.
  assert (EN : forall k, In k (seq 0 (d * d)) -> Cmod (entry_of d M k) <= sqrt (INR d)).
  { intros k Hk. apply in_seq in Hk. rewrite <- (fro_unitary d M HU). apply fro_entry.
    - apply Nat.div_lt_upper_bound; lia.
    - apply Nat.mod_upper_bound. lia. }
  unfold code in Hz. apply in_app_or in Hz. destruct Hz as [Hz|Hz]; apply in_map_iff in Hz; destruct Hz as (k & <- & Hk);
    apply cell_range; auto; (eapply Rle_trans; [|exact (EN k Hk)]); [apply re_le_Cmod|apply im_le_Cmod].
Qed.

Lemma fro_from_entries d A t : 0 <= t -> (forall i j, (i < d)%nat -> (j < d)%nat -> Cmod (A i j) <= t) -> fro d A <= INR d * t.
Proof.
  intros Ht H. unfold fro. rewrite <- (sqrt_Rsqr (INR d * t)) by (apply Rmult_le_pos; [apply pos_INR|auto]). apply sqrt_le_1_alt.
  unfold fro2. apply Rle_trans with (rsum d (fun _ => (INR d * t ^ 2)%R)).
  - apply rsum_le. intros i Hi. rewrite <- rsum_const. apply rsum_le. intros j Hj. apply pow_incr. split; [apply Cmod_ge_0|auto].
  - rewrite rsum_const. unfold Rsqr. right. ring.
Qed.

Lemma app_eq_len {A} (a b a' b' : list A) : List.length a = List.length a' -> a ++ b = a' ++ b' -> a = a' /\ b = b'.
Proof.
  revert a'. induction a as [|x a IH]; intros [|x' a'] L E; cbn in L; try discriminate; auto.
  injection E as -> E. destruct (IH a') as [-> ->]; auto.
Qed.
Lemma code_close d s A B : (0 < d)%nat -> 0 < s -> code d s A = code d s B -> fro d (mminus A B) <= INR d * (2 * s).
Proof.
  intros Hd Hs E. unfold code in E. apply app_eq_len in E; [|now rewrite !map_length]. destruct E as [E1 E2].
  apply fro_from_entries; [lra|]. intros i j Hi Hj.
  assert (K : In (i * d + j)%nat (seq 0 (d * d))) by (apply in_seq; nia).
  assert (EE : forall M, entry_of d M (i * d + j) = M i j).
  { intros M. unfold entry_of. rewrite Nat.div_add_l, Nat.div_small, Nat.add_0_r by lia.
    rewrite Nat.add_comm, Nat.mod_add, Nat.mod_small by lia. reflexivity. }
  assert (R1 := ext_in_map E1 _ K). assert (R2 := ext_in_map E2 _ K). cbv beta in R1, R2. rewrite !EE in R1, R2.
  apply cell_close in R1; auto. apply cell_close in R2; auto.
  unfold mminus. set (x := A i j) in *. set (y := B i j) in *.
  assert (T := Cmod_triangle (RtoC (Re x - Re y)) (Ci * RtoC (Im x - Im y))%C).
  replace (RtoC (Re x - Re y) + Ci * RtoC (Im x - Im y))%C with (x - y)%C in T.
  - rewrite Cmod_mult, !Cmod_R in T. rewrite Cmod_Ci in T. lra.
  - destruct x, y. unfold Ci. apply injective_projections; cbn; ring.
Qed.

(** * Words *)
Section Words.
Variable n : nat.
Notation gate := (unitary * list nat)%type.
Variable Good : list gate -> Prop.
Hypothesis Gnil : Good [].
Hypothesis Gapp : forall a b, Good a -> Good b -> Good (a ++ b).
Hypothesis Guni : forall a, Good a -> unitary_mx (2 ^ n) (ordered n a).
Notation D := (2 ^ n)%nat.

Lemma dim_pos : (0 < D)%nat.
Proof. assert (X := Nat.pow_nonzero 2 n ltac:(lia)). lia. Qed.

Fixpoint power (k : nat) (gs : list gate) : list gate := match k with O => [] | S j => gs ++ power j gs end.
Lemma power_add a b gs : power (a + b) gs = power a gs ++ power b gs.
Proof. induction a as [|a IH]; cbn [power Nat.add]; auto. now rewrite IH, app_assoc. Qed.
Lemma power_good k gs : Good gs -> Good (power k gs).
Proof. intros H. induction k; cbn [power]; auto. Qed.

Lemma grain eta : 0 < eta -> exists s, 0 < s /\ INR D * (2 * s) <= eta.
Proof.
  intros H. assert (I : 0 < INR D) by (apply lt_0_INR, dim_pos). exists (eta / (2 * INR D)). split.
  - apply Rdiv_lt_0_compat; lra.
  - right. field. lra.
Qed.

(** Some power of every word is close to the identity. *)
Lemma recurrence gs eta : Good gs -> 0 < eta -> exists r, fro D (mminus (ordered n (power (S r) gs)) mid) <= eta.
Proof.
  intros HG He. destruct (grain eta He) as (s & Hs & Hg).
  destruct (pigeon (fun k => code D s (ordered n (power k gs))) (codes (cellmax s (sqrt (INR D))) (D * D + D * D))) as (i & j & Hij & E).
  { intros k. apply code_in; auto; [apply dim_pos|]. now apply Guni, power_good. }
  exists (j - i - 1)%nat. apply code_close in E; auto; [|apply dim_pos].
  assert (U := Guni _ (power_good i gs HG)). replace j with (i + S (j - i - 1))%nat in E by lia.
  set (r := (j - i - 1)%nat) in *. rewrite power_add in E.
  eapply Rle_trans; [|exact Hg]. eapply Rle_trans; [|exact E]. right.
  rewrite <- (fro_unitary_r D (ordered n (power i gs)) (mminus _ _) U). rewrite (fro_minus_sym D (ordered n (power i gs))).
  apply fro_proper. rewrite mmul_mminus_l, mmul_1_l. now rewrite ordered_app.
Qed.

(** Finitely many words come close to all. *)
Lemma net eta : 0 < eta -> exists reps, (forall b, In b reps -> Good b) /\
  forall a, Good a -> exists b, In b reps /\ fro D (mminus (ordered n a) (ordered n b)) <= eta.
Proof.
  intros He. destruct (grain eta He) as (s & Hs & Hg).
  destruct (representatives Good (fun a => code D s (ordered n a)) (codes (cellmax s (sqrt (INR D))) (D * D + D * D))) as (reps & R1 & R2).
  exists reps. split; auto. intros a Ha. destruct (R2 a Ha) as (b & Hb & E).
  - apply code_in; auto. apply dim_pos.
  - exists b. split; auto. symmetry in E. apply code_close in E; auto; [lra|apply dim_pos].
Qed.

(** Finitely many continuations suffice to come to the target from every word. *)
Lemma continuations target gts tol : unitary_mx D (u_mat target) -> Good gts -> cost_of n target gts < tol ->
  exists ws, (forall w, In w ws -> Good w) /\ forall a, Good a -> exists w, In w ws /\ cost_of n target (a ++ w) <= tol.
Proof.
  intros HT Hg Hc. set (slack := tol - cost_of n target gts). assert (S0 : 0 < slack) by (unfold slack; lra).
  assert (CG : forall A B, (Rabs (overlap D (u_mat target) A - overlap D (u_mat target) B) <= fro D (mminus A B))%R).
  { intros A B. assert (X := overlap_gap D (u_mat target) A B dim_pos HT).
    assert (Q : 1 <= sqrt (INR D)). { rewrite <- sqrt_1. apply sqrt_le_1_alt. change 1 with (INR 1). apply le_INR. assert (Z := dim_pos). lia. }
    assert (P := Rabs_pos (overlap D (u_mat target) A - overlap D (u_mat target) B)). nra. }
  destruct (net (slack / 2) ltac:(lra)) as (reps & R1 & R2).
  set (ok := fun b w => Good w /\ cost_of n target (b ++ w) <= cost_of n target gts + slack / 2).
  assert (EX : forall b, Good b -> exists w, ok b w).
  { intros b Hb. destruct (recurrence b (slack / 2) Hb ltac:(lra)) as (r & Hr). exists (power r b ++ gts). split.
    - apply Gapp; auto. now apply power_good.
    - rewrite app_assoc. change (b ++ power r b) with (power (S r) b). unfold cost_of.
      assert (X := CG (ordered n (power (S r) b ++ gts)) (ordered n gts)).
      assert (Y : fro D (mminus (ordered n (power (S r) b ++ gts)) (ordered n gts)) <= slack / 2).
      { eapply Rle_trans; [|exact Hr]. right. rewrite <- (fro_unitary_l D (ordered n gts) (mminus (ordered n (power (S r) b)) mid) (Guni _ Hg)).
        apply fro_proper. rewrite mmul_mminus_r, mmul_1_r. now rewrite ordered_app. }
      apply Rabs_le_between in X. lra. }
  assert (CH : exists f, forall b, Good b -> ok b (f b)).
  { exists (fun b => match excluded_middle_informative (exists w, ok b w) with left H => proj1_sig (constructive_indefinite_description _ H) | right _ => [] end).
    intros b Hb. destruct (excluded_middle_informative _) as [H|N]; [|exfalso; auto].
    exact (proj2_sig (constructive_indefinite_description _ H)). }
  destruct CH as (f & Hf). exists (map f reps). split.
  - intros w Hw. apply in_map_iff in Hw. destruct Hw as (b & <- & Hb). apply Hf. auto.
  - intros a Ha. destruct (R2 a Ha) as (b & Hb & Hd). exists (f b). split; [now apply in_map|].
    destruct (Hf b (R1 b Hb)) as [Gw Hw]. unfold cost_of in Hw |- *.
    assert (X := CG (ordered n (a ++ f b)) (ordered n (b ++ f b))).
    assert (Y : fro D (mminus (ordered n (a ++ f b)) (ordered n (b ++ f b))) <= slack / 2).
    { eapply Rle_trans; [|exact Hd]. right. rewrite <- (fro_unitary_l D (ordered n (f b)) (mminus (ordered n a) (ordered n b)) (Guni _ Gw)).
      apply fro_proper. rewrite mmul_mminus_r. now rewrite !ordered_app. }
    apply Rabs_le_between in X. unfold slack in *. unfold cost_of in *. lra.
Qed.

(** Powers of a word come close to its inverse. *)
Lemma inverse_word target gts tol : unitary_mx D (u_mat target) -> Good gts ->
  overlap D (u_mat target) (adj (ordered n gts)) = 1 -> 0 < tol -> exists w, Good w /\ cost_of n target w < tol.
Proof.
  intros HT Hg HO Ht. destruct (recurrence gts (tol / 2) Hg ltac:(lra)) as (r & Hr). exists (power r gts).
  split; [now apply power_good|]. unfold cost_of.
  assert (X := overlap_gap D (u_mat target) (ordered n (power r gts)) (adj (ordered n gts)) dim_pos HT). rewrite HO in X.
  assert (Q : 1 <= sqrt (INR D)). { rewrite <- sqrt_1. apply sqrt_le_1_alt. change 1 with (INR 1). apply le_INR. assert (Z := dim_pos). lia. }
  assert (U := Guni _ Hg).
  assert (Y : fro D (mminus (ordered n (power r gts)) (adj (ordered n gts))) <= tol / 2).
  { eapply Rle_trans; [|exact Hr]. right. rewrite <- (fro_unitary_r D (ordered n gts) (mminus _ _) U).
    apply fro_proper. rewrite mmul_mminus_l. cbn [power]. rewrite ordered_app. now rewrite (DetFacts.unitary_left D (ordered n gts) U). }
  assert (P := Rabs_pos (overlap D (u_mat target) (ordered n (power r gts)) - 1)).
  assert (Z : Rabs (overlap D (u_mat target) (ordered n (power r gts)) - 1) <= tol / 2) by nra.
  apply Rabs_le_between in Z. lra.
Qed.
End Words.
