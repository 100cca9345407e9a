(** The XX and GMS gates, and the parameterised gates of the library. *)
From Coq Require Import Reals List Arith Lia Lra Bool String ZArith.
From Coquelicot Require Import Complex.
From Verif Require Import Base CMat CMatFacts Det DetFacts Norms CRoot ModelUnitary ModelEntry
  ModelPrimitive ModelGates ModelSequence Spec SpecModel SpecCompiler SpecGates PUnitary PEmbed PDrift
  PEntry PUnitaryProps PSeqHeap PSeqNear PCompProps PGates.
Import ListNotations.
Open Scope R_scope.
Open Scope C_scope.
Open Scope res_scope.

Lemma xx_matrix_eq t :
  meq 4 (elt (np_array
    [[RtoC (cos t); RtoC 0; RtoC 0; - Ci * RtoC (sin t)];
     [RtoC 0; RtoC (cos t); - Ci * RtoC (sin t); RtoC 0];
     [RtoC 0; - Ci * RtoC (sin t); RtoC (cos t); RtoC 0];
     [- Ci * RtoC (sin t); RtoC 0; RtoC 0; RtoC (cos t)]])) (xx_coupling t).
Proof.
  cases8; unfold xx_coupling, kron, pauli_x, mat22, mid; simpl; apply C_eq; simpl; ring.
Qed.

Lemma xx_special t : special 4 (xx_coupling t).
Proof.
  eapply special_meq; [apply xx_matrix_eq|]. assert (P := pyth t).
  set (c := cos t) in *. set (s := sin t) in *. clearbody c s.
  assert (Hc : (c * c = 1 - s * s)%R) by lra.
  split.
  - cases8; unfold mmul, adj, mid, Cconj; simpl; apply C_eq; simpl; ring [Hc].
  - rewrite (det_expand 3). cbn [csum]. rewrite !(det_expand 2). cbn [csum]. rewrite !det_2. simpl.
    apply C_eq; simpl; ring [Hc].
Qed.

Lemma xx_ok eps t : small_drift eps 2 1 ->
  stores eps 1 2 (g_xx eps t) (xx_coupling t) /\ labelled (g_xx eps t) "XX" [("θ"%string, (t, true))].
Proof. intros H. exact (mk_stores eps 2 _ _ _ _ H (xx_matrix_eq t) (xx_special t)). Qed.

(** ** The algebra of couplings *)
Definition commute (n : nat) (A B : mat) : Prop := meq n (mmul n A B) (mmul n B A).

Lemma commute_sym n A B : commute n A B -> commute n B A.
Proof. intros H. unfold commute in *. now rewrite H. Qed.
Lemma commute_mul n A B D : commute n A D -> commute n B D -> commute n (mmul n A B) D.
Proof.
  unfold commute. intros H1 H2.
  rewrite <- mmul_assoc, H2, mmul_assoc, H1, <- mmul_assoc. reflexivity.
Qed.
Lemma commute_mid n A : commute n mid A.
Proof. unfold commute. now rewrite mmul_1_l, mmul_1_r. Qed.
Lemma commute_meq n A A' B : meq n A A' -> commute n A B -> commute n A' B.
Proof. unfold commute. intros E H. rewrite <- E. exact H. Qed.
Lemma commute_lin n a b A B : commute n A B -> commute n (mplus (mscale a mid) (mscale b A)) B.
Proof.
  unfold commute. intros H. rewrite mmul_mplus_l, mmul_mplus_r, !mmul_mscale_l, !mmul_mscale_r, H.
  now rewrite mmul_1_l, mmul_1_r.
Qed.

Section Couplings.
Variable n : nat.
Definition pair_ok (p : nat * nat) : Prop := (fst p < n)%nat /\ (snd p < n)%nat /\ fst p <> snd p.
Definition flips (p : nat * nat) : mat := embed n [fst p; snd p] (kron 2 pauli_x pauli_x).
Definition coupling (t : R) (p : nat * nat) : mat := embed n [fst p; snd p] (xx_coupling t).

Lemma place1 q : (q < n)%nat -> placement n [q].
Proof.
  intros H. split; [constructor; [intros []|constructor]|]. split; [discriminate|].
  intros r [<-|[]]. exact H.
Qed.
Lemma place2 p : pair_ok p -> placement n [fst p; snd p].
Proof.
  intros (H1 & H2 & H3). split.
  - constructor; [intros [E|[]]; auto|]. constructor; [intros []|constructor].
  - split; [discriminate|]. intros r [<-|[<-|[]]]; assumption.
Qed.

Definition X_ (q : nat) : mat := embed n [q] pauli_x.
Lemma X_sq q : (q < n)%nat -> meq (2 ^ n) (mmul (2 ^ n) (X_ q) (X_ q)) mid.
Proof.
  intros H. unfold X_. rewrite (embed_mmul n [q] (place1 q H)).
  rewrite <- (embed_mid n [q]). apply embed_proper.
  simpl List.length. change (2 ^ 1)%nat with 2%nat.
  cases2; unfold mmul, pauli_x, mat22, mid; simpl; apply C_eq; simpl; ring.
Qed.
Lemma X_commute q r : (q < n)%nat -> (r < n)%nat -> commute (2 ^ n) (X_ q) (X_ r).
Proof.
  intros Hq Hr. destruct (Nat.eq_dec q r) as [->|D]; [unfold commute; reflexivity|].
  apply (embed_commute n [q] [r] pauli_x pauli_x (place1 q Hq) (place1 r Hr)).
  intros s [<-|[]] [E|[]]. congruence.
Qed.
Lemma flips_X p : pair_ok p -> meq (2 ^ n) (flips p) (mmul (2 ^ n) (X_ (fst p)) (X_ (snd p))).
Proof.
  intros (H1 & H2 & H3). symmetry.
  apply (embed_commute n [fst p] [snd p] pauli_x pauli_x (place1 _ H1) (place1 _ H2)).
  intros s [<-|[]] [E|[]]. congruence.
Qed.
Lemma flips_commute p q : pair_ok p -> pair_ok q -> commute (2 ^ n) (flips p) (flips q).
Proof.
  intros Hp Hq. eapply commute_meq; [symmetry; apply flips_X, Hp|].
  apply commute_sym. eapply commute_meq; [symmetry; apply flips_X, Hq|].
  destruct Hp as (P1 & P2 & _), Hq as (Q1 & Q2 & _).
  apply commute_mul; apply commute_sym; apply commute_mul; apply X_commute; assumption.
Qed.
Lemma flips_sq p : pair_ok p -> meq (2 ^ n) (mmul (2 ^ n) (flips p) (flips p)) mid.
Proof.
  intros Hp. rewrite flips_X by exact Hp. destruct Hp as (P1 & P2 & _).
  rewrite mmul_assoc. rewrite <- (mmul_assoc _ (X_ (fst p)) (X_ (snd p)) (X_ (fst p))).
  assert (E := X_commute (snd p) (fst p) P2 P1). unfold commute in E. rewrite E.
  rewrite mmul_assoc, X_sq by assumption. rewrite mmul_1_l. now apply X_sq.
Qed.

Lemma coupling_lin t p : pair_ok p ->
  meq (2 ^ n) (coupling t p) (mplus (mscale (RtoC (cos t)) mid) (mscale (- Ci * RtoC (sin t)) (flips p))).
Proof.
  intros Hp. unfold coupling, flips.
  rewrite <- embed_mscale, <- (embed_mid n [fst p; snd p]), <- embed_mscale, <- embed_mplus.
  apply embed_proper. intros i j _ _. unfold xx_coupling, mplus, mscale. ring.
Qed.
Lemma coupling_commute a b p q : pair_ok p -> pair_ok q ->
  commute (2 ^ n) (coupling a p) (coupling b q).
Proof.
  intros Hp Hq. eapply commute_meq; [symmetry; apply coupling_lin, Hp|]. apply commute_lin, commute_sym.
  eapply commute_meq; [symmetry; apply coupling_lin, Hq|]. apply commute_lin. now apply flips_commute.
Qed.
Lemma coupling_add a b p : pair_ok p ->
  meq (2 ^ n) (mmul (2 ^ n) (coupling b p) (coupling a p)) (coupling (a + b) p).
Proof.
  intros Hp. rewrite !coupling_lin by exact Hp.
  rewrite mmul_mplus_l, !mmul_mplus_r, !mmul_mscale_l, !mmul_mscale_r, flips_sq by exact Hp.
  rewrite !mmul_1_l, mmul_1_r. rewrite cos_plus, sin_plus.
  intros i j _ _. unfold mplus, mscale. rewrite RtoC_minus, RtoC_plus, !RtoC_mult.
  assert (E : Ci * Ci = - RtoC 1) by (apply C_eq; simpl; ring). ring [E].
Qed.
Lemma coupling_0 p : pair_ok p -> meq (2 ^ n) (coupling 0 p) mid.
Proof.
  intros Hp. rewrite coupling_lin by exact Hp. rewrite cos_0, sin_0.
  intros i j _ _. unfold mplus, mscale. ring.
Qed.
Lemma coupling_PI p : pair_ok p -> meq (2 ^ n) (coupling PI p) (mscale (- (1)) mid).
Proof.
  intros Hp. rewrite coupling_lin by exact Hp. rewrite cos_PI, sin_PI.
  intros i j _ _. unfold mplus, mscale.
  replace (RtoC (-1)) with (- RtoC 1) by (apply C_eq; simpl; ring). ring.
Qed.
Lemma coupling_special t p : pair_ok p -> special (2 ^ n) (coupling t p).
Proof. intros Hp. apply (embed_special n _ (place2 p Hp)). apply xx_special. Qed.

Definition couplings (t : R) (L : list (nat * nat)) : mat :=
  fold_right (fun p P => mmul (2 ^ n) (coupling t p) P) mid L.

Lemma couplings_commute a b q L : Forall pair_ok L -> pair_ok q ->
  commute (2 ^ n) (couplings a L) (coupling b q).
Proof.
  intros H Hq. induction H as [|p L Hp HL IH]; simpl; [apply commute_mid|].
  apply commute_mul; [now apply coupling_commute|exact IH].
Qed.
Lemma couplings_add a b L : Forall pair_ok L ->
  meq (2 ^ n) (mmul (2 ^ n) (couplings b L) (couplings a L)) (couplings (a + b) L).
Proof.
  intros H. induction H as [|p L Hp HL IH]; simpl; [apply mmul_1_l|].
  rewrite <- (coupling_add a b p Hp), <- IH.
  rewrite <- !mmul_assoc. apply mmul_proper; [reflexivity|].
  rewrite !mmul_assoc. apply mmul_proper; [|reflexivity]. now apply couplings_commute.
Qed.
Lemma couplings_0 L : Forall pair_ok L -> meq (2 ^ n) (couplings 0 L) mid.
Proof.
  intros H. induction H as [|p L Hp HL IH]; simpl; [reflexivity|].
  now rewrite IH, mmul_1_r, coupling_0.
Qed.
Lemma couplings_PI L : Forall pair_ok L -> exists c, Cmod c = 1%R /\ meq (2 ^ n) (couplings PI L) (mscale c mid).
Proof.
  intros H. induction H as [|p L Hp HL (c & Hc & IH)]; simpl.
  - exists (RtoC 1). split; [apply Cmod_1|]. now rewrite mscale_1.
  - exists (- (1) * c). split.
    + rewrite Cmod_mult, Hc, Cmod_opp, Cmod_1. ring.
    + rewrite IH, coupling_PI by exact Hp. now rewrite mmul_mscale_l, mmul_1_l, mscale_mscale.
Qed.
Lemma couplings_special t L : Forall pair_ok L -> special (2 ^ n) (couplings t L).
Proof.
  intros H. induction H as [|p L Hp HL IH]; simpl; [apply special_mid|].
  apply special_mmul; [now apply coupling_special|exact IH].
Qed.
Lemma couplings_fold t L A : Forall pair_ok L ->
  meq (2 ^ n) (fold_left (fun P p => mmul (2 ^ n) (coupling t p) P) L A) (mmul (2 ^ n) (couplings t L) A).
Proof.
  intros H. revert A. induction H as [|p L Hp HL IH]; intros A; simpl; [now rewrite mmul_1_l|].
  rewrite IH, mmul_assoc. apply mmul_proper; [|reflexivity]. now apply couplings_commute.
Qed.
End Couplings.

(** ** The pairs *)
Lemma filter_seq_gt i n : forall a, filter (fun j => Nat.ltb i j) (seq a n) =
  seq (Nat.max a (i + 1)) (a + n - Nat.max a (i + 1)).
Proof.
  induction n as [|n IH]; intros a.
  - simpl. replace (a + 0 - Nat.max a (i + 1))%nat with 0%nat by lia. reflexivity.
  - simpl. rewrite IH. destruct (Nat.ltb_spec i a) as [H|H].
    + replace (Nat.max a (i + 1)) with a by lia. replace (Nat.max (S a) (i + 1)) with (S a) by lia.
      replace (a + S n - a)%nat with (S n) by lia. replace (S a + n - S a)%nat with n by lia. reflexivity.
    + replace (Nat.max (S a) (i + 1)) with (Nat.max a (i + 1)) by lia. f_equal. lia.
Qed.
Lemma filter_map_pair i (l : list nat) :
  filter (fun p => Nat.ltb (fst p) (snd p)) (map (fun j => (i, j)) l) =
  map (fun j => (i, j)) (filter (fun j => Nat.ltb i j) l).
Proof. induction l as [|x l IH]; simpl; auto. destruct (Nat.ltb i x); simpl; now rewrite IH. Qed.
Lemma qubit_pairs_all n : qubit_pairs n = all_pairs n.
Proof.
  unfold qubit_pairs, all_pairs.
  assert (G : forall l, flat_map (fun i => map (fun j => (i, j)) (seq (i + 1) (n - (i + 1)))) l =
    filter (fun p => Nat.ltb (fst p) (snd p)) (list_prod l (seq 0 n))).
  { induction l as [|i l IH]; simpl; auto. rewrite filter_app, IH, filter_map_pair, filter_seq_gt. simpl.
    reflexivity. }
  apply G.
Qed.
Lemma all_pairs_ok n : Forall (pair_ok n) (all_pairs n).
Proof.
  apply Forall_forall. intros [i j] H. unfold all_pairs in H. apply filter_In in H. destruct H as [H1 H2].
  apply in_prod_iff in H1. destruct H1 as [H1 H3]. apply in_seq in H1, H3. simpl in H2.
  apply Nat.ltb_lt in H2. unfold pair_ok. simpl. lia.
Qed.
Lemma filter_len {A} f (l : list A) : (List.length (filter f l) <= List.length l)%nat.
Proof. induction l as [|x l IH]; simpl; auto. destruct (f x); simpl; lia. Qed.
Lemma all_pairs_length n : (List.length (all_pairs n) <= n * n)%nat.
Proof. unfold all_pairs. eapply Nat.le_trans; [apply filter_len|]. now rewrite prod_length, !seq_length. Qed.

(** ** The gate *)
Lemma xx_exact eps t : eps_clean eps 4 (xx_coupling t) ->
  exists u, g_xx eps t = Ok u /\ u_dim u = 4%nat /\ meq 4 (u_mat u) (xx_coupling t) /\ wf u /\
    u_name u = "XX"%string /\ u_params u = [("θ"%string, (t, true))].
Proof.
  intros HC.
  match goal with |- exists u, g_xx eps t = Ok u /\ _ => unfold g_xx end.
  match goal with |- context [mk_unitary eps 4 (Some ?a) ?nm ?ps ?iv ?ap] =>
    destruct (mk_special eps 4 (elt a) nm ps iv ap) as (u & Eu & D & N1 & N2 & N3 & N4 & M) end.
  - lia.
  - eapply special_meq; [symmetry; apply xx_matrix_eq|apply xx_special].
  - eapply eps_clean_meq; [symmetry; apply xx_matrix_eq|exact HC].
  - exists u. split; [exact Eu|]. split; [exact D|].
    assert (M' : meq 4 (u_mat u) (xx_coupling t)) by (rewrite M; apply xx_matrix_eq).
    split; [exact M'|]. split; [|auto]. eapply (wf_of u 4); [lia|exact D|exact M'|apply xx_special].
Qed.

Lemma gms_local_ok eps n t p : (eps <= 1)%R -> eps_clean eps 4 (xx_coupling t) -> pair_ok n p ->
  exists f, gms_local eps (2 ^ n) t p = Ok f /\ near eps n 0 (coupling n t p) f.
Proof.
  intros E1 HC Hp. destruct (xx_exact eps t HC) as (u & Eu & D & M & W & _).
  assert (PL := place2 n p Hp).
  destruct (mk_entry_nat u n [fst p; snd p] PL) as (e & Ee & Fe); [now rewrite D|].
  unfold gms_local. rewrite Eu. simpl bind. simpl map in Ee. rewrite Ee. simpl bind. rewrite Fe.
  rewrite get_full_fresh; [|reflexivity|].
  2:{ simpl. unfold e_dim. simpl. rewrite D. destruct Hp as (H1 & H2 & H3).
      change 4%nat with (2 ^ 2)%nat. apply Nat.pow_le_mono_r; lia. }
  destruct (compute_full_unitary_ok eps n {| e_unitary := u; e_apply := [fst p; snd p]; e_cache := [] |}) as (f & Ef & Df & _ & _ & _ & _ & Mf); simpl; auto.
  - unfold e_dim. simpl. rewrite D. eapply eps_clean_meq; [symmetry; exact M|exact HC].
  - exists f. split; [exact Ef|]. simpl in Mf.
    assert (X : meq (2 ^ n) (u_mat f) (coupling n t p)).
    { rewrite Mf. apply embed_proper. exact M. }
    split; [exact Df|]. split; [now apply coupling_special|]. split.
    + rewrite (det_ext X). now apply coupling_special.
    + rewrite err_0, fro_minus_self by exact X. lra.
Qed.

Lemma gms_locals_ok eps n t L : (eps <= 1)%R -> eps_clean eps 4 (xx_coupling t) -> Forall (pair_ok n) L ->
  exists us, gms_locals eps (2 ^ n) t L = Ok us /\
    Forall2 (fun p u => near eps n 0 (coupling n t p) u) L us.
Proof.
  intros E1 HC H. induction H as [|p L Hp HL (us & Eus & IH)]; simpl; [eauto|].
  destruct (gms_local_ok eps n t p E1 HC Hp) as (f & Ef & Nf). rewrite Ef. simpl. rewrite Eus. simpl. eauto.
Qed.

Lemma multiply_all_ok eps n t L us : (0 <= eps)%R -> (eps <= 1)%R ->
  Forall2 (fun p u => near eps n 0 (coupling n t p) u) L us ->
  forall c P g, near eps n c P g -> lim eps n (c + List.length L) ->
  exists q, multiply_all eps g us = Ok q /\
    near eps n (c + List.length L) (fold_left (fun P p => mmul (2 ^ n) (coupling n t p) P) L P) q.
Proof.
  intros E0 E1 H. induction H as [|p u L us Np HL IH]; intros c P g Ng Lm; simpl.
  - rewrite Nat.add_0_r. eauto.
  - simpl in Lm. destruct (near_left eps E0 n c 0 _ _ _ _ Ng Np) as (q & Eq & Nq).
    { eapply lim_mono; [exact E0|exact E1| |exact Lm]. lia. }
    rewrite Eq. simpl. destruct (IH _ _ _ Nq) as (r & Er & Nr).
    { eapply lim_mono; [exact E0|exact E1| |exact Lm]. lia. }
    exists r. split; [exact Er|]. eapply near_mono; [exact E0| |exact Nr]. lia.
Qed.

Lemma gms_near eps n t : (0 <= eps)%R -> (eps <= 1)%R -> eps_clean eps 4 (xx_coupling t) ->
  lim eps n (S (List.length (all_pairs n))) ->
  exists u, g_gms eps n t = Ok u /\ near eps n (S (List.length (all_pairs n))) (global_coupling n t) u /\
    labelled (g_gms eps n t) ("GMS" ++ str_nat n) [("θ"%string, (t, true))].
Proof.
  intros E0 E1 HC L. unfold g_gms. rewrite qubit_pairs_all. assert (AP := all_pairs_ok n).
  destruct (gms_locals_ok eps n t (all_pairs n) E1 HC AP) as (us & Eus & Nus). rewrite Eus. simpl bind.
  destruct (near_id eps E1 n (Some "I"%string) [] false []) as (i & Ei & Ni).
  unfold u_identity. rewrite Ei. simpl bind.
  destruct (multiply_all_ok eps n t _ us E0 E1 Nus 0 mid i Ni) as (q & Eq & Nq).
  { eapply lim_mono; [exact E0|exact E1| |exact L]. lia. }
  rewrite Eq. simpl bind. simpl plus in Nq.
  assert (Nq' : near eps n (List.length (all_pairs n)) (global_coupling n t) q).
  { eapply near_meq; [|exact Nq]. rewrite couplings_fold by exact AP. apply mmul_1_r. }
  destruct Nq' as (D & HP & HD & HF). rewrite D.
  destruct (near_mk eps E0 n _ _ _ (Some ("GMS" ++ str_nat n)%string) [("θ"%string, (t, true))] false [] HP HD HF L)
    as (u & Eu & Nu & N1 & N2 & N3 & N4).
  exists u. split; [exact Eu|]. split; [exact Nu|]. exists u. auto.
Qed.

Lemma gms_count n : (4 * S (List.length (all_pairs n)) + 3 <= 4 * (n * n + 2))%nat.
Proof. assert (H := all_pairs_length n). lia. Qed.

Lemma gms_lemma : forall eps n K t, (S (List.length (all_pairs n)) <= 8 * K)%nat -> small_drift eps n K -> eps_clean eps 4 (xx_coupling t) ->
  (exists u, g_gms eps n t = Ok u /\ u_dim u = (2 ^ n)%nat /\ det (2 ^ n) (u_mat u) = 1 /\
     (fro (2 ^ n) (mminus (u_mat u) (global_coupling n t)) <= drift_bound eps n K)%R) /\
  labelled (g_gms eps n t) ("GMS" ++ str_nat n) [("θ"%string, (t, true))].
Proof.
  intros eps n K t B H HC.
  destruct (small_lim eps n _ (S (List.length (all_pairs n))) H ltac:(lia)) as [E0 L].
  destruct (gms_near eps n t E0 (proj2 (proj1 H)) HC L) as (u & Eu & Nu & La).
  split; [|exact La]. exists u. split; [exact Eu|].
  eapply near_close; [exact H| |exact Nu|reflexivity]. lia.
Qed.

Lemma gms_add_lemma : forall eps n K a b, (2 * S (List.length (all_pairs n)) + 1 <= 8 * K)%nat -> small_drift eps n K ->
  eps_clean eps 4 (xx_coupling a) -> eps_clean eps 4 (xx_coupling b) ->
  exists u v w, g_gms eps n a = Ok u /\ g_gms eps n b = Ok v /\ u_left_multiply eps u v = Ok w /\
    u_dim w = (2 ^ n)%nat /\
    (fro (2 ^ n) (mminus (u_mat w) (global_coupling n (a + b))) <= drift_bound eps n K)%R.
Proof.
  intros eps n K a b B H Ha Hb.
  destruct (small_lim eps n _ (S (List.length (all_pairs n))) H ltac:(lia)) as [E0 L].
  destruct (gms_near eps n a E0 (proj2 (proj1 H)) Ha L) as (u & Eu & Nu & _).
  destruct (gms_near eps n b E0 (proj2 (proj1 H)) Hb L) as (v & Ev & Nv & _).
  destruct (near_left eps E0 n _ _ _ _ _ _ Nu Nv) as (w & Ew & Nw).
  { eapply small_lim; [exact H|]. lia. }
  exists u, v, w. split; [exact Eu|]. split; [exact Ev|]. split; [exact Ew|].
  match type of Nw with near _ _ ?c _ _ =>
    destruct (near_close eps n K c _ _ (global_coupling n (a + b)) H ltac:(lia) Nw) as (D & _ & F) end;
    [apply couplings_add, all_pairs_ok|auto].
Qed.

Lemma xx_clean eps t : ((Rabs (cos t) < eps)%R -> cos t = 0%R) -> ((Rabs (sin t) < eps)%R -> sin t = 0%R) ->
  eps_clean eps 4 (xx_coupling t).
Proof.
  intros H1 H2. eapply eps_clean_meq; [apply xx_matrix_eq|].
  set (c := cos t) in *. set (s := sin t) in *. clearbody c s.
  assert (H3 : ((Rabs (- s) < eps)%R -> (- s = 0)%R)) by (rewrite Rabs_Ropp; intros X; rewrite (H2 X); ring).
  assert (T1 : forall z : C, z = RtoC 0 -> ((Rabs (fst z) < eps)%R -> fst z = 0%R) /\ ((Rabs (snd z) < eps)%R -> snd z = 0%R))
    by (intros z ->; simpl; auto).
  assert (T2 : ((Rabs (fst (RtoC c)) < eps)%R -> fst (RtoC c) = 0%R) /\ ((Rabs (snd (RtoC c)) < eps)%R -> snd (RtoC c) = 0%R))
    by (simpl; auto).
  assert (T3 : let z := - Ci * RtoC s in ((Rabs (fst z) < eps)%R -> fst z = 0%R) /\ ((Rabs (snd z) < eps)%R -> snd z = 0%R)).
  { cbv zeta. replace (- Ci * RtoC s) with ((0%R, (- s)%R) : C) by (apply C_eq; simpl; ring). simpl. auto. }
  intros i j Hi Hj.
  do 4 (destruct i as [|i]; [do 4 (destruct j as [|j]; [first [exact T2|exact T3|apply T1; reflexivity]|]); lia|]). lia.
Qed.

Lemma gms_fourth_lemma : forall eps n K, (4 * S (List.length (all_pairs n)) + 3 <= 8 * K)%nat -> small_drift eps n K -> (eps <= / 2)%R ->
  exists u u2 u4 c, g_gms eps n (PI / 4) = Ok u /\ u_left_multiply eps u u = Ok u2 /\
    u_left_multiply eps u2 u2 = Ok u4 /\ Cmod c = 1%R /\ u_dim u4 = (2 ^ n)%nat /\
    (fro (2 ^ n) (mminus (u_mat u4) (mscale c mid)) <= drift_bound eps n K)%R.
Proof.
  intros eps n K B H He.
  assert (HC : eps_clean eps 4 (xx_coupling (PI / 4))).
  { assert (X : (/ 2 <= / sqrt 2)%R).
    { apply Rinv_le_contravar; [apply Rlt_sqrt2_0|]. assert (Y := sqrt_sqrt 2 ltac:(lra)).
      assert (Z := Rlt_sqrt2_0). nra. }
    assert (Z : (0 < / sqrt 2)%R) by lra.
    apply xx_clean; destruct sqrt2_inv as [E1 E2]; rewrite ?E1, ?E2, Rabs_pos_eq; lra. }
  destruct (small_lim eps n _ (S (List.length (all_pairs n))) H ltac:(lia)) as [E0 L].
  destruct (gms_near eps n (PI / 4) E0 (proj2 (proj1 H)) HC L) as (u & Eu & Nu & _).
  destruct (near_left eps E0 n _ _ _ _ _ _ Nu Nu) as (u2 & Eu2 & Nu2).
  { eapply small_lim; [exact H|]. lia. }
  destruct (near_left eps E0 n _ _ _ _ _ _ Nu2 Nu2) as (u4 & Eu4 & Nu4).
  { eapply small_lim; [exact H|]. lia. }
  destruct (couplings_PI n (all_pairs n) (all_pairs_ok n)) as (c & Hc & EP).
  exists u, u2, u4, c. do 3 (split; [assumption|]). split; [exact Hc|].
  match type of Nu4 with near _ _ ?k _ _ =>
    destruct (near_close eps n K k _ _ (mscale c mid) H ltac:(lia) Nu4) as (D & _ & F) end; [|auto].
  change (global_coupling n (PI / 4)) with (couplings n (PI / 4) (all_pairs n)).
  rewrite !couplings_add by apply all_pairs_ok. rewrite <- EP.
  replace (PI / 4 + PI / 4 + (PI / 4 + PI / 4))%R with PI by field. reflexivity.
Qed.

Lemma gms_zero_lemma : forall n, meq (2 ^ n) (global_coupling n 0) mid.
Proof. intros n. apply couplings_0, all_pairs_ok. Qed.
Lemma gms_two_lemma : forall t, meq 4 (global_coupling 2 t) (xx_coupling t).
Proof.
  intros t. unfold global_coupling, all_pairs. simpl fold_right. change (2 ^ 2)%nat with 4%nat.
  rewrite mmul_1_r. apply (embed_all 2).
Qed.
