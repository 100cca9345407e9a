(** The program that builds the sequence of [PLong.v], and what product() answers. *)
From Coq Require Import Reals List Arith Lia Lra Bool String ZArith.
From Coquelicot Require Import Rcomplements Complex.
From Verif Require Import Base CMat CMatFacts Det DetFacts CRoot Norms Expm ExpmFacts ModelUnitary ModelEntry
  ModelSequence Spec SpecModel PUnitary PUnitaryProps PBits PEmbed PEntry PDrift PSu2 PSeqHeap PSeqMeth PSeqNear
  PSeqWorld PSeqInv PSeqUndo PSeqCases PLong.
Import ListNotations.
Open Scope R_scope.
Open Scope C_scope.

(** The constructor on a matrix it leaves alone. *)
Lemma mk_same eps d A nm ps iv ap : (0 < d)%nat -> eps_clean eps d A -> near_unitary d A -> det d A = 1 ->
  exists u, mk_unitary eps d (Some (square d A)) nm ps iv ap = Ok u /\ u_dim u = d /\ meq d (u_mat u) A.
Proof.
  intros Hd Hc Hn HD. assert (E := clean_id eps d A Hc).
  assert (ED : det d (clean eps A) = 1) by (rewrite (@det_ext d _ _ E); exact HD).
  assert (N1 : det d (clean eps A) <> 0) by (rewrite ED; intros K; apply RtoC_inj in K; lra).
  eexists. split; [apply mk_unitary_ok; auto|].
  - cbn [square elt]. intros i j Hi Hj. rewrite (mmul_proper d _ _ E _ _ (adj_proper d _ _ E) i j Hi Hj). now apply Hn.
  - cbn [square elt u_dim u_mat]. split; auto. rewrite ED.
    replace (/ RtoC 1) with (RtoC 1) by (field; intros K; apply RtoC_inj in K; lra).
    rewrite croot_1, mscale_1. exact E.
Qed.

(** The constructor when only the unitarity check can fail. *)
Lemma mk_or_raise eps d A nm ps iv ap : (0 < d)%nat -> eps_clean eps d A -> det d A = 1 ->
  mk_unitary eps d (Some (square d A)) nm ps iv ap = Raise AssertionError \/
  exists u, mk_unitary eps d (Some (square d A)) nm ps iv ap = Ok u /\ u_dim u = d /\ meq d (u_mat u) A /\
    near_unitary d A.
Proof.
  intros Hd Hc HD. destruct (Classical_Prop.classic (near_unitary d A)) as [N|N].
  - right. destruct (mk_same eps d A nm ps iv ap Hd Hc N HD) as (u & E & D & M). exists u. auto.
  - left. assert (E := clean_id eps d A Hc). unfold mk_unitary, assert. cbn [square nrows ncols elt].
    destruct (Nat.ltb_spec 0 d) as [_|]; [|lia]. rewrite Nat.eqb_refl. cbn [andb bind].
    destruct (allclose d (mmul d (clean eps A) (adj (clean eps A))) mid) eqn:Ea; [|reflexivity].
    exfalso. apply N. apply allclose_near in Ea. intros i j Hi Hj.
    rewrite <- (mmul_proper d _ _ E _ _ (adj_proper d _ _ E) i j Hi Hj). now apply Ea.
Qed.

(** The full unitary of a one-qubit gate of that kind. *)
Lemma full_one_same eps u A : (eps <= 1)%R -> u_dim u = 2%nat -> meq 2 (u_mat u) A ->
  eps_clean eps 2 A -> near_unitary 2 A -> det 2 A = 1 ->
  exists f, full_pure eps 2 (u, [0%nat]) = Ok f /\ u_dim f = 2%nat /\ meq 2 (u_mat f) A.
Proof.
  intros He Hd HM Hc Hn HD. unfold full_pure, get_full_unitary, assert. cbn [fst snd e_cache cache_get].
  set (en := {| e_unitary := u; e_apply := [0%nat]; e_cache := [] |}).
  assert (Ed : e_dim en = 2%nat) by exact Hd. rewrite Ed. cbn [Nat.leb].
  destruct (u_identity_ok eps 1 ltac:(lia) He) as (i & Ei & Di & _ & _ & _ & _ & Mi).
  assert (K : meq 2 (kron 1 (u_mat u) (u_mat i)) A).
  { intros a b Ha Hb. unfold kron. rewrite !Nat.div_1_r. rewrite (Mi (a mod 1)%nat (b mod 1)%nat) by (rewrite Nat.mod_1_r; lia).
    rewrite !Nat.mod_1_r. rewrite (HM a b Ha Hb). cbn [mid Nat.eqb]. ring. }
  assert (NK : near_unitary 2 (kron 1 (u_mat u) (u_mat i))).
  { intros a b Ha Hb. rewrite (mmul_proper 2 _ _ K _ _ (adj_proper 2 _ _ K) a b Ha Hb). now apply Hn. }
  destruct (mk_same eps 2 (kron 1 (u_mat u) (u_mat i)) (Some (u_name u ++ "--" ++ u_name i)%string) (u_params u) false
              (u_apply u) ltac:(lia)) as (p & Ep & Dp & Mp); auto.
  { now rewrite K. } { now rewrite (@det_ext 2 _ _ K). }
  assert (HP : placement 1 (e_apply en)) by apply placement_10.
  assert (EP := get_permute_matrix_ok 1 en HP (eq_sym Ed)). change (2 ^ 1)%nat with 2%nat in EP. change (e_apply en) with [0%nat] in EP.
  set (F := mmul 2 (mmul 2 (sel_mx (pind 1 [0%nat])) (u_mat p)) (transpose (sel_mx (pind 1 [0%nat])))) in *.
  assert (EF : meq 2 F A).
  { unfold F. rewrite sel_mx_conj by (intros; now apply (pind_lt 1 [0%nat] placement_10)).
    intros a b Ha Hb. rewrite (Mp (pind 1 [0%nat] a) (pind 1 [0%nat] b)) by (now apply (pind_lt 1 [0%nat] placement_10)).
    rewrite K by (now apply (pind_lt 1 [0%nat] placement_10)).
    assert (X : pind 1 [0%nat] a = a /\ pind 1 [0%nat] b = b).
    { split; [destruct a as [|[|a]]|destruct b as [|[|b]]]; try lia; reflexivity. }
    destruct X as [-> ->]. reflexivity. }
  assert (NF : near_unitary 2 F).
  { intros a b Ha Hb. rewrite (mmul_proper 2 _ _ EF _ _ (adj_proper 2 _ _ EF) a b Ha Hb). now apply Hn. }
  destruct (mk_same eps 2 F (Some (u_name u)) (u_params u) false [0%nat] ltac:(lia)) as (f & Ef & Df & Mf); auto.
  { now rewrite EF. } { now rewrite (@det_ext 2 _ _ EF). }
  exists f. split; [|split; auto; now rewrite Mf].
  assert (EC : compute_full_unitary eps en 2 = Ok f).
  { unfold compute_full_unitary. rewrite Ed. change (2 / 2)%nat with 1%nat. rewrite Ei. cbn [bind].
    unfold u_tensor. cbn [en e_unitary]. rewrite Hd, Di. cbn [Nat.mul Nat.add]. rewrite Ep. cbn [bind].
    rewrite Dp. unfold assert at 1. cbn [Nat.eqb bind]. fold en. rewrite EP. cbn [bind]. fold F. exact Ef. }
  rewrite EC. reflexivity.
Qed.

Lemma mult_or_raise eps P F acc f : u_dim acc = 2%nat -> u_dim f = 2%nat ->
  meq 2 (u_mat acc) P -> meq 2 (u_mat f) F -> eps_clean eps 2 (mmul 2 F P) -> det 2 (mmul 2 F P) = 1 ->
  u_left_multiply eps acc f = Raise AssertionError \/
  exists q, u_left_multiply eps acc f = Ok q /\ u_dim q = 2%nat /\ meq 2 (u_mat q) (mmul 2 F P) /\
    near_unitary 2 (mmul 2 F P).
Proof.
  intros D1 D2 M1 M2 Hc HD. unfold u_left_multiply, assert. rewrite D1, D2. cbn [Nat.eqb bind].
  assert (E : meq 2 (mmul 2 (u_mat f) (u_mat acc)) (mmul 2 F P)) by (now rewrite M1, M2).
  destruct (mk_or_raise eps 2 (mmul 2 (u_mat f) (u_mat acc)) None [] false [] ltac:(lia)) as [H|(q & Eq & Dq & Mq & Nq)].
  - now rewrite E.
  - now rewrite (@det_ext 2 _ _ E).
  - left. exact H.
  - right. exists q. split; auto. split; auto. split; [now rewrite Mq|]. intros i j Hi Hj.
    rewrite <- (mmul_proper 2 _ _ E _ _ (adj_proper 2 _ _ E) i j Hi Hj). now apply Nq.
Qed.

Section Run.
Variable e : R.
Hypothesis e0 : (0 < e)%R.
Hypothesis e1 : (e <= / 10 ^ 10)%R.
Notation G := (gG e).
Notation Q := (gQ e).
Notation Qk k := (mpow 2 Q k).

(** The gates [u] (from the exact [gM]) and [v] (from its exact inverse). *)
Lemma gate_u : exists u, mk_unitary e 2 (Some (square 2 (gM e))) None [] false [] = Ok u /\
  u_dim u = 2%nat /\ meq 2 (u_mat u) G.
Proof.
  assert (Cl := clean_gM e e0 e1). assert (ED := @det_ext 2 _ _ Cl).
  assert (NN : near_unitary 2 (gN e)).
  { intros i j Hi Hj. 
    assert (X : meq 2 (mmul 2 (gN e) (adj (gN e))) (mscale (RtoC (gD e)) (mmul 2 G (adj G)))).
    { unfold gG. rewrite adj_mscale, mmul_mscale_l, mmul_mscale_r, mscale_mscale, mscale_mscale, <- Cmult_assoc.
      rewrite (gom_conj e e0 e1), <- RtoC_mult, Rinv_r, mscale_1; [reflexivity|].
      assert (D := gD_range e e0 e1). assert (Y := e_small e e1). nra. }
    rewrite (X i j Hi Hj). unfold mscale. rewrite (gram_gG e e0 e1 i j Hi Hj). unfold gQ, mplus.
    assert (D := gD_range e e0 e1). assert (Z := ee_small e e0 e1). assert (XE := gX_entry e e0 e1 i j Hi Hj).
    replace (RtoC (gD e) * (mid i j + gX e i j) - mid i j) with (RtoC (gD e - 1) * mid i j + RtoC (gD e) * gX e i j)
      by (rewrite RtoC_minus; ring).
    eapply Rle_trans; [apply Cmod_triangle|]. rewrite !Cmod_mult, !Cmod_R, Cmod_mid.
    assert (T := tol_e e e1). assert (0 < / 10 ^ 5)%R by (apply Rinv_0_lt_compat, pow_lt; lra).
    rewrite (Rabs_left1 (gD e - 1)) by lra. rewrite (Rabs_pos_eq (gD e)) by (assert (Y := e_small e e1); lra).
    assert (C0 := Cmod_ge_0 (gX e i j)).
    assert (gD e * Cmod (gX e i j) <= Cmod (gX e i j))%R by nra.
    destruct (Nat.eqb i j); lra. }
  eexists. split; [apply mk_unitary_ok; auto|].
  - cbn [square elt]. intros i j Hi Hj.
    rewrite (mmul_proper 2 _ _ Cl _ _ (adj_proper 2 _ _ Cl) i j Hi Hj). now apply NN.
  - cbn [square elt]. rewrite ED. now apply det_gN_neq0.
  - cbn [square elt u_dim u_mat]. split; auto. rewrite ED. unfold gG, gom. now rewrite Cl.
Qed.

Lemma gate_v : exists v, mk_unitary e 2 (Some (square 2 (adj (gM e)))) None [] false [] = Ok v /\
  u_dim v = 2%nat /\ meq 2 (u_mat v) (adj G).
Proof.
  assert (Cl : meq 2 (clean e (adj (gM e))) (adj (gN e))) by (rewrite clean_adj, (clean_gM e e0 e1); reflexivity).
  assert (ED := @det_ext 2 _ _ Cl). rewrite det_adj in ED.
  assert (N0 := det_gN_neq0 e e0 e1).
  assert (NC : Cconj (det 2 (gN e)) <> 0).
  { intros K. apply N0. apply (f_equal Cmod) in K. rewrite Cmod_conj, Cmod_0 in K. now apply Cmod_eq_0. }
  assert (RO : croot 2 (/ Cconj (det 2 (gN e))) = Cconj (gom e)).
  { apply croot2_unique.
    - now apply Cinv_neq0.
    - rewrite <- Cconj_mult, (gom_sqr e e0 e1). 
      replace (Cconj (/ det 2 (gN e))) with (/ Cconj (det 2 (gN e)) * (Cconj (det 2 (gN e)) * Cconj (/ det 2 (gN e)))) by (field; exact NC).
      rewrite <- Cconj_mult, Cinv_r by exact N0. replace (Cconj 1) with (RtoC 1) by (apply C_eq; simpl; ring). ring.
    - apply (gom_re e e0 e1). }
  assert (NN : near_unitary 2 (adj (gN e))).
  { intros i j Hi Hj. 
    assert (D := gD_range e e0 e1). assert (Y := e_small e e1). assert (Z := ee_small e e0 e1).
    assert (X : meq 2 (mmul 2 (adj (gN e)) (adj (adj (gN e)))) (mscale (RtoC (gD e)) (mmul 2 (adj G) G))).
    { unfold gG. rewrite adj_adj, adj_mscale, mmul_mscale_l, mmul_mscale_r, mscale_mscale, mscale_mscale, <- Cmult_assoc.
      rewrite (Cmult_comm (Cconj (gom e))), (gom_conj e e0 e1), <- RtoC_mult, Rinv_r, mscale_1; [reflexivity|lra]. }
    rewrite (X i j Hi Hj). unfold mscale. assert (XE := gX'_entry e e0 e1 i j Hi Hj). unfold gX', mminus in XE.
    replace (RtoC (gD e) * mmul 2 (adj G) G i j - mid i j)
      with (RtoC (gD e - 1) * mid i j + RtoC (gD e) * (mmul 2 (adj G) G i j - mid i j)) by (rewrite RtoC_minus; ring).
    eapply Rle_trans; [apply Cmod_triangle|]. rewrite !Cmod_mult, !Cmod_R, Cmod_mid.
    assert (T := tol_e e e1). assert (0 < / 10 ^ 5)%R by (apply Rinv_0_lt_compat, pow_lt; lra).
    rewrite (Rabs_left1 (gD e - 1)) by lra. rewrite (Rabs_pos_eq (gD e)) by lra.
    assert (C0 := Cmod_ge_0 (mmul 2 (adj G) G i j - mid i j)).
    assert (gD e * Cmod (mmul 2 (adj G) G i j - mid i j) <= Cmod (mmul 2 (adj G) G i j - mid i j))%R by nra.
    assert (/ 10 ^ 5 = / 100000)%R by (f_equal; simpl; lra).
    destruct (Nat.eqb i j); lra. }
  eexists. split; [apply mk_unitary_ok; auto|].
  - cbn [square elt]. intros i j Hi Hj.
    rewrite (mmul_proper 2 _ _ Cl _ _ (adj_proper 2 _ _ Cl) i j Hi Hj). now apply NN.
  - cbn [square elt]. now rewrite ED.
  - cbn [square elt u_dim u_mat]. split; auto. rewrite ED, RO. unfold gG. rewrite adj_mscale. now rewrite Cl.
Qed.

Lemma gate_w : exists w, mk_unitary e 2 (Some (square 2 gW)) None [] false [] = Ok w /\
  u_dim w = 2%nat /\ meq 2 (u_mat w) gW.
Proof.
  assert (Y := e_small e e1).
  apply mk_same; [lia| |apply unitary_near, gW_special|apply gW_special].
  apply thick_clean with (B := gW); [lra|apply thick_gW|]. rewrite fro_minus_self by reflexivity. lra.
Qed.

Variables u v w : unitary.
Hypothesis Du : u_dim u = 2%nat.
Hypothesis Dv : u_dim v = 2%nat.
Hypothesis Dw : u_dim w = 2%nat.
Hypothesis Mu : meq 2 (u_mat u) G.
Hypothesis Mv : meq 2 (u_mat v) (adj G).
Hypothesis Mw : meq 2 (u_mat w) gW.

Fixpoint pairs (k : nat) : list (unitary * list nat) :=
  match k with
  | O => []
  | Datatypes.S m => (v, [0%nat]) :: (u, [0%nat]) :: pairs m
  end.

Lemma loop_fails K : (11 / 10 ^ 9 <= INR K * e)%R -> (INR K * e <= 12 / 10 ^ 9)%R ->
  forall m k acc, (k + m = K)%nat -> u_dim acc = 2%nat -> meq 2 (u_mat acc) (mmul 2 (Qk k) gW) ->
  near_unitary 2 (mmul 2 (Qk k) gW) -> pure_loop e 2 (pairs m) acc = Raise AssertionError.
Proof.
  intros L U. assert (Y := e_small e e1).
  induction m as [|m IH]; intros k acc Hk Da Ma Na.
  - exfalso. rewrite Nat.add_0_r in Hk. subst k. exact (not_near e e0 e1 K L U Na).
  - assert (KE : forall k', (k' <= K)%nat -> (INR k' * e <= / 1000)%R).
    { intros k' H. apply le_INR in H. simpl in U. nra. }
    cbn [pairs pure_loop].
    destruct (full_one_same e v (adj G)) as (fv & Ev & Dfv & Mfv); auto using clean_gG', near_gG'; try lra.
    { rewrite det_adj, (det_gG e e0 e1). apply C_eq; simpl; ring. }
    rewrite Ev. cbn [bind].
    destruct (mult_or_raise e _ _ acc fv Da Dfv Ma Mfv) as [->|(q & -> & Dq & Mq & _)];
      [apply clean_GQW; auto; apply KE; lia|apply det_GQW; auto|reflexivity|].
    cbn [bind].
    destruct (full_one_same e u G) as (fu & Eu & Dfu & Mfu); auto using clean_gG, near_gG, det_gG; try lra.
    rewrite Eu. cbn [bind].
    assert (ST := step_GQW e e0 e1 k).
    destruct (mult_or_raise e _ _ q fu Dq Dfu Mq Mfu) as [->|(q' & -> & Dq' & Mq' & Nq')].
    + rewrite ST. apply clean_QW; auto. apply KE. lia.
    + rewrite (@det_ext 2 _ _ ST). now apply det_QW.
    + reflexivity.
    + cbn [bind]. apply (IH (Datatypes.S k)); auto; [lia|now rewrite Mq'|].
      intros i j Hi Hj. rewrite <- (mmul_proper 2 _ _ ST _ _ (adj_proper 2 _ _ ST) i j Hi Hj). now apply Nq'.
Qed.

Lemma product_fails K : (11 / 10 ^ 9 <= INR K * e)%R -> (INR K * e <= 12 / 10 ^ 9)%R ->
  pure_product e 2 ((w, [0%nat]) :: pairs K) = Raise AssertionError.
Proof.
  intros L U. assert (Y := e_small e e1). unfold pure_product. rewrite mk_unitary_none.
  destruct (mk_special e 2 mid None [] false [] ltac:(lia) (special_mid 2) (eps_clean_mid e 2 ltac:(lra)))
    as (p0 & E0 & D0 & _ & _ & _ & _ & M0).
  rewrite E0. cbn [bind pure_loop].
  assert (Cw : eps_clean e 2 gW).
  { apply thick_clean with (B := gW); [lra|apply thick_gW|]. rewrite fro_minus_self by reflexivity. lra. }
  assert (Nw : near_unitary 2 gW) by apply unitary_near, gW_special.
  destruct (full_one_same e w gW) as (fw & Ew & Dfw & Mfw); auto; [lra|apply gW_special|].
  rewrite Ew. cbn [bind].
  assert (E1 : meq 2 (mmul 2 gW mid) gW) by apply mmul_1_r.
  destruct (mult_or_raise e _ _ p0 fw D0 Dfw M0 Mfw) as [->|(q & -> & Dq & Mq & Nq)].
  - now rewrite E1.
  - rewrite (@det_ext 2 _ _ E1). apply gW_special.
  - reflexivity.
  - cbn [bind]. assert (E2 : meq 2 gW (mmul 2 (Qk 0) gW)) by (cbn [mpow]; now rewrite mmul_1_l).
    apply (loop_fails K L U K 0%nat q); auto.
    + rewrite Mq, E1. exact E2.
    + intros i j Hi Hj. rewrite <- (mmul_proper 2 _ _ E2 _ _ (adj_proper 2 _ _ E2) i j Hi Hj). now apply Nw.
Qed.

Lemma ordered_pairs k : meq 2 (ordered 1 (pairs k)) (Qk k).
Proof.
  induction k as [|k IH]; [reflexivity|]. cbn [pairs mpow].
  change 2%nat with (2 ^ 1)%nat at 1. rewrite !ordered_cons. cbn [fst snd]. change (2 ^ 1)%nat with 2%nat.
  rewrite !embed_one, IH, Mu, Mv. rewrite <- mmul_assoc, (gram_gG e e0 e1). apply mpow_comm.
Qed.
Lemma ordered_all k : (INR k * e <= / 1000)%R ->
  (fro 2 (mminus (ordered 1 ((w, [0%nat]) :: pairs k)) gW) <= 3 * (INR k * e))%R.
Proof.
  intros Hk. assert (E : meq 2 (ordered 1 ((w, [0%nat]) :: pairs k)) (mmul 2 (Qk k) gW)).
  { change 2%nat with (2 ^ 1)%nat at 1. rewrite ordered_cons. cbn [fst snd]. change (2 ^ 1)%nat with 2%nat.
    now rewrite embed_one, ordered_pairs, Mw. }
  rewrite E. now apply QW_near.
Qed.

(** The program: three entries, and the sequence. *)
Fixpoint places (k : nat) : list nat :=
  match k with
  | O => []
  | Datatypes.S m => 1%nat :: 2%nat :: places m
  end.
Definition prog (k : nat) : list op :=
  [NewEntry w [0%Z]; NewEntry v [0%Z]; NewEntry u [0%Z]; NewSequence 2 false (0%nat :: places k)].

Lemma places_length k : List.length (places k) = (2 * k)%nat.
Proof. induction k as [|k IH]; cbn [places List.length]; lia. Qed.

Lemma prog_spec k : let w1 := exec e (prog k) w_empty in
  has_dim w1 0 2 /\ contents w1 0 = (w, [0%nat]) :: pairs k /\
  snd (step e (Product 0) w1) =
    match pure_product e 2 ((w, [0%nat]) :: pairs k) with Ok p => Ok (VUnitary p) | Raise x => Raise x end.
Proof.
  intros w1. assert (HW : WG e anyg w1) by apply W_exec.
  set (en := fun x : unitary => {| e_unitary := x; e_apply := [0%nat]; e_cache := [] |}).
  set (w0 := {| w_heap := [en w; en v; en u]; w_seqs := [] |}).
  assert (E0 : exec e [NewEntry w [0%Z]; NewEntry v [0%Z]; NewEntry u [0%Z]] w_empty = w0).
  { assert (ME : forall x, u_dim x = 2%nat -> mk_entry x [0%Z] = Ok (en x)).
    { intros x Hx. unfold mk_entry, assert. rewrite Hx. reflexivity. }
    cbn [exec step]. rewrite !ME by auto. reflexivity. }
  assert (W0 : WG e anyg w0) by (rewrite <- E0; apply W_exec).
  set (ls := 0%nat :: places k).
  assert (IN : in_heap (w_heap w0) ls).
  { intros l [<-|Hl]; [cbn; lia|]. clear - Hl. cbn [w_heap w0 List.length].
    induction k as [|k IH]; [destruct Hl|]. cbn [places] in Hl. destruct Hl as [<-|[<-|Hl]]; auto; lia. }
  assert (GE : gates (w_heap w0) ls = (w, [0%nat]) :: pairs k).
  { unfold ls, gates. cbn [map]. f_equal. clear. induction k as [|k IH]; [reflexivity|].
    cbn [places map pairs]. now rewrite IH. }
  assert (IHB : forallb (fun l => Nat.ltb l (List.length (w_heap w0))) ls = true).
  { apply forallb_forall. intros l Hl. apply Nat.ltb_lt. now apply IN. }
  assert (V : forallb (fun l => entry_valid 2 (obj (w_heap w0) l)) ls = true).
  { apply forallb_forall. intros l Hl. assert (Hl' := IN l Hl). cbn [w_heap w0 List.length] in Hl'.
    unfold entry_valid, e_dim. destruct l as [|[|[|l]]]; try lia; cbn [obj nth w_heap w0 en e_unitary e_apply];
      rewrite ?Du, ?Dv, ?Dw; reflexivity. }
  destruct (new_sequence_spec e anyg 2 false ls (w_heap w0) (proj1 W0) IN)
    as (h' & r & E & X & Hok & [(V' & ls' & -> & R' & G' & _)|(V' & _)]); [|congruence].
  set (q := {| s_dim := 2; s_array := false; s_entries := ls'; s_product := None;
               s_prev_entries := None; s_prev_product := None |}) in *.
  assert (Ew : w1 = {| w_heap := h'; w_seqs := [q] |}).
  { unfold w1, prog. change [NewEntry w [0%Z]; NewEntry v [0%Z]; NewEntry u [0%Z]; NewSequence 2 false (0%nat :: places k)]
      with ([NewEntry w [0%Z]; NewEntry v [0%Z]; NewEntry u [0%Z]] ++ [NewSequence 2 false (0%nat :: places k)]).
    rewrite exec_app, E0. cbn [exec step]. fold ls. unfold se_bind, se_get, on_heap, add_seq. rewrite IHB, E. reflexivity. }
  split; [|split].
  - rewrite Ew. exists q. split; reflexivity.
  - rewrite Ew. unfold contents. cbn [w_seqs nth_error w_heap]. rewrite <- GE, <- G'. reflexivity.
  - rewrite (step_product e anyg w1 0%nat q HW) by (rewrite Ew; reflexivity).
    unfold reported. cbn [q s_product s_dim s_entries]. rewrite Ew. cbn [w_heap]. rewrite G', GE. reflexivity.
Qed.
End Run.

Lemma C66_lemma : forall eps, (0 < eps <= / 10 ^ 10)%R ->
  exists os s U,
    history eps (made eps) (fun _ _ => False) os w_empty /\
    let w := exec eps os w_empty in
    has_dim w s (2 ^ 1) /\ special 2 U /\
    (fro 2 (mminus (ordered 1 (contents w s)) U) <= / 10 ^ 7)%R /\
    (INR (updates os 0) * eps <= 3 / 10 ^ 8)%R /\
    snd (step eps (Product s) w) = Raise AssertionError.
Proof.
  intros e [e0 e1]. assert (Y := e_small e e1).
  destruct (gate_u e e0 e1) as (u & Eu & Du & Mu). destruct (gate_v e e0 e1) as (v & Ev & Dv & Mv).
  destruct (gate_w e e1) as (w & Ew & Dw & Mw).
  destruct (nfloor_ex (11 / 10 ^ 9 / e)) as (m & Hm1 & Hm2).
  { apply Rlt_le, Rdiv_lt_0_compat; [simpl; lra|auto]. }
  set (K := Datatypes.S m).
  assert (KL : (11 / 10 ^ 9 <= INR K * e)%R).
  { unfold K. rewrite S_INR. apply Rmult_lt_compat_r with (r := e) in Hm2; auto.
    unfold Rdiv in Hm2 at 1. rewrite Rmult_assoc, Rinv_l in Hm2 by lra. lra. }
  assert (KU : (INR K * e <= 12 / 10 ^ 9)%R).
  { unfold K. rewrite S_INR. apply Rmult_le_compat_r with (r := e) in Hm1; [|lra].
    unfold Rdiv in Hm1 at 1. rewrite Rmult_assoc, Rinv_l in Hm1 by lra.
    assert (/ 10 ^ 10 <= / 10 ^ 9)%R by (apply Rinv_le_contravar; simpl; lra). lra. }
  exists (prog u v w K), 0%nat, gW.
  destruct (prog_spec e u v w Du Dv Dw K) as (H1 & H2 & H3).
  assert (MF : forall M x, unitary_mx 2 M -> mk_unitary e 2 (Some (square 2 M)) None [] false [] = Ok x -> made e x).
  { intros M x HM Hx. exists 2%nat, M, None, [], false, []. split; [now left|exact Hx]. }
  split; [|cbv zeta; split; [exact H1|split; [apply gW_special|split; [|split]]]].
  - unfold prog. cbn [history]. split; [|split; [|split; [|split; [exact I|exact I]]]].
    + eapply MF; [|exact Ew]. apply gW_special.
    + eapply MF; [|exact Ev]. apply unitary_adj, gM_unitary; auto.
    + eapply MF; [|exact Eu]. apply gM_unitary; auto.
  - rewrite H2. eapply Rle_trans; [apply (ordered_all e e0 e1 u v w Mu Mv Mw K)|]; simpl in *; lra.
  - unfold prog. cbn [updates]. rewrite Nat.max_0_l. cbn [List.length]. rewrite (places_length u v w Du Dv Dw), S_INR, mult_INR.
    simpl (INR 2). simpl in *. lra.
  - rewrite H3, (product_fails e e0 e1 u v w Du Dv Dw Mu Mv Mw K KL KU). reflexivity.
Qed.

Lemma ex_C66_lemma : (0 < eps_code <= / 10 ^ 10)%R.
Proof. unfold eps_code. split; [apply Rinv_0_lt_compat; lra|lra]. Qed.
