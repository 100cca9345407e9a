(** Sequences built afresh from gates that act on all qubits. *)
From Coq Require Import Reals List Arith Bool String ZArith Lra Lia Permutation.
From Coquelicot Require Import Coquelicot.
From Verif Require Import Base CMat CMatFacts Det DetFacts Norms CRoot Expm ExpmFacts ExpmBounds ModelUnitary ModelEntry
  ModelPrimitive ModelSequence ModelCompiler ModelVerification ModelGates ModelHamiltonian Spec SpecModel
  SpecCompiler SpecGates SpecHamiltonian PUnitary PDrift PEmbed PEntry PSeqHeap PSeqMeth PSeqNear PSeqWorld PSeqUndo
  PCompView PCompRun PCompEntry PCompProps PSeqInv PVerify PGates PHam PHamTerm.
Import ListNotations.
Open Scope R_scope.
Open Scope C_scope.
Open Scope res_scope.
Open Scope se_scope.

Lemma placement_all n : (1 <= n)%nat -> placement n (seq 0 n).
Proof.
  intros H. split; [apply seq_NoDup|]. split.
  - destruct n; [lia|discriminate].
  - intros q Hq. apply in_seq in Hq. lia.
Qed.

Definition on_all (n : nat) (u : unitary) : unitary * list nat := (u, seq 0 n).

Section Fresh.
Variable eps : R.
Variable n : nat.
Hypothesis n1 : (1 <= n)%nat.
Notation W := (WG eps anyg).

(** From [st] to [st'] objects were only added. *)
Definition grows (st st' : rstate) : Prop :=
  (reachable eps (r_world st) -> reachable eps (r_world st')) /\
  forall s, spares eps s (r_world st) (r_world st').

Lemma grows_refl st : grows st st.
Proof. split; auto. intros s. apply spares_refl. Qed.
Lemma grows_trans st1 st2 st3 : grows st1 st2 -> grows st2 st3 -> grows st1 st3.
Proof. intros [A1 A2] [B1 B2]. split; auto. intros s. eapply spares_trans; eauto. Qed.
Lemma grows_W st st' : grows st st' -> W (r_world st) -> W (r_world st').
Proof. intros [_ H]. apply (H 0%nat). Qed.
Lemma grows_gates st st' ls gs : grows st st' -> W (r_world st) ->
  Forall2 (has_gate (r_world st)) ls gs -> Forall2 (has_gate (r_world st')) ls gs.
Proof. intros [_ H] HW. apply (has_gates_spares eps); auto. Qed.
Lemma grows_draws st k : grows st {| r_world := r_world st; r_draws := k |}.
Proof. split; auto. intros s. apply spares_refl. Qed.

(** The computation adds entries with the gates [us] on all qubits and ends with
    [k] draws. *)
Definition builds (st : rstate) (r : rstate * res (list nat)) (k : nat) (us : list unitary) : Prop :=
  exists st' ls, r = (st', Ok ls) /\ r_draws st' = k /\ grows st st' /\
    Forall2 (has_gate (r_world st')) ls (map (on_all n) us).

Lemma entry_all st u : W (r_world st) -> u_dim u = (2 ^ n)%nat ->
  exists st' l, call_entry eps (NewEntry u (map Z.of_nat (seq 0 n))) st = (st', Ok l) /\
    r_draws st' = r_draws st /\ grows st st' /\ has_gate (r_world st') l (on_all n u).
Proof.
  intros HW D. destruct (mk_entry_nat u n (seq 0 n) (placement_all n n1)) as (e & E & _).
  { now rewrite seq_length. }
  destruct (step eps (NewEntry u (map Z.of_nat (seq 0 n))) (r_world st)) as [w' r] eqn:Es.
  assert (R : r = Ok (VEntry (List.length (w_heap (r_world st))))).
  { cbn [step] in Es. rewrite E in Es. injection Es as _ <-. reflexivity. }
  subst r. exists {| r_world := w'; r_draws := r_draws st |}, (List.length (w_heap (r_world st))).
  split; [|split; [reflexivity|split]].
  - unfold call_entry, se_bind, call. rewrite Es. reflexivity.
  - split; cbn [r_world].
    + intros H. assert (X := step_reach eps (NewEntry u (map Z.of_nat (seq 0 n))) _ H). now rewrite Es in X.
    + intros s. eapply spares_step_eq; [|exact Es]. reflexivity.
  - cbn [r_world]. destruct (new_entry_view eps _ _ _ _ _ Es) as (l & El & G & _). injection El as <-.
    rewrite to_of_nat in G. exact G.
Qed.

Lemma builds_nil st : builds st (se_ret [] st) (r_draws st) [].
Proof. exists st, []. split; [reflexivity|]. split; [reflexivity|]. split; [apply grows_refl|constructor]. Qed.

Lemma builds_cons st u (m : RM (list nat)) k us : W (r_world st) -> u_dim u = (2 ^ n)%nat ->
  (forall st1, W (r_world st1) -> grows st st1 -> r_draws st1 = r_draws st -> builds st1 (m st1) k us) ->
  builds st ((l <-- call_entry eps (NewEntry u (map Z.of_nat (seq 0 n))) ;;
              ls <-- m ;; se_ret (l :: ls)) st) k (u :: us).
Proof.
  intros HW D H. destruct (entry_all st u HW D) as (st1 & l & E1 & D1 & G1 & HG).
  destruct (H st1 (grows_W _ _ G1 HW) G1 D1) as (st2 & ls & E2 & D2 & G2 & HL).
  exists st2, (l :: ls). split; [|split; [exact D2|split]].
  - unfold se_bind at 1. rewrite E1. unfold se_bind. rewrite E2. reflexivity.
  - eapply grows_trans; eauto.
  - cbn [map]. constructor; auto. apply (proj2 G2 0%nat); auto. now apply (grows_W _ _ G1).
Qed.

Lemma builds_draw st k (m : RM (list nat)) k' us :
  builds {| r_world := r_world st; r_draws := k |} (m {| r_world := r_world st; r_draws := k |}) k' us ->
  builds st (m {| r_world := r_world st; r_draws := k |}) k' us.
Proof.
  intros (st' & ls & E & D & G & F). exists st', ls. split; [exact E|]. split; [exact D|]. split; [exact G|exact F].
Qed.

Lemma builds_app st (m m' : RM (list nat)) k us k' us' : W (r_world st) ->
  builds st (m st) k us ->
  (forall st1, W (r_world st1) -> grows st st1 -> r_draws st1 = k -> builds st1 (m' st1) k' us') ->
  builds st ((ls <-- m ;; ls' <-- m' ;; se_ret (ls ++ ls')) st) k' (us ++ us').
Proof.
  intros HW (st1 & ls & E1 & D1 & G1 & H1) H.
  destruct (H st1 (grows_W _ _ G1 HW) G1 D1) as (st2 & ls' & E2 & D2 & G2 & H2).
  exists st2, (ls ++ ls'). split; [|split; [exact D2|split]].
  - unfold se_bind. rewrite E1, E2. reflexivity.
  - eapply grows_trans; eauto.
  - rewrite map_app. apply Forall2_app; auto. eapply grows_gates; eauto. now apply (grows_W _ _ G1).
Qed.

(** The sequence of these entries. *)
Lemma sequence_all st ls us : W (r_world st) -> Forall2 (has_gate (r_world st)) ls (map (on_all n) us) ->
  (forall u, In u us -> u_dim u = (2 ^ n)%nat) ->
  exists st' s, call_sequence eps (NewSequence (2 ^ n) false ls) st = (st', Ok s) /\
    r_draws st' = r_draws st /\ grows st st' /\ s = List.length (w_seqs (r_world st)) /\
    sees eps (r_world st') s (2 ^ n) (map (on_all n) us) None /\
    (forall p, answers eps (r_world st') s p <-> pure_product eps (2 ^ n) (map (on_all n) us) = Ok p).
Proof.
  intros HW HL HD. set (w := r_world st) in *.
  assert (IH : in_heap (w_heap w) ls).
  { intros l Hl. clear HD. revert Hl. induction HL as [|x g ls' gs Hx _ IH]; intros Hl; [destruct Hl|].
    destruct Hl as [<-|Hl]; auto. apply Hx. }
  assert (IHB : forallb (fun l => Nat.ltb l (List.length (w_heap w))) ls = true).
  { apply forallb_forall. intros l Hl. apply Nat.ltb_lt. now apply IH. }
  assert (GE : gates (w_heap w) ls = map (on_all n) us).
  { clear HD IH IHB. induction HL as [|x g ls' gs Hx _ IH]; [reflexivity|]. cbn [gates map] in *.
    f_equal; auto. apply Hx. }
  assert (V : forallb (fun l => entry_valid (2 ^ n) (obj (w_heap w) l)) ls = true).
  { apply forallb_forall. intros l Hl.
    assert (G : In (gate (obj (w_heap w) l)) (map (on_all n) us)).
    { rewrite <- GE. unfold gates. apply in_map_iff. exists l. auto. }
    apply in_map_iff in G. destruct G as (u & G & Hu). unfold gate, on_all in G. injection G as G1 G2.
    apply placement_entry_valid.
    - rewrite <- G2. now apply placement_all.
    - rewrite <- G2, seq_length. unfold e_dim. rewrite <- G1. symmetry. now apply HD. }
  destruct (new_sequence_spec eps anyg (2 ^ n) false ls (w_heap w) (proj1 HW) IH)
    as (h' & r & E & X & Hok & [(V' & ls' & -> & R' & G' & _)|(V' & _)]); [|congruence].
  assert (S : exists w', step eps (NewSequence (2 ^ n) false ls) w = (w', Ok (VSequence (List.length (w_seqs w)))) /\
            w_heap w' = h' /\ w_seqs w' = w_seqs w ++ [{| s_dim := 2 ^ n; s_array := false; s_entries := ls';
                            s_product := None; s_prev_entries := None; s_prev_product := None |}]).
  { cbn [step]. unfold se_bind, se_get, on_heap, add_seq. rewrite IHB. cbn [negb].
    rewrite E. cbn [fst snd]. eexists. split; [reflexivity|]. split; reflexivity. }
  destruct S as (w' & Es & Eh & Eq). exists {| r_world := w'; r_draws := r_draws st |}, (List.length (w_seqs w)).
  assert (HW' : W w').
  { assert (K := W_step eps (NewSequence (2 ^ n) false ls) w HW). now rewrite Es in K. }
  assert (N : nth_error (w_seqs w') (List.length (w_seqs w)) = Some {| s_dim := 2 ^ n; s_array := false; s_entries := ls';
                            s_product := None; s_prev_entries := None; s_prev_product := None |}).
  { rewrite Eq, nth_error_app2 by lia. now rewrite Nat.sub_diag. }
  split; [|split; [reflexivity|split; [|split; [reflexivity|split]]]].
  - unfold call_sequence, se_bind, call. fold w. rewrite Es. reflexivity.
  - split; cbn [r_world].
    + intros H. assert (K := step_reach eps (NewSequence (2 ^ n) false ls) _ H). fold w in K. now rewrite Es in K.
    + intros s. eapply spares_step_eq; [|exact Es]. reflexivity.
  - cbn [r_world]. split; [exact HW'|]. eexists. split; [exact N|]. cbn [s_dim s_array s_entries s_prev_entries option_map]. rewrite Eh, G', GE. auto.
  - cbn [r_world]. intros p. rewrite (answers_iff eps w' _ _ p HW' N). unfold reported. cbn [s_product s_dim s_entries].
    rewrite Eh, G', GE. reflexivity.
Qed.

Lemma run_all st (m : RM (list nat)) k us : W (r_world st) -> builds st (m st) k us ->
  (forall u, In u us -> u_dim u = (2 ^ n)%nat) ->
  exists st' s, (ls <-- m ;; call_sequence eps (NewSequence (2 ^ n) false ls)) st = (st', Ok s) /\
    r_draws st' = k /\ grows st st' /\
    sees eps (r_world st') s (2 ^ n) (map (on_all n) us) None /\
    (forall p, answers eps (r_world st') s p <-> pure_product eps (2 ^ n) (map (on_all n) us) = Ok p).
Proof.
  intros HW (st1 & ls & E1 & D1 & G1 & H1) HD.
  destruct (sequence_all st1 ls us (grows_W _ _ G1 HW) H1 HD) as (st2 & s & E2 & D2 & G2 & _ & S & A).
  exists st2, s. split; [|split; [congruence|split; [eapply grows_trans; eauto|auto]]].
  unfold se_bind. now rewrite E1.
Qed.
End Fresh.

(** * The product *)

(** Product of operators, the first one applied first. *)
Definition lprod (d : nat) (Vs : list mat) : mat := fold_right (fun V P => mmul d P V) mid Vs.

Lemma lprod_app d a b : meq d (lprod d (a ++ b)) (mmul d (lprod d b) (lprod d a)).
Proof.
  induction a as [|V a IH]; cbn [app lprod fold_right].
  - now rewrite mmul_1_r.
  - fold (lprod d (a ++ b)). fold (lprod d a). rewrite IH. now rewrite mmul_assoc.
Qed.
Lemma lprod_unitary d Vs : (forall V, In V Vs -> unitary_mx d V) -> unitary_mx d (lprod d Vs).
Proof.
  induction Vs as [|V Vs IH]; intros H; cbn [lprod fold_right]; [apply unitary_mid|].
  apply unitary_mmul; [apply IH; intros; apply H; simpl; auto|apply H; simpl; auto].
Qed.
Lemma lprod_special d Vs : (forall V, In V Vs -> special d V) -> special d (lprod d Vs).
Proof.
  induction Vs as [|V Vs IH]; intros H; cbn [lprod fold_right]; [apply special_mid|].
  apply special_mmul; [apply IH; intros; apply H; simpl; auto|apply H; simpl; auto].
Qed.

(** The gate [u] was made for the operator [V]. *)
Definition stands (eps : R) (n : nat) (u : unitary) (V : mat) : Prop :=
  near eps n 1 V u /\ made_from eps u.

Lemma made_from_made eps u : made_from eps u -> made eps u.
Proof. intros (d & M & nm & ps & iv & ap & U & E). exists d, M, nm, ps, iv, ap. split; [now left|exact E]. Qed.

Lemma stands_gok eps n u V : (0 <= eps)%R -> (1 <= n)%nat -> stands eps n u V -> gok eps false (on_all n u).
Proof.
  intros E0 N1 [(D & _) M]. split; [|split; [|split; [|split]]]; cbn [on_all fst snd].
  - now apply made_rough, made_from_made.
  - apply seq_NoDup.
  - destruct n; [lia|discriminate].
  - now rewrite seq_length.
  - discriminate.
Qed.

Lemma lprod_near eps n us Vs : (0 <= eps)%R -> (eps <= 1)%R -> (1 <= n)%nat -> lim eps n 2 ->
  Forall2 (stands eps n) us Vs ->
  (fro (2 ^ n) (mminus (iordered eps n (map (on_all n) us)) (lprod (2 ^ n) Vs)) <= err eps n (3 * List.length us))%R.
Proof.
  intros E0 E1 N1 L H. induction H as [|u V us Vs HS H IH].
  - cbn [map List.length]. rewrite Nat.mul_0_r, err_0. unfold lprod. cbn [fold_right]. rewrite iordered_nil.
    rewrite fro_minus_self by reflexivity. lra.
  - cbn [map List.length]. rewrite iordered_cons. cbn [lprod fold_right]. fold (lprod (2 ^ n) Vs).
    replace (3 * S (List.length us))%nat with (3 * List.length us + 3)%nat by lia. rewrite err_add.
    cbn [on_all fst snd].
    assert (EV : meq (2 ^ n) (embed n (seq 0 n) (ideal eps u)) (ideal eps u)) by apply embed_all.
    rewrite EV. assert (G := stands_gok eps n u V E0 N1 HS).
    assert (X := xi_pos eps E0 n).
    apply fro_product.
    + apply lprod_unitary. intros V' HV'. clear - H HV'. induction H as [|a b us Vs Hab H IH]; [destruct HV'|].
      destruct HV' as [<-|HV']; auto. destruct Hab as [(_ & S & _) _]. apply S.
    + destruct HS as [(_ & S & _) _]. apply S.
    + exact IH.
    + destruct HS as [(D & S & De & F) M].
      assert (I := ideal_near eps E0 u (made_rough eps E0 u (made_from_made _ _ M))). rewrite D in I.
      specialize (I (lim_tame eps E0 E1 n 2 (2 ^ n) (le_n _) (le_n _) L)).
      eapply Rle_trans; [apply (fro_minus_triangle _ _ (u_mat u))|].
      rewrite (fro_minus_sym _ (ideal eps u)).
      assert (E3 : (3 * xi eps n <= err eps n 3)%R).
      { replace 3%nat with (2 + 1)%nat at 1 by reflexivity. rewrite err_add.
        assert (E2 := err_2 eps E0 n). assert (P2 := err_pos eps E0 n 2). assert (P1 := err_pos eps E0 n 1).
        assert (Ex : err eps n 1 = xi eps n) by (unfold err; simpl; ring).
        rewrite Ex in *. nra. }
      assert (Ex : err eps n 1 = xi eps n) by (unfold err; simpl; ring). rewrite Ex in F.
      unfold xi in *. lra.
Qed.

Lemma product_near eps n us Vs : (0 <= eps <= 1)%R -> (1 <= n)%nat -> us <> [] ->
  lim eps n (9 * List.length us) -> Forall2 (stands eps n) us Vs ->
  exists p, pure_product eps (2 ^ n) (map (on_all n) us) = Ok p /\ near eps n (9 * List.length us) (lprod (2 ^ n) Vs) p.
Proof.
  intros [E0 E1] N1 NE L H.
  assert (LU : (1 <= List.length us)%nat) by (destruct us; [congruence|simpl; lia]).
  unfold pure_product. rewrite mk_unitary_none.
  destruct (nearb_id eps E1 false n None [] false []) as (p0 & Ep & N0). rewrite Ep. cbn [bind].
  destruct (pure_loop_near eps E0 E1 false n (map (on_all n) us) 0 mid p0) as (p & E & N).
  - intros g Hg. apply in_map_iff in Hg. destruct Hg as (u & <- & Hu).
    assert (K : exists V, stands eps n u V).
    { clear - H Hu. induction H; [destruct Hu|]. destruct Hu as [<-|Hu]; eauto. }
    destruct K as [V K]. split; [now apply (stands_gok eps n u V)|]. now apply placement_all.
  - exact N0.
  - rewrite map_length. left. eapply lim_mono; [exact E0|exact E1| |exact L]. unfold unit_cost, gc. lia.
  - exists p. split; [exact E|]. rewrite map_length in N. unfold unit_cost, gc in N.
    destruct N as [(D & S & De & F) _].
    split; [exact D|]. split; [|split; [exact De|]].
    + apply lprod_special. intros V HV. clear - H HV. induction H as [|a b us Vs Hab H IH]; [destruct HV|].
      destruct HV as [<-|HV]; auto. destruct Hab as [(_ & S & _) _]. apply S.
    + rewrite mmul_1_r in F.
      assert (K := lprod_near eps n us Vs E0 E1 N1 (lim_mono eps E0 E1 n 2 (9 * List.length us) ltac:(lia) L) H).
      eapply Rle_trans; [apply (fro_minus_triangle _ _ (iordered eps n (map (on_all n) us)))|].
      replace (9 * List.length us)%nat with ((0 + 6 * List.length us) + 3 * List.length us)%nat by lia.
      rewrite err_add. assert (P1 := err_pos eps E0 n (0 + 6 * List.length us)).
      assert (P2 := err_pos eps E0 n (3 * List.length us)).
      assert (0 <= err eps n (0 + 6 * List.length us) * err eps n (3 * List.length us))%R by now apply Rmult_le_pos.
      lra.
Qed.
