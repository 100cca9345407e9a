(** Sequences: failures (C19, C22, C23) and the concrete cases beside the theorems. *)
From Coq Require Import Reals List Arith Lia Lra Psatz Bool String ZArith Setoid Morphisms.
From Coquelicot Require Import Rcomplements Complex.
From Verif Require Import Base CMat CMatFacts Det DetFacts CRoot Norms ModelUnitary ModelEntry
  ModelSequence Spec SpecModel PUnitary PBits PEmbed PEntry PDrift PUnitaryProps PSeqHeap PSeqMeth PSeqNear PSeqWorld
  PSeqUndo PSeqInv PSeqHist PSeqProps.
Import ListNotations.
Open Scope R_scope.
Open Scope C_scope.
Open Scope se_scope.

(** ** C22 *)
Lemma fits_placement eps w n l : WG eps anyg w -> (l < List.length (w_heap w))%nat ->
  gok eps true (gate (obj (w_heap w) l)) -> fits w (2 ^ n) l -> placement n (e_apply (obj (w_heap w) l)).
Proof.
  intros HW Hl (_ & H1 & H2 & H3 & _) HF. apply (entry_valid_fits eps) in HF; auto.
  apply entry_valid_placement; auto.
Qed.

Lemma C22_pow2_lemma : forall os s n l sv,
  history 0 (built 0) odd_entries os w_empty ->
  has_dim (exec 0 os w_empty) s (2 ^ n) -> from_array (exec 0 os w_empty) s false ->
  (l < List.length (w_heap (exec 0 os w_empty)))%nat -> fits (exec 0 os w_empty) (2 ^ n) l ->
  let w := exec 0 os w_empty in
  let g := (e_unitary (obj (w_heap w) l), e_apply (obj (w_heap w) l)) in
  snd (step 0 (AppendFirst s l sv) w) = Ok VNone /\
  contents (fst (step 0 (AppendFirst s l sv) w)) s = g :: contents w s /\
  snd (step 0 (AppendLast s l sv) w) = Ok VNone /\
  contents (fst (step 0 (AppendLast s l sv) w)) s = contents w s ++ [g].
Proof.
  intros os s n l sv H (q & Hq & Hd) (q' & Hq' & Ar) Hl HF. cbv zeta. set (w := exec 0 os w_empty) in *.
  rewrite Hq in Hq'. injection Hq' as <-.
  assert (HW := exact_winv os H). fold w in HW. set (K := updates os 0) in *.
  assert (GG := WG_G 0 _ w s q (proj1 HW) Hq).
  assert (P : placement n (e_apply (obj (w_heap w) l))).
  { apply (fits_placement 0); auto; [apply W_exec|]. apply (proj1 GG l Hl). }
  assert (V : entry_valid (s_dim q) (obj (w_heap w) l) = true).
  { apply (entry_valid_fits 0); auto; [apply W_exec|]. now rewrite Hd. }
  assert (HS := proj2 HW s q n Hq Hd (lim_zero _ _)).
  rewrite step_append_first, step_append_last.
  replace (Nat.ltb l (List.length (w_heap w))) with true by (symmetry; now apply Nat.ltb_lt).
  destruct (append_first_sat 0 ltac:(lra) ltac:(lra) true n K l sv (w_heap w) q GG Hd Ar (lim_zero _ _) HS Hl P)
    as (h1 & q1 & E1 & X1 & _ & _ & _ & _ & L1).
  destruct (append_last_sat 0 ltac:(lra) ltac:(lra) true n K l sv (w_heap w) q GG Hd Ar (lim_zero _ _) HS Hl P)
    as (h2 & q2 & E2 & X2 & _ & _ & _ & _ & L2).
  destruct (on_seq_target s (append_first 0 l sv) w q h1 q1 (Ok tt) Hq) as [F1 F2];
    [now rewrite append_first_eq, V|].
  destruct (on_seq_target s (append_last 0 l sv) w q h2 q2 (Ok tt) Hq) as [F3 F4];
    [now rewrite append_last_eq, V|].
  rewrite !(contents_gates w s q Hq).
  rewrite (proj1 (se_bind_ret _ _ _)), (proj2 (se_bind_ret _ _ _)), F1.
  rewrite (proj1 (se_bind_ret _ _ _)), (proj2 (se_bind_ret _ _ _)), F3. cbn [fst snd].
  assert (R := proj1 (proj2 GG)).
  split; auto. split; [|split; auto].
  - unfold contents. cbn [w_seqs w_heap]. rewrite F2, L1. cbn [map]. f_equal.
    + apply (proj2 X1 l Hl).
    + now apply (gates_ext (w_heap w) h1).
  - unfold contents. cbn [w_seqs w_heap]. rewrite F4, L2. rewrite map_app. cbn [map]. f_equal.
    + now apply (gates_ext (w_heap w) h2).
    + f_equal. apply (proj2 X2 l Hl).
Qed.

Lemma prodn_repeat2 k : prodn (repeat 2%nat k) = (2 ^ k)%nat.
Proof.
  unfold prodn. assert (H : forall a, fold_left Nat.mul (repeat 2%nat k) a = (a * 2 ^ k)%nat).
  { induction k as [|k IH]; intros a; cbn [repeat fold_left]; [simpl; lia|]. rewrite IH. simpl. lia. }
  rewrite H. lia.
Qed.

Lemma full_pure_pow2 eps D g f : full_pure eps D g = Ok f -> exists n, D = (2 ^ n)%nat.
Proof.
  unfold full_pure, get_full_unitary, assert. cbn [e_unitary e_apply e_cache cache_get].
  destruct (Nat.leb _ D); [|discriminate]. cbn [snd fst].
  unfold compute_full_unitary.
  destruct (u_identity _ _); cbn [bind]; [|discriminate].
  destruct (u_tensor _ _ _); cbn [bind]; [|discriminate].
  unfold assert. destruct (Nat.eqb _ _); cbn [bind]; [|discriminate].
  unfold get_permute_matrix, assert.
  destruct (Nat.leb _ D); cbn [bind]; [|discriminate].
  destruct (Nat.leb _ D); cbn [bind]; [|discriminate].
  destruct (eqb_listn _ _); cbn [bind]; [|discriminate].
  destruct (Nat.eqb_spec (prodn (repeat 2%nat (Nat.log2 D))) D) as [E|E]; cbn [bind]; [|discriminate].
  intros _. exists (Nat.log2 D). now rewrite prodn_repeat2 in E.
Qed.

(** The call after validation, without saving, on a sequence that has computed
    its product but cannot embed the new gate. *)
Lemma mutate_stuck eps Pg l f upd h q p :
  G eps Pg h q -> (l < List.length h)%nat -> s_array q = false -> s_product q = Some p ->
  (forall n, s_dim q <> (2 ^ n)%nat) ->
  exists h' q' x, mutate eps l false f upd (h, q) = ((h', q'), Raise x) /\ heap_ext h h' /\
    s_entries q' = f (s_entries q) /\ s_product q' = Some p.
Proof.
  intros HG Hl Ha Hp Hd. unfold mutate. unfold se_bind at 1. cbn [m_save]. unfold se_ret at 1.
  unfold se_bind at 1. unfold m_change_list. unfold se_bind at 1. cbn [m_self snd]. rewrite Ha.
  unfold m_upd at 1. cbn [fst snd]. unfold se_bind at 1. cbn [m_self snd set_entries s_product]. rewrite Hp.
  unfold se_bind at 1. unfold m_heap. cbn [fst snd].
  destruct (h_full_spec eps Pg l (s_dim q) h (proj1 HG) Hl) as (h1 & E1 & X1 & _).
  cbn [set_entries s_dim]. rewrite E1.
  destruct (full_pure eps (s_dim q) (gate (obj h l))) as [u|x] eqn:EF.
  - apply full_pure_pow2 in EF. destruct EF as (n & E). destruct (Hd n E).
  - eexists _, _, _. split; [reflexivity|]. split; auto.
Qed.

Lemma C22_other_lemma : forall eps os s d l p,
  answers eps (exec eps os w_empty) s p ->
  has_dim (exec eps os w_empty) s d -> (forall n, d <> (2 ^ n)%nat) ->
  from_array (exec eps os w_empty) s false ->
  (l < List.length (w_heap (exec eps os w_empty)))%nat -> fits (exec eps os w_empty) d l ->
  let w := exec eps (os ++ [Product s]) w_empty in
  let w1 := fst (step eps (AppendFirst s l false) w) in
  let w2 := fst (step eps (AppendLast s l false) w) in
  let g := (e_unitary (obj (w_heap w) l), e_apply (obj (w_heap w) l)) in
  ((exists x, snd (step eps (AppendFirst s l false) w) = Raise x) /\
   contents w1 s = g :: contents w s /\ answers eps w1 s p) /\
  ((exists x, snd (step eps (AppendLast s l false) w) = Raise x) /\
   contents w2 s = contents w s ++ [g] /\ answers eps w2 s p).
Proof.
  intros eps os s d l p HA (q0 & Hq0 & <-) Hd (q' & Hq' & Ar) Hl HF. cbv zeta.
  rewrite Hq0 in Hq'. injection Hq' as <-.
  rewrite exec_app. cbn [exec]. set (w0 := exec eps os w_empty) in *.
  assert (W0 : WG eps anyg w0) by apply W_exec.
  assert (HR := proj1 (answers_iff eps w0 s q0 p W0 Hq0) HA).
  destruct (product_spec eps anyg (w_heap w0) q0 (WG_G eps anyg w0 s q0 W0 Hq0)) as (h1 & E1 & X1 & K1 & N1).
  rewrite HR in E1. set (q := set_product q0 (Some p)) in *.
  destruct (on_seq_target s (product eps) w0 q0 h1 q (Ok p) Hq0 E1) as [E2 Hq].
  assert (W1 := W_step eps (Product s) w0 W0).
  assert (EW : fst (step eps (Product s) w0) = {| w_heap := h1; w_seqs := list_set (w_seqs w0) s q |}).
  { cbn [step]. unfold se_bind. rewrite E2. reflexivity. }
  rewrite EW in *. set (w := {| w_heap := h1; w_seqs := list_set (w_seqs w0) s q |}) in *.
  assert (Hl1 : (l < List.length (w_heap w))%nat) by (cbn [w w_heap]; lia).
  assert (HFw : fits w (s_dim q0) l).
  { unfold fits in *. cbn [w w_heap]. assert (Eg := proj2 X1 l Hl). unfold gate in Eg.
    injection Eg as -> ->. exact HF. }
  assert (V : entry_valid (s_dim q) (obj (w_heap w) l) = true) by (apply (entry_valid_fits eps); auto).
  assert (GG := WG_G eps anyg w s q W1 Hq).
  rewrite step_append_first, step_append_last.
  replace (Nat.ltb l (List.length (w_heap w))) with true by (symmetry; now apply Nat.ltb_lt).
  assert (HX : forall (m : meth unit) f upd,
     m (w_heap w, q) = mutate eps l false f upd (w_heap w, q) ->
     (forall ls x, In x (f ls) -> x = l \/ In x ls) ->
     let r := se_bind (on_seq s m) (fun _ => se_ret VNone) w in
     (exists x, snd r = Raise x) /\ contents (fst r) s = gates (w_heap w) (f (s_entries q)) /\
     answers eps (fst r) s p).
  { intros m f upd Em Hin. cbv zeta.
    destruct (mutate_stuck eps anyg l f upd (w_heap w) q p GG Hl1) as (h2 & q2 & x & E & X2 & L2 & P2); auto.
    destruct (mutate_frame eps anyg l false f upd (w_heap w) q GG Hl1 Hin)
      as (h2' & q2' & r' & E' & X2' & GG2 & _). rewrite E in E'. injection E' as <- <- <-.
    destruct (on_seq_target s m w q h2 q2 (Raise x) Hq) as [F1 F2]; [congruence|].
    rewrite (proj1 (se_bind_ret _ _ _)), (proj2 (se_bind_ret _ _ _)), F1. cbn [fst snd].
    split; [eauto|]. split.
    - unfold contents. cbn [w_seqs w_heap]. rewrite F2, L2. apply (gates_ext (w_heap w) h2); auto.
      intros y Hy. apply Hin in Hy. destruct Hy as [->|Hy]; auto. exact (proj1 (proj2 GG) y Hy).
    - unfold answers. cbn [step]. unfold se_bind, on_seq. cbn [w_seqs w_heap]. rewrite F2.
      destruct (product_spec eps anyg h2 q2 GG2) as (h3 & E3 & _).
      unfold reported in E3. rewrite P2 in E3. rewrite E3. reflexivity. }
  rewrite (contents_gates w s q Hq). split.
  - apply (HX (append_first eps l false) (fun ls => l :: ls) (upd_first eps)).
    + now rewrite append_first_eq, V.
    + intros ls x [->|H]; auto.
  - destruct (HX (append_last eps l false) (fun ls => ls ++ [l]) (upd_last eps)) as (H1 & H2 & H3).
    + now rewrite append_last_eq, V.
    + intros ls x H. apply in_app_or in H. destruct H as [H|[->|[]]]; auto.
    + split; auto. split; auto. rewrite H2. unfold gates. now rewrite map_app.
Qed.

(** ** C23: which exception *)
Lemma C23_exact_lemma : forall os s n o,
  history 0 (built 0) odd_entries os w_empty ->
  has_dim (exec 0 os w_empty) s (2 ^ n) -> from_array (exec 0 os w_empty) s true ->
  effective (exec 0 os w_empty) s o \/ o = Inverse s ->
  snd (step 0 o (exec 0 os w_empty)) = Raise AttributeError.
Proof.
  intros os s n o H (q & Hq & Hd) (q' & Hq' & Ar) HE. set (w := exec 0 os w_empty) in *.
  rewrite Hq in Hq'. injection Hq' as <-.
  assert (HW := exact_winv os H). fold w in HW. set (K := updates os 0) in *.
  assert (GG := WG_G 0 _ w s q (proj1 HW) Hq).
  assert (HS := proj2 HW s q n Hq Hd (lim_zero _ _)).
  destruct HE as [HE| ->].
  - destruct (effective_mutate 0 w s o q (W_exec 0 os) Hq HE) as (l & sv & f & upd & E & _).
    destruct (mutate_array 0 ltac:(lra) ltac:(lra) true n K l sv f upd (w_heap w) q GG Ar (lim_zero _ _) HS)
      as (h' & q' & E' & _).
    rewrite E. rewrite (proj2 (se_bind_ret _ _ _)).
    destruct (on_seq_target s _ w q h' q' _ Hq E') as [-> _]. reflexivity.
  - cbn [step]. unfold se_bind at 1. 
    assert (E : exists h', inverse 0 (w_heap w, q) = ((h', q), Raise AttributeError)).
    { unfold inverse. unfold se_bind at 1. cbn [m_self snd].
      unfold se_bind at 1. unfold m_heap, h_deepcopy. cbn [fst snd].
      destruct (deepcopy (w_heap w) (s_entries q)) as [h1 ls] eqn:E1.
      destruct (deepcopy_frame 0 (gok 0 true) _ _ h1 ls (proj1 (proj2 GG)) E1) as (X1 & K1 & R1 & G1 & _).
      specialize (K1 (proj1 GG)). unfold se_bind at 1. cbn [fst snd].
      destruct (new_sequence_spec 0 (gok 0 true) (s_dim q) (s_array q) ls h1 K1 R1) as (h2 & r2 & E2 & X2 & K2 & HH).
      assert (Gq := part_gates 0 true n K (w_heap w) _ _ (proj1 GG) (proj1 (proj2 GG)) (proj1 HS)).
      assert (V : forallb (fun l => entry_valid (s_dim q) (obj h1 l)) ls = true).
      { apply forallb_forall. intros l Hl. rewrite Hd.
        assert (Hg : In (gate (obj h1 l)) (gates h1 ls)) by (apply (in_map (fun l => gate (obj h1 l))); auto).
        rewrite G1 in Hg. destruct (Gq _ Hg) as [(_ & _ & _ & H4 & _) HP].
        apply placement_entry_valid; [exact HP|exact H4]. }
      rewrite E2. destruct HH as [(_ & ls' & -> & _)|(V' & _)]; [|congruence].
      cbn [s_array]. rewrite Ar. eexists. reflexivity. }
    destruct E as (h' & E). destruct (on_seq_target s _ w q h' q _ Hq E) as [-> _]. reflexivity.
Qed.

(** ** C19 *)
Definition c19 (u : unitary) : list op :=
  [NewEntry u [0%Z]; NewSequence 2 false [0; 0]%nat; Inverse 0].
Definition e19 (u : unitary) : entry := {| e_unitary := u; e_apply := [0%nat]; e_cache := [] |}.
Definition q19 (l : nat) : sequence :=
  {| s_dim := 2; s_array := false; s_entries := [l; l]; s_product := None;
     s_prev_entries := None; s_prev_product := None |}.

Lemma exec_19 eps u : u_dim u = 2%nat ->
  exec eps [NewEntry u [0%Z]; NewSequence 2 false [0; 0]%nat] w_empty =
  {| w_heap := [e19 u; e19 u]; w_seqs := [q19 1] |}.
Proof.
  intros D. destruct u as [d m nm ps iv ap]. simpl in D. subst d. reflexivity.
Qed.

Lemma placement_10 : placement 1 [0%nat].
Proof.
  split; [|split].
  - repeat constructor; simpl; tauto.
  - discriminate.
  - simpl. intros q. lia.
Qed.

Lemma embed_one U : meq 2 (embed 1 [0%nat] U) U.
Proof.
  intros i j Hi Hj. destruct i as [|[|i]], j as [|[|j]]; try lia; reflexivity.
Qed.

(** A single-qubit sequence of clean gates. *)
Lemma full_pure_one eps u : (eps <= 1)%R -> built eps u -> u_dim u = 2%nat -> eps_clean eps 2 (u_mat u) ->
  exists f, full_pure eps 2 (u, [0%nat]) = Ok f /\ u_dim f = 2%nat /\ meq 2 (u_mat f) (u_mat u).
Proof.
  intros He Hb Hd Hc.
  destruct (C09_lemma eps 1 u [0%nat] He Hb) as (f & (e & E1 & E2) & D & M & _); auto.
  { now rewrite Hd. } { apply placement_10. }
  exists f. apply mk_entry_fields in E1. destruct E1 as (F1 & F2 & F3).
  change (2 ^ 1)%nat with 2%nat in *.
  split; [|split; auto].
  - unfold full_pure. cbn [fst snd]. destruct e as [eu ea ec]. cbn in F1, F2, F3. subst. exact E2.
  - rewrite M. apply embed_one.
Qed.

Definition rot2 : mat := mat22 (RtoC (-(7/25))) (RtoC (-(24/25))) (RtoC (24/25)) (RtoC (-(7/25))).
Lemma rot2_sqr : meq 2 (mmul 2 rot345 rot345) rot2.
Proof. mat2; unfold mmul, rot345, rot2, mat22; cbn -[Rdiv RtoC]; apply C_eq; simpl; field. Qed.
Lemma rot2_clean eps : (eps <= / 5)%R -> eps_clean eps 2 rot2.
Proof.
  intros He. mat2; unfold rot2, mat22; simpl; split; auto;
    apply Rabs_lt_absurd; unfold Rabs; destruct (Rcase_abs _); lra.
Qed.

Lemma rot345_built eps : (eps <= 3 / 5)%R ->
  exists u, built eps u /\ u_dim u = 2%nat /\ meq 2 (u_mat u) rot345 /\ eps_clean eps 2 (u_mat u).
Proof.
  intros He.
  destruct (mk_special eps 2 rot345 (Some "R"%string) [] false [] ltac:(lia) rot345_special
              (rot345_clean eps He)) as (u & E & E1 & _ & _ & _ & _ & E2).
  exists u. split; [|split; [auto|split; [auto|]]].
  - exists 2%nat, rot345, (Some "R"%string), [], false, [].
    split; [apply rot345_unitary|]. split; [now apply rot345_clean|exact E].
  - rewrite E2. now apply rot345_clean.
Qed.

Lemma C19_lemma : forall eps, (0 <= eps <= / 5)%R ->
  exists os s i n p,
    history eps (built eps) (fun w s => from_array w s false /\ has_dim w s (2 ^ n)) (os ++ [Inverse s]) w_empty /\
    snd (step eps (Inverse s) (exec eps os w_empty)) = Ok (VSequence i) /\
    let w := exec eps (os ++ [Inverse s]) w_empty in
    answers eps w i p /\ has_dim w i (2 ^ n) /\
    ~ meq (2 ^ n) (u_mat p) (ordered n (contents w i)).
Proof.
  intros eps He.
  destruct (rot345_built eps ltac:(lra)) as (u & B & D & M & Cl).
  assert (Wu := built_wf eps u B).
  destruct (u_inverse_ok eps u Wu) as (v & Ev & Dv & _ & _ & _ & _ & Mv); [now rewrite D|]. rewrite D in *.
  assert (Wv : wf v).
  { apply (wf_of v 2 (adj rot345)); [lia|auto| |apply special_adj, rot345_special].
    rewrite Mv, M. reflexivity. }
  assert (Cv : eps_clean eps 2 (u_mat v)) by (rewrite Mv; now apply eps_clean_adj).
  destruct (u_inverse_ok eps v Wv) as (v2 & Ev2 & Dv2 & _ & _ & _ & _ & Mv2); [now rewrite Dv|].
  rewrite Dv in *.
  assert (M2 : meq 2 (u_mat v2) rot345).
  { rewrite Mv2, Mv, M. now rewrite adj_adj. }
  (* the product of the original sequence *)
  destruct (full_pure_one eps u ltac:(lra) B D Cl) as (f & Ef & Df & Mf).
  destruct (mk_special eps 2 mid None [] false [] ltac:(lia) (special_mid 2) (eps_clean_mid eps 2 ltac:(lra)))
    as (p0 & E0 & D0 & _ & _ & _ & _ & M0).
  assert (Wf : wf f).
  { apply (wf_of f 2 rot345); [lia|auto| |apply rot345_special]. now rewrite Mf. }
  assert (W0 : wf p0) by (apply (wf_of p0 2 mid); [lia|auto|auto|apply special_mid]).
  destruct (u_left_multiply_ok eps p0 f W0 Wf) as (p1 & E1 & D1 & _ & _ & _ & _ & M1); [congruence| |].
  { rewrite D0, Mf, M0, mmul_1_r, M. apply rot345_clean. lra. }
  rewrite D0 in *.
  assert (M1' : meq 2 (u_mat p1) rot345) by (rewrite M1, Mf, M0, mmul_1_r; exact M).
  assert (W1 : wf p1) by (apply (wf_of p1 2 rot345); [lia|auto|auto|apply rot345_special]).
  destruct (u_left_multiply_ok eps p1 f W1 Wf) as (p2 & E2 & D2 & _ & _ & _ & _ & MM2); [congruence| |].
  { rewrite D1, Mf, M, M1', rot2_sqr. apply rot2_clean. lra. }
  rewrite D1 in *.
  assert (M2' : meq 2 (u_mat p2) rot2) by (rewrite MM2, Mf, M, M1'; apply rot2_sqr).
  assert (S2 : special 2 rot2).
  { assert (X := special_mmul 2 rot345 rot345 rot345_special rot345_special). now rewrite rot2_sqr in X. }
  assert (W2 : wf p2) by (apply (wf_of p2 2 rot2); [lia|auto|auto|exact S2]).
  destruct (u_inverse_ok eps p2 W2) as (p & Ep & Dp & _ & _ & _ & _ & Mp).
  { rewrite D2, M2'. apply rot2_clean. lra. }
  rewrite D2 in *.
  set (os := [NewEntry u [0%Z]; NewSequence 2 false [0; 0]%nat]).
  assert (EX : exec eps os w_empty = {| w_heap := [e19 u; e19 u]; w_seqs := [q19 1] |}) by now apply exec_19.
  assert (HW : WG eps anyg (exec eps os w_empty)) by apply W_exec.
  assert (EI : exists h', inverse eps ([e19 u; e19 u], q19 1) =
     ((h', set_product (q19 1) (Some p2)), Ok (set_product (q19 3) (Some p))) /\
     gate (obj h' 3) = (v2, [0%nat])).
  { assert (ED : deepcopy [e19 u; e19 u] [1; 1]%nat = ([e19 u; e19 u; e19 u], [2; 2]%nat)) by reflexivity.
    assert (EN : new_sequence 2 false [2; 2]%nat [e19 u; e19 u; e19 u] =
                 ([e19 u; e19 u; e19 u; e19 u], Ok (q19 3))).
    { destruct u as [d m nm ps iv ap]. simpl in D. subst d. reflexivity. }
    set (h4 := [e19 u; e19 u; e19 u; e19 v2]).
    assert (EL : invert_loop eps [3; 3]%nat [e19 u; e19 u; e19 u; e19 u] = (h4, Ok tt)).
    { cbn [invert_loop]. unfold se_bind, se_get, se_put, se_lift, se_ret. cbn [obj nth e_unitary e19 e_apply list_set].
      rewrite Ev. cbn [obj nth e_unitary e_apply list_set]. rewrite Ev2. reflexivity. }
    assert (HG : G eps anyg h4 (q19 1)).
    { split.
      - intros l Hl. cbn [h4 List.length] in Hl.
        destruct l as [|[|[|[|l]]]]; try lia; (split; [intros d w; discriminate|discriminate]).
      - split; [|discriminate]. intros l [<-|[<-|[]]]; cbn; lia. }
    destruct (product_spec eps anyg h4 (q19 1) HG) as (h5 & E5 & X5 & _ & _).
    assert (ER : reported eps h4 (q19 1) = Ok p2).
    { unfold reported. cbn [q19 s_product s_dim s_entries]. unfold pure_product.
      change (mk_unitary eps 2 None None [] false []) with (mk_unitary eps 2 (Some (square 2 mid)) None [] false []).
      rewrite E0. cbn [bind gates map h4 obj nth gate e19 e_unitary e_apply pure_loop].
      change (gate (e19 u)) with (u, [0%nat]). rewrite Ef. cbn [bind]. rewrite E1. cbn [bind]. rewrite E2. reflexivity. }
    rewrite ER in E5. exists h5. split.
    - unfold inverse. unfold se_bind at 1. cbn [m_self snd].
      unfold se_bind at 1. unfold m_heap, h_deepcopy. cbn [fst snd q19 s_entries].
      rewrite ED. unfold se_bind at 1. cbn [fst snd q19 s_dim s_array].
      rewrite EN. cbn [q19 s_array]. unfold se_bind at 1. cbn [fst snd set_entries s_entries rev app q19].
      rewrite EL. unfold se_bind at 1. cbn [fst snd].
      rewrite E5. cbn [snd].
      unfold se_bind, se_lift. rewrite Ep. reflexivity.
    - rewrite (proj2 X5 3%nat) by (cbn; lia). reflexivity. }
  destruct EI as (h' & EI & G3).
  destruct (on_seq_target 0 (inverse eps) (exec eps os w_empty) (q19 1) h' _ _
              ltac:(rewrite EX; reflexivity) ltac:(rewrite EX; exact EI)) as [F1 F2].
  assert (ES : step eps (Inverse 0) (exec eps os w_empty) =
    ({| w_heap := h'; w_seqs := [set_product (q19 1) (Some p2); set_product (q19 3) (Some p)] |},
     Ok (VSequence 1))).
  { cbn [step]. unfold se_bind, add_seq. rewrite F1. rewrite EX. reflexivity. }
  exists os, 0%nat, 1%nat, 1%nat, p. split.
  - split; [exact B|]. split; [exact I|].
    change (exec eps os w_empty) with (fst (step eps (NewSequence 2 false [0%nat; 0%nat]) (fst (step eps (NewEntry u [0%Z]) w_empty)))) in EX.
    rewrite EX. split; [|exact I]. split; [exists (q19 1); auto|exists (q19 1); auto].
  - split; [now rewrite ES|]. cbv zeta. rewrite exec_app. cbn [exec].
    assert (W3 := W_step eps (Inverse 0) _ HW). rewrite ES in *. cbn [fst] in *.
    split; [|split].
    + apply (answers_iff eps _ 1 (set_product (q19 3) (Some p)) p W3); reflexivity.
    + exists (set_product (q19 3) (Some p)). auto.
    + unfold contents. cbn [nth_error w_seqs w_heap set_product s_entries q19 map].
      unfold gate in G3. injection G3 as -> ->.
      change (2 ^ 1)%nat with 2%nat. intros EM.
      assert (EO : meq 2 (ordered 1 [(v2, [0%nat]); (v2, [0%nat])]) rot2).
      { rewrite (ordered_cons 1), (ordered_one 1). cbn [fst snd]. change (2 ^ 1)%nat with 2%nat.
        rewrite embed_one, M2. apply rot2_sqr. }
      rewrite EO, Mp, M2' in EM. specialize (EM 0%nat 1%nat ltac:(lia) ltac:(lia)).
      unfold adj, rot2, mat22 in EM. apply (f_equal fst) in EM. simpl in EM. lra.
Qed.
