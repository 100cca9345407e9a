(** The product of a sequence is the ordered product of its entries: invariant
    of every history of calls, with the error made by the clean-up. *)
From Coq Require Import Reals List Arith Lia Lra Bool String ZArith.
From Coquelicot Require Import Complex.
From Verif Require Import Base CMat CMatFacts Det DetFacts CRoot Norms ModelUnitary ModelEntry
  ModelSequence Spec SpecModel PUnitary PBits PEmbed PEntry PDrift PSeqHeap PSeqMeth PSeqNear PSeqWorld.
Import ListNotations.
Open Scope R_scope.
Open Scope C_scope.
Open Scope se_scope.

Lemma entry_valid_placement n e :
  NoDup (e_apply e) -> e_apply e <> [] -> entry_valid (2 ^ n) e = true -> placement n (e_apply e).
Proof.
  intros H1 H2 H. split; auto. split; auto. intros q Hq. unfold entry_valid in H.
  apply andb_true_iff in H. destruct H as [_ H]. apply Nat.leb_le in H.
  apply Nat.pow_le_mono_r_iff in H; [|lia].
  pose proof (proj1 (list_maxn_ge (e_apply e) 0%nat) q Hq). unfold list_maxn in H. lia.
Qed.

Lemma placement_entry_valid n e :
  placement n (e_apply e) -> (2 ^ List.length (e_apply e))%nat = e_dim e -> entry_valid (2 ^ n) e = true.
Proof.
  intros Hp Hd. unfold entry_valid. apply andb_true_iff. split; apply Nat.leb_le.
  - rewrite <- Hd. apply Nat.pow_le_mono_r; [lia|]. now apply placement_length.
  - apply Nat.pow_le_mono_r; [lia|]. destruct Hp as (_ & Hne & Hlt).
    pose proof (list_maxn_lt _ n Hne Hlt). lia.
Qed.

Lemma Forall2_map_same {A B} (R : B -> B -> Prop) (f g : A -> B) l :
  (forall x, In x l -> R (f x) (g x)) -> Forall2 R (map f l) (map g l).
Proof.
  induction l as [|x l IH]; intros H; simpl; constructor.
  - apply H; simpl; auto.
  - apply IH. intros y Hy. apply H; simpl; auto.
Qed.
Lemma Forall2_rev {A} (R : A -> A -> Prop) l l' : Forall2 R l l' -> Forall2 R (rev l) (rev l').
Proof.
  induction 1; simpl; [constructor|]. apply Forall2_app; auto.
Qed.

Section Inv.
Variable eps : R.
Hypothesis eps0 : (0 <= eps)%R.
Hypothesis eps1 : (eps <= 1)%R.
Variable b : bool.

Notation Pg := (gok eps b).
Notation near := (nearb eps b).
Notation lim := (limb eps b).
Notation G := (G eps Pg).
Notation WG := (WG eps Pg).

(** Constructor calls charged for one gate of a product. *)
Definition unit_cost : nat := S (gc b).
Notation uc := unit_cost.

(** A list of entries with the product that goes with it. *)
Definition part (n K : nat) (h : heap) (ls : list nat) (po : option unitary) : Prop :=
  (forall l, In l ls -> placement n (e_apply (obj h l))) /\
  (List.length ls <= K)%nat /\
  forall p, po = Some p -> near n (uc * K) (iordered eps n (gates h ls)) p.

Definition sat (n K : nat) (h : heap) (q : sequence) : Prop :=
  part n K h (s_entries q) (s_product q) /\
  (forall ls, s_prev_entries q = Some ls -> part n K h ls (s_prev_product q)) /\
  (s_prev_entries q = None -> s_prev_product q = None) /\
  (s_product q = None -> s_prev_product q = None).

Lemma part_mono n K K' h ls po : (K <= K')%nat -> part n K h ls po -> part n K' h ls po.
Proof.
  intros H (P1 & P2 & P3). split; auto. split; [lia|]. intros p Hp.
  apply nearb_mono with (c1 := (uc * K)%nat); auto. nia.
Qed.
Lemma sat_mono n K K' h q : (K <= K')%nat -> sat n K h q -> sat n K' h q.
Proof.
  intros H (P1 & P2 & P3). split; [eapply part_mono; eauto|]. split; auto.
  intros ls Hls. eapply part_mono; eauto.
Qed.
Lemma ext_apply h h' l : heap_ext h h' -> (l < List.length h)%nat -> e_apply (obj h' l) = e_apply (obj h l).
Proof. intros [_ X] Hl. specialize (X l Hl). now injection X. Qed.
Lemma part_ext n K h h' ls po : heap_ext h h' -> in_heap h ls -> part n K h ls po -> part n K h' ls po.
Proof.
  intros X R (P1 & P2 & P3). split; [|split]; auto.
  - intros l Hl. rewrite (ext_apply h h') by auto. auto.
  - intros p Hp. rewrite (gates_ext h h') by auto. auto.
Qed.
Lemma sat_ext n K h h' q : heap_ext h h' -> seq_rng h q -> sat n K h q -> sat n K h' q.
Proof.
  intros X [R1 R2] (P1 & P2 & P3). split; [eapply part_ext; eauto|]. split; auto.
  intros ls Hls. eapply part_ext; eauto.
Qed.

Lemma ordered_special n gs :
  (forall g, In g gs -> wf (fst g) /\ placement n (snd g) /\ (2 ^ List.length (snd g))%nat = u_dim (fst g)) ->
  special (2 ^ n) (ordered n gs).
Proof.
  induction gs as [|g gs IH] using rev_ind; intros H.
  - rewrite ordered_nil. apply special_mid.
  - rewrite ordered_snoc. apply special_mmul.
    + destruct (H g) as (Hw & Hp & Hd); [apply in_or_app; simpl; auto|].
      apply embed_special; auto. rewrite Hd. apply Hw.
    + apply IH. intros g' Hg'. apply H. apply in_or_app. auto.
Qed.

(** ** The lazily computed product *)
Lemma pure_loop_near n gs : forall c P acc,
  (forall g, In g gs -> Pg g /\ placement n (snd g)) ->
  near n c P acc -> lim n (c + uc * List.length gs) ->
  exists p, pure_loop eps (2 ^ n) gs acc = Ok p /\
    near n (c + uc * List.length gs) (mmul (2 ^ n) (iordered eps n gs) P) p.
Proof.
  induction gs as [|g gs IH]; intros c P acc Hg HN HL.
  - exists acc. split; [reflexivity|]. cbn [List.length]. rewrite Nat.mul_0_r, Nat.add_0_r.
    eapply nearb_meq; [|exact HN]. rewrite iordered_nil. now rewrite mmul_1_l.
  - cbn [pure_loop List.length] in *.
    destruct (Hg g) as [Hgg Hgp]; [simpl; auto|].
    destruct (nearb_gate eps eps0 eps1 b n g Hgg Hgp) as (f & i & E & _ & Nf & _).
    { eapply limb_mono; [exact eps0|exact eps1| |exact HL]. unfold uc. lia. }
    rewrite E. cbn [bind].
    destruct (nearb_left eps eps0 b n c (gc b) P _ acc f HN Nf) as (q & Eq & Nq).
    { eapply limb_mono; [exact eps0|exact eps1| |exact HL]. unfold uc. lia. }
    rewrite Eq. cbn [bind].
    destruct (IH (S (c + gc b)) _ q (fun g' Hg' => Hg g' (or_intror Hg')) Nq) as (p & Ep & Np).
    { eapply limb_mono; [exact eps0|exact eps1| |exact HL]. unfold uc. lia. }
    exists p. split; auto. eapply nearb_mono with (c1 := (S (c + gc b) + uc * List.length gs)%nat); auto.
    { unfold uc. lia. }
    eapply nearb_meq; [|exact Np]. rewrite iordered_cons. now rewrite mmul_assoc.
Qed.

Lemma part_gates n K h ls po : heap_ok eps Pg h -> in_heap h ls -> part n K h ls po ->
  forall g, In g (gates h ls) -> Pg g /\ placement n (snd g).
Proof.
  intros Hok R (P1 & _) g Hg. apply in_map_iff in Hg. destruct Hg as (l & <- & Hl).
  split; [apply Hok; auto|]. now apply P1.
Qed.

Lemma reported_near n K h q :
  G h q -> s_dim q = (2 ^ n)%nat -> lim n (uc * K) -> sat n K h q ->
  exists p, reported eps h q = Ok p /\ near n (uc * K) (iordered eps n (gates h (s_entries q))) p.
Proof.
  intros [Hok [R _]] Hd HL (P & _). unfold reported. destruct (s_product q) as [p|] eqn:Ep.
  - exists p. split; auto. apply P. auto.
  - unfold pure_product. rewrite Hd, mk_unitary_none.
    destruct (nearb_id eps eps1 b n None [] false []) as (p0 & E0 & N0). rewrite E0. cbn [bind].
    destruct (pure_loop_near n (gates h (s_entries q)) 0 mid p0) as (p & E & N); auto.
    + eapply part_gates; eauto.
    + eapply limb_mono; [exact eps0|exact eps1| |exact HL]. unfold gates. rewrite map_length.
      destruct P as (_ & P & _). nia.
    + exists p. split; auto. apply nearb_mono with (c1 := (0 + uc * List.length (gates h (s_entries q)))%nat); auto.
      * unfold gates. rewrite map_length. destruct P as (_ & P & _). nia.
      * eapply nearb_meq; [|exact N]. now rewrite mmul_1_r.
Qed.

(** Calls that change nothing observable keep [sat]. *)
Lemma sat_same n K h q h' q' :
  G h q -> heap_ext h h' -> s_dim q = (2 ^ n)%nat -> lim n (uc * K) ->
  same eps h q h' q' -> sat n K h q -> sat n K h' q'.
Proof.
  intros HG X Hd HL (D & A & E & PE & PP & RP & NN) HS.
  destruct (reported_near n K h q HG Hd HL HS) as (p & Ep & Np).
  destruct HS as (P1 & P2 & P3 & P4). destruct HG as [Hok [R1 R2]].
  split; [|split; [|split]].
  - rewrite E. destruct (part_ext n K h h' _ _ X R1 P1) as (A1 & A2 & A3). split; auto. split; auto.
    intros p' Hp'. rewrite Ep in RP. unfold reported in RP. rewrite Hp' in RP. injection RP as ->.
    now rewrite (gates_ext h h') by auto.
  - intros ls Hls. rewrite PE in Hls. rewrite PP. eapply part_ext; eauto.
  - rewrite PE, PP. auto.
  - intros H. rewrite PP. auto.
Qed.

(** ** Saving *)
Lemma uc_S K : (S (uc * K) <= uc * S K)%nat.
Proof. unfold uc. lia. Qed.

Lemma save_sat n K sv h q :
  G h q -> lim n (uc * S K) -> sat n K h q ->
  exists h' q', m_save eps sv (h, q) = ((h', q'), Ok tt) /\ heap_ext h h' /\ G h' q' /\
    sat n (S K) h' q' /\ s_dim q' = s_dim q /\ s_array q' = s_array q /\
    s_entries q' = s_entries q /\ s_product q' = s_product q.
Proof.
  intros HG HL HS. assert (KK : (K <= S K)%nat) by lia. destruct sv; cbn [m_save].
  - destruct (save_spec eps Pg h q HG) as (h' & ls & X & Hok & R & Eg & El & E).
    assert (HS' := HS). destruct HS as (P1 & P2 & P3 & P4). destruct HG as [Hok0 [R1 R2]].
    assert (PL : part n (S K) h' ls (s_prev_product q) ->
      G h' (set_prev_entries q (Some ls)) /\ sat n (S K) h' (set_prev_entries q (Some ls))).
    { intros HP. split.
      - split; auto. split; [eapply in_heap_ext; eauto|]. intros ls' [= <-]. auto.
      - split; [|split; [|split]]; cbn [set_prev_entries s_entries s_product s_prev_entries s_prev_product].
        + eapply part_ext; eauto. eapply part_mono; eauto.
        + intros ls' [= <-]. auto.
        + discriminate.
        + auto. }
    assert (Pls : forall l, In l ls -> placement n (e_apply (obj h' l))).
    { intros l Hl. assert (Hg : In (gate (obj h' l)) (gates h' ls)) by (apply (in_map (fun l => gate (obj h' l))); auto).
      rewrite Eg in Hg. eapply (part_gates n K h _ _ Hok0 R1 P1) in Hg. apply Hg. }
    destruct (s_product q) as [p|] eqn:Ep.
    + destruct P1 as (A1 & A2 & A3). assert (Np := A3 p eq_refl).
      destruct (nearb_rewrap eps eps0 b n (uc * K) _ p Np) as (p' & Er & Nr).
      { eapply limb_mono; [exact eps0|exact eps1| |exact HL]. apply uc_S. }
      rewrite Er in E. rewrite E. eexists _, _. split; [reflexivity|]. split; auto. split; [|split].
      * split; auto. split; [eapply in_heap_ext; eauto|]. intros ls' [= <-]. auto.
      * split; [|split; [|split]]; cbn [set_prev_product set_prev_entries s_entries s_product s_prev_entries s_prev_product].
        -- apply part_mono with (K := K); auto. eapply part_ext; eauto. rewrite Ep. split; auto.
        -- intros ls' [= <-]. split; auto. split; [lia|]. intros p0 [= <-]. rewrite Eg.
           eapply nearb_mono; [exact eps0| |exact Nr]. apply uc_S.
        -- discriminate.
        -- rewrite Ep. discriminate.
      * cbn. auto.
    + rewrite E. destruct PL as [GG SS].
      { rewrite (P4 eq_refl). split; auto. split; [destruct P1 as (_ & ? & _); lia|discriminate]. }
      exists h', (set_prev_entries q (Some ls)). split; [reflexivity|]. split; auto. split; auto.
  - exists h, q. split; [reflexivity|]. split; [apply heap_ext_refl|]. split; auto.
    split; auto. eapply sat_mono; eauto.
Qed.

(** ** The four mutators *)
Lemma mutate_sat n K l sv f upd h q :
  G h q -> s_dim q = (2 ^ n)%nat -> s_array q = false -> lim n (uc * S K) -> sat n K h q ->
  (l < List.length h)%nat -> placement n (e_apply (obj h l)) ->
  (forall ls x, In x (f ls) -> x = l \/ In x ls) ->
  (List.length (f (s_entries q)) <= S K)%nat ->
  (forall (c : nat) (p u i : unitary),
     near n c (iordered eps n (gates h (s_entries q))) p ->
     near n (gc b) (embed n (e_apply (obj h l)) (ideal eps (e_unitary (obj h l)))) u ->
     u_inverse eps u = Ok i ->
     near n (gc b) (adj (embed n (e_apply (obj h l)) (ideal eps (e_unitary (obj h l))))) i ->
     lim n (S (c + gc b)) ->
     exists p', upd p u = Ok p' /\ near n (S (c + gc b)) (iordered eps n (gates h (f (s_entries q)))) p') ->
  exists h' q', mutate eps l sv f upd (h, q) = ((h', q'), Ok tt) /\ heap_ext h h' /\ G h' q' /\
    sat n (S K) h' q' /\ s_dim q' = s_dim q /\ s_array q' = s_array q /\
    s_entries q' = f (s_entries q).
Proof.
  intros HG Hd Ha HL HS Hl Hp Hf Hlen Hupd. unfold mutate. unfold se_bind at 1.
  destruct (save_sat n K sv h q HG HL HS) as (h1 & q1 & E1 & X1 & G1 & S1 & D1 & A1 & L1 & P1).
  rewrite E1. unfold se_bind at 1. unfold m_change_list. unfold se_bind at 1. cbn [m_self snd].
  rewrite A1, Ha. unfold m_upd at 1. cbn [fst snd]. unfold se_bind at 1. cbn [m_self snd].
  set (q2 := set_entries q1 (f (s_entries q1))).
  assert (R2 : seq_rng h1 q2).
  { destruct G1 as [_ [R1 R1']]. split; [|exact R1']. simpl. intros x Hx.
    apply Hf in Hx. destruct Hx as [->|Hx]; auto. destruct X1. lia. }
  assert (PR : forall x, In x (f (s_entries q)) -> placement n (e_apply (obj h1 x))).
  { intros x Hx. apply Hf in Hx. destruct Hx as [->|Hx].
    - rewrite (ext_apply h h1) by auto. auto.
    - destruct S1 as ((S1 & _) & _). rewrite L1 in S1. auto. }
  destruct (s_product q2) as [p|] eqn:Ep.
  2:{ exists h1, q2. split; [reflexivity|]. split; auto. split; [split; [apply G1|auto]|].
      split; [|simpl; rewrite L1, D1, A1; auto].
      destruct S1 as (T1 & T2 & T3 & T4). split; [|split; [|split]]; auto.
      cbn [q2 set_entries s_entries]. rewrite Ep. split; [now rewrite L1|].
      split; [now rewrite L1|discriminate]. }
  unfold se_bind at 1. unfold m_heap. cbn [fst snd].
  destruct (h_full_spec eps Pg l (s_dim q2) h1) as (h3 & E3 & X3 & K3 & N3).
  { apply G1. } { destruct X1; lia. }
  rewrite E3. change (s_dim q2) with (s_dim q1). rewrite D1, Hd.
  assert (Gl : gate (obj h1 l) = gate (obj h l)) by (apply X1; auto). rewrite Gl.
  destruct (nearb_gate eps eps0 eps1 b n (gate (obj h l))) as (u & i & Eu & Ei & Nu & Ni); auto.
  { apply HG. auto. }
  { eapply limb_mono; [exact eps0|exact eps1| |exact HL]. unfold uc. lia. }
  rewrite Eu.
  assert (X13 : heap_ext h h3) by (eapply heap_ext_trans; eauto).
  assert (Np : near n (uc * K) (iordered eps n (gates h (s_entries q))) p).
  { destruct HS as ((_ & _ & HS) & _). apply HS. rewrite <- P1. exact Ep. }
  destruct (Hupd (uc * K)%nat p u i Np Nu Ei Ni) as (p' & Ep' & Np').
  { eapply limb_mono; [exact eps0|exact eps1| |exact HL]. unfold uc. lia. }
  unfold se_bind, se_lift. rewrite Ep'. unfold m_upd. cbn [fst snd].
  exists h3, (set_product q2 (Some p')). split; [reflexivity|]. split; auto.
  assert (R3 := seq_rng_ext h1 h3 q2 X3 R2).
  split; [split; [auto|exact R3]|]. split; [|simpl; rewrite L1, D1, A1; auto].
  destruct S1 as (T1 & T2 & T3 & T4).
  assert (S3 : sat n (S K) h3 q1) by (eapply sat_ext; [exact X3|apply G1|split; auto]).
  destruct S3 as (U1 & U2 & U3 & U4). split; [|split; [|split]]; auto.
  - cbn [q2 set_entries set_product s_entries s_product]. rewrite L1.
    split; [|split; auto].
    + intros x Hx. rewrite (ext_apply h1 h3); auto. apply R2. cbn [q2 set_entries s_entries]. now rewrite L1.
    + intros p0 [= <-]. rewrite (gates_ext h h3).
      * eapply nearb_mono; [exact eps0| |exact Np']. unfold uc. lia.
      * auto.
      * intros x Hx. apply Hf in Hx. destruct Hx as [->|Hx]; auto. apply (proj1 (proj2 HG)). auto.
  - discriminate.
Qed.

(** The updates made by the four mutators. *)
Lemma embed_gate_special n h l : heap_ok eps Pg h -> (l < List.length h)%nat ->
  placement n (e_apply (obj h l)) ->
  special (2 ^ n) (embed n (e_apply (obj h l)) (ideal eps (e_unitary (obj h l)))).
Proof.
  intros Hok Hl Hp. destruct (Hok l Hl) as [_ (Hw & _ & _ & Hd & _)]. cbn [gate fst snd] in *.
  apply embed_special; auto. rewrite Hd. apply ideal_special; auto.
Qed.

Lemma append_first_sat n K l sv h q :
  G h q -> s_dim q = (2 ^ n)%nat -> s_array q = false -> lim n (uc * S K) -> sat n K h q ->
  (l < List.length h)%nat -> placement n (e_apply (obj h l)) ->
  exists h' q', mutate eps l sv (fun ls => l :: ls) (upd_first eps) (h, q) = ((h', q'), Ok tt) /\
    heap_ext h h' /\ G h' q' /\
    sat n (S K) h' q' /\ s_dim q' = s_dim q /\ s_array q' = s_array q /\
    s_entries q' = l :: s_entries q.
Proof.
  intros HG Hd Ha HL HS Hl Hp. eapply mutate_sat with (f := fun ls => l :: ls); eauto.
  - intros ls x [->|H]; auto.
  - simpl. destruct HS as ((_ & ? & _) & _). lia.
  - intros c p u i Np Nu _ _ Lc. unfold upd_first.
    destruct (nearb_right eps eps0 b n c (gc b) _ _ p u Np Nu Lc) as (p' & E & N).
    exists p'. split; auto. eapply nearb_meq; [|exact N].
    cbn [gates map]. rewrite iordered_cons. reflexivity.
Qed.

Lemma append_last_sat n K l sv h q :
  G h q -> s_dim q = (2 ^ n)%nat -> s_array q = false -> lim n (uc * S K) -> sat n K h q ->
  (l < List.length h)%nat -> placement n (e_apply (obj h l)) ->
  exists h' q', mutate eps l sv (fun ls => ls ++ [l]) (upd_last eps) (h, q) = ((h', q'), Ok tt) /\
    heap_ext h h' /\ G h' q' /\
    sat n (S K) h' q' /\ s_dim q' = s_dim q /\ s_array q' = s_array q /\
    s_entries q' = s_entries q ++ [l].
Proof.
  intros HG Hd Ha HL HS Hl Hp. eapply mutate_sat with (f := fun ls => ls ++ [l]); eauto.
  - intros ls x H. apply in_app_or in H. destruct H as [H|[->|[]]]; auto.
  - rewrite app_length. simpl. destruct HS as ((_ & ? & _) & _). lia.
  - intros c p u i Np Nu _ _ Lc. unfold upd_last.
    destruct (nearb_left eps eps0 b n c (gc b) _ _ p u Np Nu Lc) as (p' & E & N).
    exists p'. split; auto. eapply nearb_meq; [|exact N].
    unfold gates. rewrite map_app. cbn [map]. rewrite iordered_snoc. reflexivity.
Qed.

Lemma remove_first_sat n K l t sv h q :
  G h q -> s_dim q = (2 ^ n)%nat -> s_array q = false -> lim n (uc * S K) -> sat n K h q ->
  s_entries q = l :: t ->
  exists h' q', mutate eps l sv (@tl nat) (upd_unfirst eps) (h, q) = ((h', q'), Ok tt) /\
    heap_ext h h' /\ G h' q' /\
    sat n (S K) h' q' /\ s_dim q' = s_dim q /\ s_array q' = s_array q /\
    s_entries q' = t.
Proof.
  intros HG Hd Ha HL HS El.
  assert (Hl : (l < List.length h)%nat) by (apply (proj1 (proj2 HG)); rewrite El; simpl; auto).
  assert (Hp : placement n (e_apply (obj h l))) by (apply HS; rewrite El; simpl; auto).
  destruct (mutate_sat n K l sv (@tl nat) (upd_unfirst eps) h q) as (h' & q' & H); auto.
  - intros ls x H. right. now apply in_tl.
  - rewrite El. simpl. destruct HS as ((_ & HS & _) & _). rewrite El in HS. simpl in HS. lia.
  - intros c p u i Np Nu Ei Ni Lc. unfold upd_unfirst. rewrite Ei. cbn [bind].
    destruct (nearb_right eps eps0 b n c (gc b) _ _ p i Np Ni Lc) as (p' & E & N).
    exists p'. split; auto. eapply nearb_meq; [|exact N].
    rewrite El. cbn [tl gates map]. rewrite iordered_cons. cbn [gate fst snd].
    rewrite <- mmul_assoc. rewrite unitary_right; [now rewrite mmul_1_r|].
    apply embed_gate_special; auto. apply HG.
  - exists h', q'. rewrite El in H. exact H.
Qed.

Lemma remove_last_sat n K l t sv h q :
  G h q -> s_dim q = (2 ^ n)%nat -> s_array q = false -> lim n (uc * S K) -> sat n K h q ->
  s_entries q = t ++ [l] ->
  exists h' q', mutate eps l sv (@removelast nat) (upd_unlast eps) (h, q) = ((h', q'), Ok tt) /\
    heap_ext h h' /\ G h' q' /\
    sat n (S K) h' q' /\ s_dim q' = s_dim q /\ s_array q' = s_array q /\
    s_entries q' = t.
Proof.
  intros HG Hd Ha HL HS El.
  assert (Hin : In l (s_entries q)) by (rewrite El; apply in_or_app; simpl; auto).
  assert (Hl : (l < List.length h)%nat) by (apply (proj1 (proj2 HG)); auto).
  assert (Hp : placement n (e_apply (obj h l))) by (apply HS; auto).
  assert (Er : removelast (s_entries q) = t) by (rewrite El; apply removelast_last).
  destruct (mutate_sat n K l sv (@removelast nat) (upd_unlast eps) h q) as (h' & q' & H); auto.
  - intros ls x H. right. now apply in_removelast.
  - rewrite Er. destruct HS as ((_ & HS & _) & _). rewrite El, app_length in HS. lia.
  - intros c p u i Np Nu Ei Ni Lc. unfold upd_unlast. rewrite Ei. cbn [bind].
    destruct (nearb_left eps eps0 b n c (gc b) _ _ p i Np Ni Lc) as (p' & E & N).
    exists p'. split; auto. eapply nearb_meq; [|exact N].
    rewrite Er, El. unfold gates. rewrite map_app. cbn [map]. rewrite iordered_snoc. cbn [gate fst snd].
    rewrite mmul_assoc. rewrite unitary_left; [now rewrite mmul_1_l|].
    apply embed_gate_special; auto. apply HG.
  - exists h', q'. rewrite Er in H. exact H.
Qed.

Lemma undo_sat n K h q : G h q -> sat n K h q ->
  exists q' r, undo (h, q) = ((h, q'), r) /\ G h q' /\ sat n K h q' /\ s_dim q' = s_dim q /\
    s_array q' = s_array q.
Proof.
  intros [Hok [R1 R2]] HS. unfold undo, se_bind, m_self, se_raise, m_upd. cbn [snd fst].
  destruct (s_prev_entries q) as [ls|] eqn:E.
  - eexists _, _. split; [reflexivity|]. split; [|split; [|auto]].
    + split; auto. split; [apply R2; auto|discriminate].
    + destruct HS as (P1 & P2 & P3 & P4). split; [apply (P2 ls E)|]. simpl. split; [discriminate|auto].
  - eexists _, _. split; [reflexivity|]. split; auto. split; auto. split; auto. rewrite E. auto.
Qed.

(** ** The world *)
Definition winv (K : nat) (w : world) : Prop :=
  WG w /\ forall t q n, nth_error (w_seqs w) t = Some q -> s_dim q = (2 ^ n)%nat ->
    lim n (uc * K) -> sat n K (w_heap w) q.

Definition keeps {A} (m : SE world A) : Prop :=
  forall w, List.length (w_seqs (fst (m w))) = List.length (w_seqs w).

Lemma keeps_bind {A B} (m : SE world A) (f : A -> SE world B) :
  keeps m -> (forall a, keeps (f a)) -> keeps (se_bind m f).
Proof.
  intros Hm Hf w. specialize (Hm w). unfold se_bind. destruct (m w) as [w1 [a|x]]; simpl in *; auto.
  now rewrite Hf.
Qed.
Lemma keeps_ret {A} (a : A) : keeps (se_ret a).
Proof. intros w. reflexivity. Qed.
Lemma keeps_lift {A} (r : res A) : keeps (se_lift r).
Proof. intros w. reflexivity. Qed.
Lemma keeps_raise {A} x : keeps (@se_raise world A x).
Proof. intros w. reflexivity. Qed.
Lemma keeps_get : keeps se_get.
Proof. intros w. reflexivity. Qed.
Lemma keeps_heap {A} (m : SE heap A) : keeps (on_heap m).
Proof. intros w. unfold on_heap. now destruct (m (w_heap w)). Qed.
Lemma keeps_seq {A} s (m : meth A) : keeps (on_seq s m).
Proof.
  intros w. unfold on_seq. destruct (nth_error (w_seqs w) s) as [q|]; auto.
  destruct (m (w_heap w, q)) as [[h' q'] r]. simpl. apply list_set_length.
Qed.
Lemma keeps_combine_loop ss : forall ls p, keeps (combine_loop eps ss ls p).
Proof.
  induction ss as [|s ss IH]; intros ls p; cbn [combine_loop]; [apply keeps_ret|].
  apply keeps_bind; [apply keeps_seq|intros ls'].
  apply keeps_bind; [apply keeps_seq|intros ps].
  apply keeps_bind; [apply keeps_lift|intros p']. apply IH.
Qed.
Lemma keeps_combine ss : keeps (combine eps ss).
Proof.
  unfold combine. apply keeps_bind; [apply keeps_get|]. intros w0.
  destruct ss as [|s0 ss]; [apply keeps_raise|].
  destruct (nth_error (w_seqs w0) s0) as [q0|]; [|apply keeps_raise].
  apply keeps_bind; [apply keeps_lift|intros _]. apply keeps_bind; [apply keeps_lift|intros p0].
  apply keeps_bind; [apply keeps_combine_loop|intros r].
  apply keeps_bind; [apply keeps_heap|intros q]. apply keeps_ret.
Qed.

Lemma winv_mono K K' w : (K <= K')%nat -> winv K w -> winv K' w.
Proof.
  intros H [W1 W2]. split; auto. intros t q n Ht Hd HL. apply sat_mono with (K := K); auto.
  apply (W2 t q n Ht Hd). eapply limb_mono; [exact eps0|exact eps1| |exact HL]. nia.
Qed.

Lemma wrel_sat K w w' t q q' n :
  winv K w -> wrel eps w w' -> nth_error (w_seqs w) t = Some q -> nth_error (w_seqs w') t = Some q' ->
  s_dim q' = (2 ^ n)%nat -> lim n (uc * K) -> sat n K (w_heap w') q'.
Proof.
  intros [W1 W2] (X & _ & S) Ht Ht' Hd HL. destruct (S t q Ht) as (q1 & Hq1 & Sq1).
  rewrite Hq1 in Ht'. injection Ht' as ->.
  assert (Hd' : s_dim q = (2 ^ n)%nat) by (destruct Sq1 as (E & _); congruence).
  eapply sat_same; eauto. eapply WG_G; eauto.
Qed.

Lemma winv_calm {A} P (m : SE world A) Q K w :
  calm eps Pg P m Q -> keeps m -> winv K w -> P w -> winv K (fst (m w)).
Proof.
  intros HC HK HW HP. destruct (HC w (proj1 HW) HP) as (W1 & R & _). split; auto.
  intros t q' n Ht Hd HL.
  destruct (nth_error (w_seqs w) t) as [q|] eqn:E.
  - eapply wrel_sat; eauto.
  - apply nth_error_None in E. rewrite <- (HK w) in E. apply nth_error_None in E. congruence.
Qed.

Lemma winv_add K K' q w :
  (K <= K')%nat -> winv K w -> seq_rng (w_heap w) q ->
  (forall n, s_dim q = (2 ^ n)%nat -> lim n (uc * K') -> sat n K' (w_heap w) q) ->
  winv K' (fst (add_seq q w)).
Proof.
  intros HK HW HR HS. apply (winv_mono K K') in HW; auto.
  destruct (calm_add eps Pg q w (proj1 HW) HR) as (W1 & _). split; auto.
  intros t p n Ht Hd HL. simpl in *.
  destruct (Nat.lt_ge_cases t (List.length (w_seqs w))) as [L|L].
  - rewrite nth_error_app1 in Ht by auto. destruct HW as [_ W2]. eauto.
  - rewrite nth_error_app2 in Ht by auto.
    destruct (t - List.length (w_seqs w))%nat as [|k]; simpl in Ht; [|destruct k; discriminate].
    injection Ht as <-. auto.
Qed.

Lemma winv_then_add P (m : SE world sequence) K K' w :
  calm eps Pg P m (fun q w => seq_rng (w_heap w) q) -> keeps m -> (K <= K')%nat -> winv K w -> P w ->
  (forall w1 q n, m w = (w1, Ok q) -> s_dim q = (2 ^ n)%nat -> lim n (uc * K') -> sat n K' (w_heap w1) q) ->
  winv K' (fst (se_bind m add_seq w)).
Proof.
  intros HC HK HKK HW HP HS. assert (W1 := winv_calm P m _ K w HC HK HW HP).
  destruct (HC w (proj1 HW) HP) as (_ & _ & Q1). unfold se_bind.
  destruct (m w) as [w1 [q|x]] eqn:E; simpl in W1.
  - specialize (Q1 q eq_refl). eapply winv_add; eauto.
  - eapply winv_mono; eauto.
Qed.

(** ** New sequences *)
Lemma new_sat n K d ia ls h h' q :
  heap_ok eps Pg h -> in_heap h ls -> new_sequence d ia ls h = (h', Ok q) -> d = (2 ^ n)%nat ->
  (List.length ls <= K)%nat -> sat n K h' q.
Proof.
  intros Hok R E Hd HK.
  destruct (new_sequence_spec eps Pg d ia ls h Hok R)
    as (h2 & r2 & E2 & X2 & K2 & [(V & ls' & -> & R2 & Eg & F2 & _ & El)|(V & -> & ->)]); rewrite E2 in E;
    [|discriminate].
  injection E as <- <-. split; [|split; [|split]]; simpl; try discriminate; auto.
  split; [|split; [lia|discriminate]]. intros l Hl.
  assert (Hg : In (gate (obj h2 l)) (gates h2 ls')) by (apply (in_map (fun l => gate (obj h2 l))); auto).
  rewrite Eg in Hg. apply in_map_iff in Hg. destruct Hg as (l0 & Eg0 & Hl0).
  assert (Ea : e_apply (obj h2 l) = e_apply (obj h l0)) by (injection Eg0; auto). rewrite Ea.
  destruct (Hok l0 (R l0 Hl0)) as [_ (_ & H1 & H2 & _)].
  apply entry_valid_placement; auto. rewrite forallb_forall in V. rewrite <- Hd. auto.
Qed.

Notation content := contents.

Lemma content_wrel w w' s q :
  WG w -> wrel eps w w' -> nth_error (w_seqs w) s = Some q -> content w' s = content w s.
Proof.
  intros HW (X & _ & S) Hq. destruct (S s q Hq) as (q' & Hq' & (_ & _ & E & _)).
  unfold contents. rewrite Hq, Hq', E. eapply gates_ext; eauto. exact (proj1 (proj2 HW s q Hq)).
Qed.

Lemma entries_step w s q :
  WG w -> nth_error (w_seqs w) s = Some q ->
  exists w' ls, on_seq s (q <-- m_self ;; m_heap (h_deepcopy (s_entries q))) w = (w', Ok ls) /\
    in_heap (w_heap w') ls /\ gates (w_heap w') ls = gates (w_heap w) (s_entries q) /\
    List.length ls = List.length (s_entries q) /\ renamed (s_entries q) ls.
Proof.
  intros HW Hq. assert (HG := WG_G eps Pg _ _ _ HW Hq).
  destruct (deepcopy (w_heap w) (s_entries q)) as [h' ls] eqn:E.
  destruct (deepcopy_frame eps Pg _ _ h' ls (proj1 (proj2 HG)) E) as (E1 & E2 & E3 & E4 & _ & E6 & E5).
  unfold on_seq. rewrite Hq. unfold se_bind, m_self, m_heap, h_deepcopy. cbn [fst snd]. rewrite E.
  eexists _, _. split; [reflexivity|]. auto.
Qed.

Lemma product_step w s q :
  WG w -> nth_error (w_seqs w) s = Some q ->
  exists w', on_seq s (product eps) w = (w', reported eps (w_heap w) q).
Proof.
  intros HW Hq. unfold on_seq. rewrite Hq.
  destruct (product_same eps Pg _ _ (WG_G eps Pg _ _ _ HW Hq)) as (h' & s' & r & E & _ & _ & _ & _ & ->).
  rewrite E. eexists; reflexivity.
Qed.

Lemma combine_loop_sat n K ss : forall ls p c P w,
  winv K w -> lim n (uc * K) -> lim n (c + List.length ss * S (uc * K)) ->
  (forall s, In s ss -> exists q, nth_error (w_seqs w) s = Some q /\ s_dim q = (2 ^ n)%nat) ->
  in_heap (w_heap w) ls -> near n c P p ->
  exists w' ls' p', combine_loop eps ss ls p w = (w', Ok (ls', p')) /\
    winv K w' /\ wrel eps w w' /\ in_heap (w_heap w') ls' /\
    gates (w_heap w') ls' = gates (w_heap w) ls ++ List.concat (map (content w) ss) /\
    (List.length ls' <= List.length ls + List.length ss * K)%nat /\
    near n (c + List.length ss * S (uc * K))
      (mmul (2 ^ n) (iordered eps n (List.concat (map (content w) ss))) P) p'.
Proof.
  induction ss as [|s ss IH]; intros ls p c P w HW HL1 HL Hss HR HN.
  - exists w, ls, p. cbn [combine_loop map List.concat List.length]. split; [reflexivity|]. split; auto.
    split; [apply wrel_refl|]. split; auto. rewrite app_nil_r. split; auto. split; [lia|].
    rewrite Nat.mul_0_l, Nat.add_0_r. eapply nearb_meq; [|exact HN]. rewrite iordered_nil. now rewrite mmul_1_l.
  - cbn [combine_loop]. destruct (Hss s) as (q & Hq & Hd); [simpl; auto|].
    destruct (entries_step w s q (proj1 HW) Hq) as (w1 & l1 & E1 & R1 & G1 & N1 & _).
    assert (C1 := calm_entries eps Pg (fun _ => True) s).
    assert (W1 := winv_calm _ _ _ K w C1 (keeps_seq s _) HW I). destruct (C1 w (proj1 HW) I) as (_ & S1 & _).
    unfold se_bind at 1. rewrite E1 in *. cbn [fst] in W1, S1.
    assert (S1' := S1). destruct S1' as (X1 & _ & S1'). destruct (S1' s q Hq) as (q1 & Hq1 & Sq1).
    assert (Hd1 : s_dim q1 = (2 ^ n)%nat) by (destruct Sq1 as (? & _); congruence).
    destruct (product_step w1 s q1 (proj1 W1) Hq1) as (w2 & E2).
    assert (C2 := calm_product eps Pg (fun _ => True) s). assert (K2 := keeps_seq s (product eps)).
    assert (W2 := winv_calm _ _ _ K w1 C2 K2 W1 I). destruct (C2 w1 (proj1 W1) I) as (_ & S2 & _).
    unfold se_bind at 1. rewrite E2 in *. cbn [fst] in W2, S2.
    destruct (reported_near n K (w_heap w1) q1) as (ps & Eps & Nps); auto.
    { eapply WG_G; eauto. apply W1. } { eapply (proj2 W1); eauto. }
    rewrite Eps.
    destruct (nearb_left eps eps0 b n c (uc * K) _ _ p ps HN Nps) as (p' & Ep' & Np').
    { eapply limb_mono; [exact eps0|exact eps1| |exact HL]. cbn [List.length]. lia. }
    unfold se_bind at 1, se_lift. rewrite Ep'.
    assert (S12 : wrel eps w w2) by exact (wrel_trans eps Pg w w1 w2 S1 S2).
    assert (X2 : heap_ext (w_heap w1) (w_heap w2)) by apply S2.
    assert (X12 : heap_ext (w_heap w) (w_heap w2)) by (eapply heap_ext_trans; eauto).
    assert (Ess : forall s', In s' ss -> content w2 s' = content w s').
    { intros s' Hs'. destruct (Hss s') as (q' & Hq' & _); [simpl; auto|].
      eapply content_wrel; eauto. apply HW. }
    destruct (IH (ls ++ l1) p' (S (c + uc * K))%nat
      (mmul (2 ^ n) (iordered eps n (gates (w_heap w1) (s_entries q1))) P) w2 W2 HL1) as (w3 & ls3 & p3 & E3 & W3 & S3 & R3 & G3 & L3 & N3).
    { eapply limb_mono; [exact eps0|exact eps1| |exact HL]. cbn [List.length]. lia. }
    { intros s' Hs'. destruct (Hss s') as (q' & Hq' & Hd'); [simpl; auto|].
      destruct S12 as (_ & _ & S12). destruct (S12 s' q' Hq') as (q2 & Hq2 & (D2 & _)).
      exists q2. split; auto. congruence. }
    { apply in_heap_app. split; [exact (in_heap_ext _ _ _ X12 HR)|exact (in_heap_ext _ _ _ X2 R1)]. }
    { exact Np'. }
    exists w3, ls3, p3. split; [exact E3|]. split; auto. split; [exact (wrel_trans eps Pg w w2 w3 S12 S3)|]. split; auto.
    assert (Em : map (content w2) ss = map (content w) ss) by (apply map_ext_in; auto).
    assert (Ec : content w s = gates (w_heap w) (s_entries q)) by (unfold contents; now rewrite Hq).
    assert (E1q : gates (w_heap w1) (s_entries q1) = gates (w_heap w) (s_entries q)).
    { destruct Sq1 as (_ & _ & -> & _). eapply gates_ext; eauto. exact (proj1 (proj2 (proj1 HW) s q Hq)). }
    assert (Ln1 : (List.length l1 <= K)%nat).
    { rewrite N1. destruct (proj2 HW s q n Hq Hd HL1) as ((_ & ? & _) & _). auto. }
    cbn [map List.concat List.length]. rewrite Ec. rewrite Em in *. split; [|split].
    + rewrite G3. unfold gates at 1. rewrite map_app. rewrite <- app_assoc. f_equal; [|f_equal].
      * eapply gates_ext; eauto.
      * change (map (fun l => gate (obj (w_heap w2) l)) l1) with (gates (w_heap w2) l1).
        rewrite <- G1. eapply gates_ext; eauto.
    + rewrite app_length in L3. lia.
    + eapply nearb_mono; [exact eps0| |eapply nearb_meq; [|exact N3]].
      * lia.
      * rewrite iordered_app, E1q. now rewrite mmul_assoc.
Qed.

Lemma combine_sat n K ss w q0 s0 st :
  winv K w -> ss = s0 :: st -> nth_error (w_seqs w) s0 = Some q0 -> s_dim q0 = (2 ^ n)%nat ->
  lim n (uc * (List.length ss * S K)) ->
  (forall s, In s ss -> exists q, nth_error (w_seqs w) s = Some q /\ s_dim q = (2 ^ n)%nat) ->
  exists w' q, combine eps ss w = (w', Ok q) /\ winv K w' /\ wrel eps w w' /\
    s_dim q = (2 ^ n)%nat /\ s_array q = false /\
    gates (w_heap w') (s_entries q) = List.concat (map (content w) ss) /\
    sat n (List.length ss * S K) (w_heap w') q /\
    (forall l, In l (s_entries q) -> (List.length (w_heap w) <= l)%nat).
Proof.
  intros HW Ess Hq0 Hd0 HL Hss.
  assert (LK : (List.length ss * S (uc * K) <= uc * (List.length ss * S K))%nat).
  { pose proof (uc_S K). nia. }
  destruct (nearb_id eps eps1 b n (Some "I"%string) [] false []) as (p0 & E0 & N0).
  destruct (combine_loop_sat n K ss [] p0 0 mid w HW) as (w1 & ls & p & E1 & W1 & S1 & R1 & G1 & L1 & N1); auto.
  { eapply limb_mono; [exact eps0|exact eps1| |exact HL]. rewrite Ess. cbn [List.length]. nia. }
  { eapply limb_mono; [exact eps0|exact eps1| |exact HL]. lia. }
  { apply in_heap_nil. }
  cbn [gates map app] in G1. cbn [List.length] in L1.
  destruct (new_sequence_spec eps Pg (2 ^ n) false ls (w_heap w1) (proj1 (proj1 W1)) R1)
    as (h2 & r2 & E2 & X2 & K2 & HH).
  assert (V : forallb (fun l => entry_valid (2 ^ n) (obj (w_heap w1) l)) ls = true).
  { apply forallb_forall. intros l Hl.
    destruct (proj1 (proj1 W1) l (R1 l Hl)) as [_ (_ & _ & _ & H4 & _)]. cbn [gate fst snd] in H4.
    apply placement_entry_valid; [|exact H4].
    assert (Hg : In (gate (obj (w_heap w1) l)) (gates (w_heap w1) ls))
      by (apply (in_map (fun l => gate (obj (w_heap w1) l))); auto).
    rewrite G1 in Hg. apply in_concat in Hg. destruct Hg as (gs & Hgs & Hg).
    apply in_map_iff in Hgs. destruct Hgs as (s & <- & Hs). destruct (Hss s Hs) as (q & Hq & Hd).
    unfold contents in Hg. rewrite Hq in Hg.
    assert (HS : sat n K (w_heap w) q).
    { apply (proj2 HW s q n Hq Hd). eapply limb_mono; [exact eps0|exact eps1| |exact HL].
      rewrite Ess. cbn [List.length]. nia. }
    destruct (part_gates n K _ _ _ (proj1 (proj1 HW)) (proj1 (proj2 (proj1 HW) s q Hq)) (proj1 HS) _ Hg) as [_ H].
    exact H. }
  destruct HH as [(_ & ls' & -> & R2 & G2 & F2 & _ & N2)|(V' & _)]; [|congruence].
  set (q := set_product {| s_dim := (2 ^ n)%nat; s_array := false; s_entries := ls'; s_product := None;
                           s_prev_entries := None; s_prev_product := None |} (Some p)).
  assert (E : combine eps ss w = ({| w_heap := h2; w_seqs := w_seqs w1 |}, Ok q)).
  { unfold combine. unfold se_bind at 1, se_get. clear V LK. subst ss. rewrite Hq0.
    unfold se_bind at 1, se_assert, se_lift at 1, assert.
    replace (forallb _ (s0 :: st)) with true.
    2:{ symmetry. apply forallb_forall. intros s Hs. destruct (Hss s Hs) as (q' & -> & Hd).
        apply Nat.eqb_eq. congruence. }
    unfold se_bind at 1, se_lift at 1. rewrite Hd0. unfold u_identity. rewrite E0.
    unfold se_bind at 1. rewrite E1. unfold se_bind at 1, on_heap. cbn [fst]. rewrite E2. reflexivity. }
  assert (W' := winv_calm _ _ _ K w (calm_combine eps Pg (fun _ => True) ss) (keeps_combine ss) HW I).
  destruct (calm_combine eps Pg (fun _ => True) ss w (proj1 HW) I) as (_ & S' & _).
  rewrite E in W', S'. cbn [fst] in W', S'.
  eexists _, _. split; [exact E|]. split; auto. split; auto. split; [reflexivity|]. split; [reflexivity|].
  cbn [w_heap]. split; [cbn [q set_product s_entries]; congruence|]. split.
  - split; [|split; [discriminate|split; [auto|discriminate]]].
    split; [|split].
    + intros l Hl.
      assert (HS := new_sat n (List.length ls) (2 ^ n) false ls (w_heap w1) h2 _ (proj1 (proj1 W1)) R1 E2 eq_refl (Nat.le_refl _)).
      apply HS. exact Hl.
    + cbn [q set_product s_entries]. rewrite N2. nia.
    + intros p' [= <-]. cbn [q set_product s_entries]. rewrite G2, G1.
      eapply nearb_mono; [exact eps0| |eapply nearb_meq; [|exact N1]]; [lia|].
      now rewrite mmul_1_r.
  - intros l Hl. apply F2 in Hl. destruct S1 as [[S1 _] _]. lia.
Qed.

(** ** inverse() *)
Definition inv_gate (g g' : unitary * list nat) : Prop :=
  snd g' = snd g /\ Pg g' /\ u_dim (fst g') = u_dim (fst g) /\
  meq (u_dim (fst g)) (u_mat (fst g')) (adj (u_mat (fst g))).

(** The gate of an object that occurs [m] times in the list. *)
Definition inv_times (m : nat) (g g' : unitary * list nat) : Prop :=
  snd g' = snd g /\ Pg g' /\ u_dim (fst g') = u_dim (fst g) /\
  meq (u_dim (fst g)) (u_mat (fst g')) (if Nat.odd m then adj (u_mat (fst g)) else u_mat (fst g)).

Lemma gok_inverse : b = true -> forall u v qs, Pg (u, qs) -> u_inverse eps u = Ok v ->
  Pg (v, qs) /\ u_dim v = u_dim u /\ meq (u_dim u) (u_mat v) (adj (u_mat u)).
Proof.
  intros Hb u v qs (_ & H1 & H2 & H3 & Hc) E. cbn [fst snd] in *. destruct (Hc Hb) as [Hw Hc'].
  destruct (u_inverse_ok eps u Hw Hc') as (v' & E' & Hd & _ & _ & _ & _ & M).
  rewrite E in E'. injection E' as <-. split; auto.
  assert (Wv : wf v) by (split; [rewrite Hd; apply Hw|]; rewrite Hd, M; apply special_adj, Hw).
  split; cbn [fst snd].
  - now apply wf_rough.
  - rewrite Hd. split; auto. split; auto. split; auto. intros _. split; auto.
    apply (eps_clean_proper eps (u_dim u) _ _ M). now apply eps_clean_adj.
Qed.

Lemma Pinv_true : b = true -> Pinv eps Pg.
Proof. intros Hb u v qs Hu E. now apply (gok_inverse Hb u v qs). Qed.

Lemma invert_loop_spec : b = true -> forall ls h,
  in_heap h ls -> heap_ok eps Pg h ->
  exists h', invert_loop eps ls h = (h', Ok tt) /\ heap_ok eps Pg h' /\
    List.length h' = List.length h /\
    (forall l, (l < List.length h)%nat ->
       inv_times (count_occ Nat.eq_dec ls l) (gate (obj h l)) (gate (obj h' l))) /\
    (forall l, ~ In l ls -> obj h' l = obj h l).
Proof.
  intros Hb. induction ls as [|l ls IH]; intros h Hr Hok.
  - exists h. split; [reflexivity|]. split; auto. split; auto. split; [|auto].
    intros l Hl. split; [reflexivity|]. split; [apply Hok; auto|]. split; reflexivity.
  - apply in_heap_cons in Hr. destruct Hr as [Hl Hr].
    cbn [invert_loop]. unfold se_bind at 1, se_get. unfold se_bind at 1, se_lift.
    destruct (Hok l Hl) as [Hca Hg].
    destruct (u_inverse_ok eps (e_unitary (obj h l))) as (ui & Eu & _); [now apply Hg|now apply Hg|].
    rewrite Eu. unfold se_bind at 1, se_put.
    set (e := {| e_unitary := ui; e_apply := e_apply (obj h l); e_cache := [] |}).
    destruct (IH (list_set h l e)) as (h' & E & K & Ln & I1 & I2); auto.
    + intros x Hx. rewrite list_set_length. auto.
    + intros k Hk. rewrite list_set_length in Hk. rewrite obj_set by auto.
      destruct (Nat.eqb l k); auto. split; [intros d u; discriminate|].
      apply (gok_inverse Hb (e_unitary (obj h l)) ui); auto.
    + exists h'. split; auto. split; auto. rewrite list_set_length in Ln. split; auto. split.
      * intros x Hx. assert (J := I1 x ltac:(rewrite list_set_length; exact Hx)). rewrite obj_set in J by auto.
        cbn [count_occ]. destruct (Nat.eqb_spec l x) as [<-|N].
        -- destruct (Nat.eq_dec l l) as [_|]; [|congruence].
           destruct (gok_inverse Hb _ _ _ Hg Eu) as (_ & Du & Mu).
           destruct J as (J1 & J2 & J3 & J4). subst e. cbn [gate fst snd e_unitary e_apply] in J1, J2, J3, J4 |- *.
           split; [exact J1|]. split; [exact J2|]. cbn [gate fst snd]. split; [congruence|].
           rewrite Du in J4. rewrite J4, Nat.odd_succ, <- Nat.negb_odd.
           destruct (Nat.odd (count_occ Nat.eq_dec ls l)); cbn [negb]; [|exact Mu].
           rewrite Mu. now rewrite adj_adj.
        -- destruct (Nat.eq_dec l x); [congruence|exact J].
      * intros x Hx. simpl in Hx. rewrite I2 by tauto. rewrite obj_set by auto.
        destruct (Nat.eqb_spec l x) as [<-|]; [tauto|auto].
Qed.

Lemma ordered_inverse : b = true -> forall n gs gs',
  (forall g, In g gs -> Pg g /\ placement n (snd g)) ->
  Forall2 inv_gate gs gs' ->
  meq (2 ^ n) (ordered n (rev gs')) (adj (ordered n gs)).
Proof.
  intros Hb n gs gs' HP HF. revert HP. induction HF as [|g g' gs gs' Hg HF IH]; intros HP.
  - cbn [rev]. rewrite ordered_nil. now rewrite adj_mid.
  - cbn [rev]. rewrite ordered_snoc, ordered_cons, adj_mmul. rewrite IH by (intros; apply HP; simpl; auto).
    destruct (HP g) as [Hgg Hgp]; [simpl; auto|]. destruct Hg as [Ha Hi].
    destruct g as [u qs], g' as [v qs']; cbn [fst snd] in *. subst qs'. destruct Hi as (_ & _ & M).
    rewrite embed_adj by auto. apply mmul_proper; [|reflexivity].
    apply embed_proper; auto. destruct Hgg as (_ & _ & _ & Hd & _). cbn [fst snd] in Hd. now rewrite Hd.
Qed.

Lemma iordered_inverse : b = true -> forall n gs gs',
  (forall g, In g gs -> Pg g /\ placement n (snd g)) ->
  Forall2 inv_gate gs gs' ->
  meq (2 ^ n) (iordered eps n (rev gs')) (adj (iordered eps n gs)).
Proof.
  intros Hb n gs gs' HP HF. rewrite !iordered_wf; auto.
  - now apply ordered_inverse.
  - intros g Hg. now apply HP.
  - intros g Hg. apply in_rev in Hg. revert g Hg. revert HP.
    induction HF as [|g g' gs gs' [Ha Hi] HF IH]; intros HP g0 Hg0; [destruct Hg0|].
    destruct Hg0 as [<-|Hg0]; [|apply IH; auto; intros; apply HP; simpl; auto].
    apply Hi. auto.
Qed.

Lemma inverse_sat n K h q : b = true ->
  G h q -> s_dim q = (2 ^ n)%nat -> s_array q = false ->
  (forall l, In l (s_entries q) -> Nat.odd (count_occ Nat.eq_dec (s_entries q) l) = true) ->
  lim n (uc * S K) -> sat n K h q ->
  exists h' q' i, inverse eps (h, q) = ((h', q'), Ok i) /\ s_dim i = (2 ^ n)%nat /\ s_array i = false /\
    sat n (S K) h' i /\
    Forall2 inv_gate (rev (gates h (s_entries q))) (gates h' (s_entries i)) /\
    (forall l, In l (s_entries i) -> (List.length h <= l)%nat).
Proof.
  intros Hb HG Hd Ar Hnd HL HS.
  assert (HL1 : lim n (uc * K)) by (eapply limb_mono; [exact eps0|exact eps1| |exact HL]; nia).
  unfold inverse. unfold se_bind at 1. cbn [m_self snd].
  unfold se_bind at 1. unfold m_heap, h_deepcopy. cbn [fst snd].
  destruct (deepcopy h (s_entries q)) as [h1 ls] eqn:E1.
  destruct (deepcopy_frame eps Pg _ _ h1 ls (proj1 (proj2 HG)) E1) as (X1 & K1 & R1 & G1 & F1 & D1 & L1).
  specialize (K1 (proj1 HG)).
  assert (Gq := part_gates n K h _ _ (proj1 HG) (proj1 (proj2 HG)) (proj1 HS)).
  unfold se_bind at 1. cbn [fst snd].
  destruct (new_sequence_spec eps Pg (s_dim q) (s_array q) ls h1 K1 R1)
    as (h2 & r2 & E2 & X2 & K2 & HH).
  assert (V : forallb (fun l => entry_valid (s_dim q) (obj h1 l)) ls = true).
  { apply forallb_forall. intros l Hl.
    assert (Hg : In (gate (obj h1 l)) (gates h1 ls)) by (apply (in_map (fun l => gate (obj h1 l))); auto).
    rewrite G1 in Hg. apply Gq in Hg. destruct Hg as [(_ & _ & _ & H4 & _) Hp].
    rewrite Hd. now apply placement_entry_valid. }
  destruct HH as [(_ & ls' & -> & R2 & G2 & F2 & D2 & L2)|(V' & _)]; [|congruence].
  assert (Od : forall l, In l ls' -> Nat.odd (count_occ Nat.eq_dec (rev ls') l) = true).
  { intros l Hl. rewrite count_occ_rev. destruct (renamed_trans _ _ _ D1 D2) as (g & -> & Hg).
    apply in_map_iff in Hl. destruct Hl as (x & <- & Hx). rewrite count_renamed; auto. }
  rewrite E2. cbn [s_array]. rewrite Ar. cbn [s_entries set_entries]. unfold se_bind at 1. cbn [fst snd].
  destruct (invert_loop_spec Hb (rev ls') h2) as (h3 & E3 & K3 & N3 & I3 & F3); auto.
  { intros l Hl. apply in_rev in Hl. auto. }
  rewrite E3.
  assert (X03 : heap_ext h h3).
  { split; [destruct X1, X2; lia|]. intros l Hl. rewrite F3.
    - apply (heap_ext_trans _ _ _ X1 X2); auto.
    - intros Hin. apply in_rev in Hin. apply F2 in Hin. destruct X1; lia. }
  assert (HR3 := seq_rng_ext _ _ _ X03 (proj2 HG)).
  assert (HS3 := sat_ext n K h h3 q X03 (proj2 HG) HS).
  unfold se_bind at 1.
  destruct (product_spec eps Pg h3 q (conj K3 HR3)) as (h4 & E4 & X4 & K4 & _).
  rewrite E4. destruct (reported_near n K h3 q (conj K3 HR3) Hd HL1 HS3) as (p & Ep & Np).
  rewrite Ep. destruct (nearb_inverse eps eps0 b n (uc * K) _ p Np) as (pi & Epi & Npi).
  { eapply limb_mono; [exact eps0|exact eps1| |exact HL]. apply uc_S. }
  unfold se_bind, se_lift. rewrite Epi. eexists _, _, _. split; [reflexivity|].
  cbn [set_product set_entries s_dim s_array s_entries].
  assert (G3 : Forall2 inv_gate (gates h (s_entries q)) (gates h3 ls')).
  { rewrite <- G1, <- G2. unfold gates. apply Forall2_map_same. intros l Hl.
    assert (J := I3 l (R2 l Hl)). unfold inv_times in J. rewrite (Od l Hl) in J. exact J. }
  assert (R3 : in_heap h3 (rev ls')) by (intros l Hl; apply in_rev in Hl; apply R2 in Hl; lia).
  assert (G4 : gates h4 (rev ls') = rev (gates h3 ls')).
  { rewrite (gates_ext h3 h4) by auto. unfold gates. apply map_rev. }
  split; [auto|]. split; [auto|]. split; [|split].
  - split; [|split; [discriminate|split; [auto|discriminate]]]. split; [|split].
    + intros l Hl. cbn in Hl. assert (Hl' := R3 l Hl). rewrite (ext_apply h3 h4) by auto. apply in_rev in Hl.
      destruct (I3 l (R2 l Hl)) as [Ia _]. cbn [gate snd] in Ia. rewrite Ia.
      assert (Hg : In (gate (obj h2 l)) (gates h2 ls')) by (apply (in_map (fun l => gate (obj h2 l))); auto).
      rewrite G2, G1 in Hg. now apply Gq in Hg.
    + cbn [set_product set_entries s_entries]. rewrite rev_length. rewrite L2, L1. destruct HS as ((_ & ? & _) & _). lia.
    + intros p' [= <-]. cbn [set_product set_entries s_entries]. rewrite G4.
      eapply nearb_mono; [exact eps0| |eapply nearb_meq; [|exact Npi]].
      * apply uc_S.
      * symmetry. apply iordered_inverse; auto.
        { rewrite (gates_ext h h3 _ X03 (proj1 (proj2 HG))). auto. }
        rewrite (gates_ext h h3 _ X03 (proj1 (proj2 HG))). auto.
  - rewrite G4. apply Forall2_rev. exact G3.
  - intros l Hl. apply in_rev in Hl. apply F2 in Hl. destruct X1. lia.
Qed.
End Inv.
