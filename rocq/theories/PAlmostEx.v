(** Cases for the chance of success. *)
From Coq Require Import Reals List Arith Lia Lra Bool ZArith String Permutation.
From Coquelicot Require Import Coquelicot.
From Verif Require Import Base CMat CMatFacts Det DetFacts Norms ModelUnitary ModelEntry ModelPrimitive
  ModelSequence ModelCompiler Spec SpecModel SpecCompiler PUnitary PUnitaryProps PEmbed PEntry PSeqHeap PSeqMeth PSeqNear PSeqWorld
  PSeqUndo PSeqInv PSeqHist PSeqProps PSeqCases PCompView PCompRun PCompEntry PCompLoop PCompTrace PCompTotal PCompProps PCompMore
  PCompCases PCompEx PReach PVerify SpecChain PChain PChainStep PChainRun PChainBal PChainHit PChainLay PRecur PAlmost PAlmostComp PAlmostRun.
Import ListNotations.
Open Scope R_scope.
Set Bullet Behavior "Strict Subproofs".

Lemma one_offer u ap rate F : u_dim u = 2%nat ->
  offer_mean 1 (c_prims (one_compiler u ap rate)) (c_probs (one_compiler u ap rate)) F = F (u, [0%nat]).
Proof.
  intros D. unfold offer_mean, gate_mean, meanl. cbn -[INR Nat.log2]. unfold places. cbn -[INR Nat.log2].
  rewrite D. change (Nat.log2 2) with 1%nat. cbn -[INR]. simpl INR. field.
Qed.
Lemma one_chance u ap rate g : u_dim u = 2%nat -> gate_chance 1 (one_compiler u ap rate) g = ind ((u, [0%nat]) = g).
Proof. intros D. unfold gate_chance. now rewrite one_offer. Qed.
Lemma one_ordered u : meq 2 (u_mat u) rot345 -> meq 2 (ordered 1 [(u, [0%nat])]) rot345.
Proof. intros M. unfold ordered. cbn [fold_left fst snd]. change (2 ^ 1)%nat with 2%nat. now rewrite mmul_1_r, embed_one. Qed.
Lemma tol8 : 0 < tolerance None < 1 / 10.
Proof. unfold tolerance. split; [apply Rinv_0_lt_compat, pow_lt; lra|]. lra. Qed.
Lemma overlap_345 A : meq 2 A rot345 -> overlap 2 A mid = 3 / 5.
Proof.
  intros H. rewrite (overlap_proper 2 A rot345 H mid mid ltac:(reflexivity)). unfold overlap. cbn -[Rdiv].
  replace (_ + _)%C with (RtoC (6 / 5)) by (apply C_eq; simpl; field). rewrite Cmod_R, Rabs_pos_eq by lra. field.
Qed.
Lemma overlap_345_self A B : meq 2 A rot345 -> meq 2 B rot345 -> overlap 2 A B = 1.
Proof.
  intros H K. rewrite (overlap_proper 2 A rot345 H B rot345 K). unfold overlap. cbn -[Rdiv].
  replace (_ + _)%C with (RtoC 2) by (apply C_eq; simpl; field). rewrite Cmod_R, Rabs_pos_eq by lra. field.
Qed.

Lemma ex_C96_found_lemma : exists c target gts,
  good_compiler 0 1 c /\ c_array c = false /\ fixed_gates c /\ 0 < c_append c /\ built 0 target /\ u_dim target = (2 ^ 1)%nat /\
  0 <= c_rate c /\ 0 <= c_max_beta c /\ (forall g, In g gts -> 0 < gate_chance 1 c g) /\
  cost_of 1 target gts < tolerance None /\ tolerance None < cost_of 1 target [].
Proof.
  destruct (rot345_built 0 ltac:(lra)) as (u & B & D & Mu & _). assert (T := tol8).
  exists (one_compiler u (1 / 2) 16), u, [(u, [0%nat])].
  split; [apply one_good; auto; lra|]. split; [reflexivity|]. split; [apply one_fixed|]. split; [cbn; lra|]. split; [exact B|]. split; [exact D|].
  split; [cbn; lra|]. split; [cbn; lra|]. split.
  - intros g [<-|[]]. rewrite one_chance, ind_true by auto. lra.
  - unfold cost_of. change (2 ^ 1)%nat with 2%nat. rewrite overlap_345_self by (auto; now apply one_ordered).
    change (ordered 1 []) with mid. rewrite overlap_345 by auto. lra.
Qed.

(** A gate whose powers never give its inverse; the inverse is found within every tolerance. *)
Lemma overlap_345_adj : overlap 2 (adj rot345) rot345 = 7 / 25.
Proof.
  unfold overlap. cbn -[Rdiv]. replace (_ + _)%C with (RtoC (- (14 / 25))) by (apply C_eq; simpl; field).
  rewrite Cmod_R, Rabs_Ropp, Rabs_pos_eq by lra. field.
Qed.
Lemma ex_C96_inverse_lemma : exists c target gts,
  good_compiler 0 1 c /\ c_array c = false /\ fixed_gates c /\ 0 < c_append c /\ built 0 target /\ u_dim target = (2 ^ 1)%nat /\
  0 <= c_rate c /\ 0 <= c_max_beta c /\ (forall g, In g gts -> 0 < gate_chance 1 c g) /\
  overlap 2 (u_mat target) (adj (ordered 1 gts)) = 1 /\
  tolerance None < cost_of 1 target [] /\ tolerance None < cost_of 1 target gts.
Proof.
  destruct (rot345_built 0 ltac:(lra)) as (u & B & D & Mu & _). assert (T := tol8).
  assert (SP : special 2 (adj rot345)) by apply special_adj, rot345_special.
  assert (CL : eps_clean 0 2 (adj rot345)) by (apply eps_clean_adj, rot345_clean; lra).
  destruct (mk_special 0 2 (adj rot345) (Some "T"%string) [] false [] ltac:(lia) SP CL) as (t & Et & Dt & _ & _ & _ & _ & Mt).
  assert (Bt : built 0 t).
  { exists 2%nat, (adj rot345), (Some "T"%string), [], false, []. split; [apply SP|]. split; [exact CL|exact Et]. }
  exists (one_compiler u (1 / 2) 16), t, [(u, [0%nat])].
  split; [apply one_good; auto; lra|]. split; [reflexivity|]. split; [apply one_fixed|]. split; [cbn; lra|]. split; [exact Bt|]. split; [exact Dt|].
  split; [cbn; lra|]. split; [cbn; lra|]. split; [|split; [|split]].
  - intros g [<-|[]]. rewrite one_chance, ind_true by auto. lra.
  - assert (E : meq 2 (adj (ordered 1 [(u, [0%nat])])) (adj rot345)) by now rewrite one_ordered.
    rewrite (overlap_proper 2 _ _ Mt _ _ E). unfold overlap. cbn -[Rdiv].
    replace (_ + _)%C with (RtoC 2) by (apply C_eq; simpl; field). rewrite Cmod_R, Rabs_pos_eq by lra. field.
  - unfold cost_of. change (2 ^ 1)%nat with 2%nat. change (ordered 1 []) with mid. rewrite (overlap_proper 2 _ _ Mt mid mid ltac:(reflexivity)).
    unfold overlap. cbn -[Rdiv tolerance]. replace (_ + _)%C with (RtoC (6 / 5)) by (apply C_eq; simpl; field). rewrite Cmod_R, Rabs_pos_eq by lra. lra.
  - unfold cost_of. change (2 ^ 1)%nat with 2%nat. rewrite (overlap_proper 2 _ _ Mt _ _ (one_ordered u Mu)), overlap_345_adj. lra.
Qed.

(** Rotations about one axis do not come near the matrix of another. *)
Definition turn : mat := mat22 Ci (RtoC 0) (RtoC 0) (- Ci)%C.
Lemma turn_special : special 2 turn.
Proof.
  split; [mat2; unfold mmul, adj, turn, mat22; cbn -[Rdiv RtoC Cconj]; apply C_eq; simpl; ring|].
  rewrite det_2. unfold turn, mat22. apply C_eq; simpl; ring.
Qed.
Lemma turn_clean : eps_clean 0 2 turn.
Proof.
  mat2; unfold turn, mat22; simpl; split; auto; intros H; revert H; unfold Rabs; destruct (Rcase_abs _); intros; try lra.
Qed.
Definition plane (M : mat) : Prop := M 0%nat 0%nat = M 1%nat 1%nat /\ M 1%nat 0%nat = (- M 0%nat 1%nat)%C.
Lemma plane_meq A B : meq 2 A B -> plane A -> plane B.
Proof. intros H [P Q]. split; rewrite <- !H by lia; auto. Qed.
Lemma plane_mmul A B : plane A -> plane B -> plane (mmul 2 A B).
Proof. intros [P Q] [P' Q']. split; unfold mmul; cbn; rewrite P, P', Q, Q'; ring. Qed.
Lemma plane_ordered u gs : meq 2 (u_mat u) rot345 -> (forall g, In g gs -> g = (u, [0%nat])) -> plane (ordered 1 gs).
Proof.
  intros M. induction gs as [|g gs IH]; intros H.
  - split; unfold ordered, mid; cbn; apply C_eq; simpl; ring.
  - eapply plane_meq; [symmetry; apply (ordered_cons 1)|]. change (2 ^ 1)%nat with 2%nat. apply plane_mmul; [apply IH; intros; apply H; now right|].
    rewrite (H g) by now left. cbn [fst snd]. eapply plane_meq; [symmetry; rewrite embed_one; exact M|].
    split; unfold rot345, mat22; cbn -[Rdiv RtoC]; apply C_eq; simpl; field.
Qed.
Lemma overlap_turn A M : meq 2 A turn -> plane M -> overlap 2 A M = 0.
Proof.
  intros H [P Q]. rewrite (overlap_proper 2 _ _ H M M ltac:(reflexivity)). unfold overlap. cbn -[Rdiv]. rewrite P.
  match goal with |- Cmod ?z / _ = 0 => replace z with (RtoC 0) end.
  - rewrite Cmod_0. field.
  - destruct (M 1%nat 1%nat), (M 0%nat 1%nat). apply C_eq; simpl; ring.
Qed.
Lemma ex_C96_hopeless_lemma : exists st c target,
  exact_world (r_world st) /\ good_compiler 0 1 c /\ c_array c = false /\ fixed_gates c /\ built 0 target /\ u_dim target = (2 ^ 1)%nat /\
  (exists g, 0 < gate_chance 1 c g) /\
  forall gts, (forall g, In g gts -> 0 < gate_chance 1 c g) -> tolerance None < cost_of 1 target gts.
Proof.
  destruct (rot345_built 0 ltac:(lra)) as (u & B & D & Mu & _). assert (T := tol8).
  destruct (mk_special 0 2 turn (Some "Z"%string) [] false [] ltac:(lia) turn_special turn_clean) as (t & Et & Dt & _ & _ & _ & _ & Mt).
  assert (Bt : built 0 t).
  { exists 2%nat, turn, (Some "Z"%string), [], false, []. split; [apply turn_special|]. split; [exact turn_clean|exact Et]. }
  exists one_seq, (one_compiler u (1 / 2) 16), t.
  split; [exact one_seq_exact|]. split; [apply one_good; auto; lra|]. split; [reflexivity|]. split; [apply one_fixed|]. split; [exact Bt|]. split; [exact Dt|].
  split; [exists (u, [0%nat]); rewrite one_chance, ind_true by auto; lra|].
  intros gts H. unfold cost_of. change (2 ^ 1)%nat with 2%nat. rewrite (overlap_turn _ _ Mt); [lra|].
  apply (plane_ordered u); auto. intros g Hg. specialize (H g Hg). rewrite one_chance in H by auto.
  destruct (Classical_Prop.classic ((u, [0%nat]) = g)) as [E|N]; auto. rewrite ind_false in H by auto. lra.
Qed.

(** Layers of two gates. *)
Lemma pair_layer u F : u_dim u = 2%nat -> layer_mean 1 [(rot_primitive u, 2%Z)] F = F [(u, [0%nat]); (u, [0%nat])].
Proof.
  intros D. unfold layer_mean. change (table_list _) with [rot_primitive u; rot_primitive u]. cbn [gates_mean].
  assert (Q : forall F, gate_mean 1 (rot_primitive u) F = F (u, [0%nat])).
  { intros F'. unfold gate_mean, meanl. cbn -[INR Nat.log2]. unfold places. cbn -[INR Nat.log2].
    rewrite D. change (Nat.log2 2) with 1%nat. cbn -[INR]. simpl INR. field. }
  rewrite !Q. unfold meanl. cbn -[INR]. simpl INR. field.
Qed.
Lemma pair_ordered u : meq 2 (u_mat u) rot345 -> meq 2 (ordered 1 [(u, [0%nat]); (u, [0%nat])]) rot2.
Proof.
  intros Mu. unfold ordered. cbn [fold_left fst snd]. change (2 ^ 1)%nat with 2%nat. rewrite mmul_1_r, embed_one, Mu. now rewrite rot2_sqr.
Qed.
Lemma pair_good u : built 0 u -> u_dim u = 2%nat -> good_table 0 1 [(rot_primitive u, 2%Z)].
Proof. intros. repeat constructor; try (now apply rot_good); try discriminate; (exists 1%nat; simpl; auto). Qed.
Lemma pair_fixed u : fixed_table [(rot_primitive u, 2%Z)].
Proof. intros pc [<-|[]]; exists u; reflexivity. Qed.

Lemma ex_C96_layered_lemma : exists c target inverse layers counts,
  c_dim c = (2 ^ 1)%nat /\ 0 < c_append c <= 1 /\ good_table 0 1 counts /\ fixed_table counts /\
  (forall pc, In pc counts -> (0 <= snd pc)%Z) /\ 0 <= c_rate c /\ 0 <= c_max_beta c /\
  built 0 target /\ u_dim target = (2 ^ 1)%nat /\ built 0 inverse /\ u_dim inverse = (2 ^ 1)%nat /\
  (forall l, In l layers -> 0 < layer_chance 1 counts l) /\
  cost_of 1 target (List.concat layers) < tolerance None /\ tolerance None < cost_of 1 target [] /\
  overlap (2 ^ 1) (u_mat inverse) (adj (ordered 1 (List.concat layers))) = 1 /\
  tolerance None < cost_of 1 inverse [] /\ tolerance None < cost_of 1 inverse (List.concat layers).
Proof.
  destruct (rot345_built 0 ltac:(lra)) as (u & B & D & Mu & _). assert (T := tol8).
  assert (SP : special 2 rot2) by (rewrite <- rot2_sqr; apply special_mmul; apply rot345_special).
  destruct (mk_special 0 2 rot2 (Some "T"%string) [] false [] ltac:(lia) SP (rot2_clean 0 ltac:(lra))) as (t & Et & Dt & _ & _ & _ & _ & Mt).
  assert (Bt : built 0 t).
  { exists 2%nat, rot2, (Some "T"%string), [], false, []. split; [apply SP|]. split; [apply rot2_clean; lra|exact Et]. }
  assert (CL : eps_clean 0 2 (adj rot2)) by (apply eps_clean_adj, rot2_clean; lra).
  destruct (mk_special 0 2 (adj rot2) (Some "V"%string) [] false [] ltac:(lia) (special_adj _ _ SP) CL) as (v & Ev & Dv & _ & _ & _ & _ & Mv).
  assert (Bv : built 0 v).
  { exists 2%nat, (adj rot2), (Some "V"%string), [], false, []. split; [apply (special_adj _ _ SP)|]. split; [exact CL|exact Ev]. }
  exists (one_compiler u (1 / 2) 16), t, v, [[(u, [0%nat]); (u, [0%nat])]], [(rot_primitive u, 2%Z)].
  change (2 ^ 1)%nat with 2%nat. cbn [List.concat]. rewrite app_nil_r.
  split; [reflexivity|]. split; [cbn; lra|]. split; [now apply pair_good|]. split; [apply pair_fixed|].
  split; [intros pc [<-|[]]; cbn; lia|]. split; [cbn; lra|]. split; [cbn; lra|].
  do 4 (split; [assumption|]). split; [|split; [|split; [|split; [|split]]]].
  - intros l [<-|[]]. unfold layer_chance. rewrite pair_layer, ind_true by auto. lra.
  - unfold cost_of. change (2 ^ 1)%nat with 2%nat. rewrite (overlap_proper 2 _ _ Mt _ _ (pair_ordered u Mu)).
    unfold overlap. cbn -[Rdiv tolerance]. replace (_ + _)%C with (RtoC 2) by (apply C_eq; simpl; field). rewrite Cmod_R, Rabs_pos_eq by lra. lra.
  - unfold cost_of. change (2 ^ 1)%nat with 2%nat. change (ordered 1 []) with mid. rewrite (overlap_proper 2 _ _ Mt mid mid ltac:(reflexivity)).
    unfold overlap. cbn -[Rdiv tolerance]. replace (_ + _)%C with (RtoC (- (14 / 25))) by (apply C_eq; simpl; field).
    rewrite Cmod_R, Rabs_Ropp, Rabs_pos_eq by lra. lra.
  - assert (E : meq 2 (adj (ordered 1 [(u, [0%nat]); (u, [0%nat])])) (adj rot2)) by now rewrite pair_ordered.
    rewrite (overlap_proper 2 _ _ Mv _ _ E). unfold overlap. cbn -[Rdiv].
    replace (_ + _)%C with (RtoC 2) by (apply C_eq; simpl; field). rewrite Cmod_R, Rabs_pos_eq by lra. field.
  - unfold cost_of. change (2 ^ 1)%nat with 2%nat. change (ordered 1 []) with mid. rewrite (overlap_proper 2 _ _ Mv mid mid ltac:(reflexivity)).
    unfold overlap. cbn -[Rdiv tolerance]. replace (_ + _)%C with (RtoC (- (14 / 25))) by (apply C_eq; simpl; field).
    rewrite Cmod_R, Rabs_Ropp, Rabs_pos_eq by lra. lra.
  - unfold cost_of. change (2 ^ 1)%nat with 2%nat. rewrite (overlap_proper 2 _ _ Mv _ _ (pair_ordered u Mu)).
    unfold overlap. cbn -[Rdiv tolerance]. replace (_ + _)%C with (RtoC (- (1054 / 625))) by (apply C_eq; simpl; field).
    rewrite Cmod_R, Rabs_Ropp, Rabs_pos_eq by lra. lra.
Qed.

Lemma ex_C96_hopeless_layered_lemma : exists st c target counts,
  exact_world (r_world st) /\ c_dim c = (2 ^ 1)%nat /\ 0 <= c_append c <= 1 /\ good_table 0 1 counts /\ fixed_table counts /\
  (forall pc, In pc counts -> (0 <= snd pc)%Z) /\ built 0 target /\ u_dim target = (2 ^ 1)%nat /\
  (exists l, 0 < layer_chance 1 counts l) /\
  forall layers, (forall l, In l layers -> 0 < layer_chance 1 counts l) -> tolerance None < cost_of 1 target (List.concat layers).
Proof.
  destruct (rot345_built 0 ltac:(lra)) as (u & B & D & Mu & _). assert (T := tol8).
  destruct (mk_special 0 2 turn (Some "Z"%string) [] false [] ltac:(lia) turn_special turn_clean) as (t & Et & Dt & _ & _ & _ & _ & Mt).
  assert (Bt : built 0 t).
  { exists 2%nat, turn, (Some "Z"%string), [], false, []. split; [apply turn_special|]. split; [exact turn_clean|exact Et]. }
  exists one_seq, (one_compiler u (1 / 2) 16), t, [(rot_primitive u, 2%Z)].
  split; [exact one_seq_exact|]. split; [reflexivity|]. split; [cbn; lra|]. split; [now apply pair_good|]. split; [apply pair_fixed|].
  split; [intros pc [<-|[]]; cbn; lia|]. split; [exact Bt|]. split; [exact Dt|].
  split; [exists [(u, [0%nat]); (u, [0%nat])]; unfold layer_chance; rewrite pair_layer, ind_true by auto; lra|].
  intros layers H. unfold cost_of. change (2 ^ 1)%nat with 2%nat. rewrite (overlap_turn _ _ Mt); [lra|].
  apply (plane_ordered u); auto. intros g Hg. apply in_concat in Hg. destruct Hg as (l & Hl & Hg). specialize (H l Hl).
  unfold layer_chance in H. rewrite pair_layer in H by auto.
  destruct (Classical_Prop.classic ([(u, [0%nat]); (u, [0%nat])] = l)) as [<-|N]; [|rewrite ind_false in H by auto; lra].
  destruct Hg as [<-|[<-|[]]]; auto.
Qed.
