(** Concrete cases for C51, C52. *)
From Coq Require Import Reals List Arith Lia Lra Bool String Ascii ZArith Setoid Morphisms.
From Coquelicot Require Import Complex.
From Verif Require Import Base CMat CMatFacts Det ModelUnitary ModelEntry ModelSequence ModelText Spec SpecModel SpecText
  PUnitary PUnitaryProps PEntry PSeqHeap PSeqMeth PSeqWorld PSeqUndo PSeqNear PSeqInv PSeqHist PSeqProps PSeqCases PSeqEx PText PTextSeq.
Import ListNotations.
Open Scope string_scope.

(** A rounding: one text for negative numbers, one for the others. *)
Definition some_fmt (k : nat) (x : R) : string := if Rlt_dec x 0 then "-0.5" else "0.25".
Lemma some_fmt_numeral : forall k x, numeral (some_fmt k x).
Proof.
  intros k x. unfold some_fmt, numeral. destruct (Rlt_dec x 0);
    (split; [discriminate|]); intros c; unfold chars; simpl; intuition (subst; tauto).
Qed.

(** A gate with a name and two parameters, one of them an angle. *)
Definition some_params : list (string * (R * bool)) := [("theta", ((PI / 4)%R, true)); ("rate", ((-1)%R, false))].

Lemma some_gate eps : (eps <= 3 / 5)%R ->
  exists u, built eps u /\ u_dim u = 2%nat /\ meq 2 (u_mat u) rot345 /\ eps_clean eps 2 (u_mat u) /\
    u_name u = "R" /\ u_params u = some_params /\ u_inv u = false /\ u_apply u = [].
Proof.
  intros He.
  destruct (mk_special eps 2 rot345 (Some "R"%string) some_params false [] ltac:(lia) rot345_special
              (rot345_clean eps He)) as (u & E & E1 & E3 & E4 & E5 & E6 & E2).
  exists u. split; [|split; [auto|split; [auto|split; [|auto]]]].
  - exists 2%nat, rot345, (Some "R"%string), some_params, false, [].
    split; [apply rot345_unitary|]. split; [now apply rot345_clean|exact E].
  - rewrite E2. now apply rot345_clean.
Qed.

Lemma some_plain u : u_name u = "R" -> u_params u = some_params -> plain_gate u.
Proof.
  intros E1 E2. unfold plain_gate. rewrite E1, E2. split.
  - intros c Hc. unfold chars in *. simpl in *. destruct Hc as [<-|[]]. intros H. repeat (destruct H as [H|H]; [discriminate H|]). exact H.
  - intros k v [H|[H|[]]]; injection H as <- _; intros c Hc; unfold chars in *; simpl in *;
      repeat (destruct Hc as [<-|Hc]; [intros H; repeat (destruct H as [H|H]; [discriminate H|]); exact H|]); destruct Hc.
Qed.

Lemma ex_C51_lemma : exists u os,
  built 0 u /\ meq 2 (u_mat u) rot345 /\ u_name u = "R" /\
  u_params u = [("theta", ((PI / 4)%R, true)); ("rate", ((-1)%R, false))] /\
  os = [NewEntry u [0%Z]; NewEntry u [1%Z]; NewSequence 4 false [0; 1; 0]%nat] /\
  history 0 (built 0) odd_entries os w_empty /\ has_dim (exec 0 os w_empty) 0 (2 ^ 2) /\
  contents (exec 0 os w_empty) 0 = [(u, [0%nat]); (u, [1%nat]); (u, [0%nat])] /\
  (forall g, In g (contents (exec 0 os w_empty) 0) -> plain_gate (fst g)).
Proof.
  destruct (some_gate 0 ltac:(lra)) as (u & B & D & M & _ & N & P & _).
  exists u. eexists. split; [exact B|]. split; [exact M|]. split; [exact N|]. split; [exact P|].
  split; [reflexivity|]. split; [cbn [history]; auto 20|]. clear B M.
  assert (C : contents (exec 0 [NewEntry u [0%Z]; NewEntry u [1%Z]; NewSequence 4 false [0; 1; 0]%nat] w_empty) 0 =
    [(u, [0%nat]); (u, [1%nat]); (u, [0%nat])]) by (clear N P; conc u D; reflexivity).
  split; [clear N P C; conc u D; eexists; split; reflexivity|]. split; [exact C|].
  intros g Hg. rewrite C in Hg. destruct Hg as [<-|[<-|[<-|[]]]]; now apply some_plain.
Qed.

(** Its QASM text. *)
Lemma ex_C51_text_lemma : forall fmt u,
  built 0 u -> u_dim u = 2%nat -> u_name u = "R" ->
  u_params u = [("theta", ((PI / 4)%R, true)); ("rate", ((-1)%R, false))] ->
  let os := [NewEntry u [0%Z]; NewEntry u [1%Z]; NewSequence 4 false [0; 1]%nat] in
  let args := "(pi*" ++ fmt 7%nat (PI / 4 / PI)%R ++ "," ++ fmt 7%nat (-1)%R ++ ")" in
  snd (on_seq 0 (get_qasm fmt 0) (exec 0 os w_empty)) =
    Ok ("# QASM generated from UnitarySequence.get_qasm()" ++ String "010" ("R" ++ args ++ String "009" ("q[0];" ++
        String "010" ("R" ++ args ++ String "009" "q[1];")))).
Proof.
  intros fmt u B D N P os args. set (w := exec 0 os w_empty).
  assert (C : contents w 0 = [(u, [0%nat]); (u, [1%nat])]) by (unfold w, os; clear B N P; conc u D; reflexivity).
  assert (HD : has_dim w 0 (2 ^ 2)) by (unfold w, os; clear B N P C; conc u D; eexists; split; reflexivity).
  assert (H : history 0 (built 0) odd_entries os w_empty) by (cbn [history os]; auto 20).
  assert (F := winv_full 0 true _ w 0 2 ltac:(lra) (exact_winv os H) HD (lim_zero _ _)).
  destruct HD as (q & Hq & Hd). unfold get_qasm. rewrite (on_seq_text 0 anyg _ _ w 0 q (W_exec 0 os) Hq), Hd, C.
  rewrite C in F. destruct (F (u, [0%nat])) as (f0 & E0); [now left|]. destruct (F (u, [1%nat])) as (f1 & E1); [right; now left|].
  unfold pure_text. cbn [pure_lines]. rewrite E0, E1. cbn [bind].
  destruct (full_pure_labels _ _ _ _ E0) as (_ & A1 & A2 & _ & A3). destruct (full_pure_labels _ _ _ _ E1) as (_ & B1 & B2 & _ & B3).
  cbn [fst snd] in *. unfold u_get_qasm. rewrite !shown_apply by (rewrite ?A3, ?B3; discriminate).
  rewrite A1, A2, A3, B1, B2, B3, N, P. unfold args. f_equal.
  cbn [List.length Nat.ltb Nat.leb map String.concat qasm_number fst snd append tab newline str_qubit].
  change (str_nat 0) with "0". change (str_nat 1) with "1". rewrite !sapp_assoc. cbn [append].
  rewrite !sapp_assoc. cbn [append]. rewrite ?sapp_assoc. reflexivity.
Qed.

Lemma ex_C51_unitary_lemma : exists u,
  built 0 u /\ u_dim u = 2%nat /\ u_apply u = [] /\ plain_gate u /\ seq 0 (Nat.log2 (u_dim u)) = [0%nat].
Proof.
  destruct (some_gate 0 ltac:(lra)) as (u & B & D & M & _ & N & P & _ & A). exists u.
  split; [exact B|]. split; [exact D|]. split; [exact A|]. split; [now apply some_plain|]. now rewrite D.
Qed.

(** C52: a sequence and its inverse with the same texts and different products. *)
Lemma same_text eps header show w w' s s' d : by_label show -> WG eps anyg w -> WG eps anyg w' ->
  has_dim w s d -> has_dim w' s' d -> map label (contents w' s') = map label (contents w s) ->
  (forall g, In g (contents w s) -> snd g <> []) ->
  (forall g, In g (contents w s) -> exists f, full_pure eps d g = Ok f) ->
  (forall g, In g (contents w' s') -> exists f, full_pure eps d g = Ok f) ->
  exists t, snd (on_seq s (get_text eps header show) w) = Ok t /\ snd (on_seq s' (get_text eps header show) w') = Ok t.
Proof.
  intros B W W' (q & Hq & <-) (q' & Hq' & Hd') L N F F'.
  rewrite (on_seq_text eps anyg _ _ w s q W Hq), (on_seq_text eps anyg _ _ w' s' q' W' Hq'), Hd'. unfold pure_text.
  destruct (pure_lines_ok eps show _ _ F) as (ls & E). destruct (pure_lines_ok eps show _ _ F') as (ls' & E'). rewrite E, E'.
  rewrite (lines_by_label eps show _ _ _ _ ls ls' B (eq_sym L) N E E'). cbn [bind]. eauto.
Qed.

Lemma C52_refuted_lemma : exists os s i n p p',
  history 0 (built 0) odd_entries (os ++ [Inverse s]) w_empty /\
  snd (step 0 (Inverse s) (exec 0 os w_empty)) = Ok (VSequence i) /\
  let w := exec 0 os w_empty in
  let w' := exec 0 (os ++ [Inverse s]) w_empty in
  has_dim w s (2 ^ n) /\ has_dim w' i (2 ^ n) /\
  (forall fmt,
    (exists t, snd (on_seq s (get_qasm fmt 0) w) = Ok t /\ snd (on_seq i (get_qasm fmt 0) w') = Ok t) /\
    (exists t, snd (on_seq s (get_jaqal fmt 0) w) = Ok t /\ snd (on_seq i (get_jaqal fmt 0) w') = Ok t) /\
    (exists t, snd (on_seq s (get_display_output fmt 0) w) = Ok t /\ snd (on_seq i (get_display_output fmt 0) w') = Ok t)) /\
  answers 0 w s p /\ answers 0 w' i p' /\ ~ meq (2 ^ n) (u_mat p) (u_mat p').
Proof.
  destruct (some_gate 0 ltac:(lra)) as (u & B & D & M & _).
  set (os := [NewEntry u [0%Z]; NewSequence 2 false [0%nat]]).
  assert (C : contents (exec 0 os w_empty) 0 = [(u, [0%nat])]) by (unfold os; clear B M; conc u D; reflexivity).
  assert (HD : has_dim (exec 0 os w_empty) 0 (2 ^ 1)) by (unfold os; clear B M C; conc u D; eexists; split; reflexivity).
  assert (HN : odd_entries (exec 0 os w_empty) 0).
  { unfold os; clear B M C HD; conc u D. intros q [= <-] l [<-|[]]; reflexivity. }
  assert (HA : from_array (exec 0 os w_empty) 0 false) by (unfold os; clear B M C HD HN; conc u D; eexists; split; reflexivity).
  assert (H : history 0 (built 0) odd_entries os w_empty) by (cbn [history os]; auto 20).
  destruct (C18_lemma os 0 1 H HD HA HN) as (i & p & p' & EI & Di & _ & _ & Ap & Ap' & Hmul & _ & _).
  assert (H' : history 0 (built 0) odd_entries (os ++ [Inverse 0]) w_empty).
  { apply history_app. split; [exact H|]. cbn [history]. auto. }
  exists os, 0%nat, i, 1%nat, p, p'. split; [exact H'|]. split; [exact EI|]. cbv zeta.
  assert (Ew : exec 0 (os ++ [Inverse 0]) w_empty = fst (step 0 (Inverse 0) (exec 0 os w_empty))) by now rewrite exec_app.
  split; [exact HD|]. split; [now rewrite Ew|]. split.
  - intros fmt.
    assert (F := winv_full 0 true _ _ 0 1 ltac:(lra) (exact_winv os H) HD (lim_zero _ _)).
    rewrite <- Ew in Di.
    assert (F' := winv_full 0 true _ _ i 1 ltac:(lra) (exact_winv _ H') Di (lim_zero _ _)).
    assert (L := inverse_contents 0 os 0 i EI). cbv zeta in L. rewrite <- Ew in L. rewrite C in L.
    change (rev (map label [(u, [0%nat])])) with (map label [(u, [0%nat])]) in L. rewrite <- C in L.
    assert (N : forall g, In g (contents (exec 0 os w_empty) 0) -> snd g <> []) by (intros g Hg; eapply reachable_nonempty; exact Hg).
    unfold get_qasm, get_jaqal, get_display_output.
    split; [|split]; refine (same_text 0 _ _ _ _ 0 i _ _ (W_exec 0 os) (W_exec 0 _) HD Di L N F F');
      [apply by_label_qasm|apply by_label_jaqal|apply by_label_display].
  - split; [exact Ap|]. split; [now rewrite Ew|]. intros E.
    destruct (C14_unique os 0 1 p H HD Ap) as [_ Mp]. rewrite C in Mp. rewrite (ordered_one 1) in Mp. cbn [fst snd] in Mp.
    change (2 ^ 1)%nat with 2%nat in *. rewrite embed_one, M in Mp. rewrite <- E, Mp in Hmul.
    specialize (Hmul 0%nat 0%nat ltac:(lia) ltac:(lia)). unfold mmul, rot345, mat22, mid in Hmul. cbn in Hmul.
    apply (f_equal fst) in Hmul. cbn in Hmul. lra.
Qed.

Lemma ex_C52_line_lemma : exists u v f f',
  built 0 u /\ u_inverse 0 u = Ok v /\ ~ meq 2 (u_mat u) (u_mat v) /\
  snd (get_full_unitary 0 4 {| e_unitary := u; e_apply := [1%nat]; e_cache := [] |}) = Ok f /\
  snd (get_full_unitary 0 4 {| e_unitary := v; e_apply := [1%nat]; e_cache := [] |}) = Ok f'.
Proof.
  destruct (some_gate 0 ltac:(lra)) as (u & B & D & M & _ & N & P & _ & A).
  assert (Wu := built_wf 0 u B).
  assert (SU : special 2 (adj (u_mat u))) by (rewrite M; apply special_adj; exact rot345_special).
  destruct (mk_special 0 2 (adj (u_mat u)) (Some (u_name u)) (u_params u) (negb (u_inv u)) (u_apply u) ltac:(lia) SU (eps_clean_0 _ _))
    as (v & E & Dv & _ & _ & _ & Av & Mv).
  assert (EI : u_inverse 0 u = Ok v) by (unfold u_inverse; now rewrite D).
  assert (Bv : built 0 v).
  { exists 2%nat, (adj (u_mat u)), (Some (u_name u)), (u_params u), (negb (u_inv u)), (u_apply u).
    split; [apply SU|]. split; [apply eps_clean_0|exact E]. }
  set (os := [NewEntry u [1%Z]; NewEntry v [1%Z]; NewSequence 4 false [0; 1]%nat]).
  assert (H : history 0 (built 0) odd_entries os w_empty) by (cbn [history os]; auto 20).
  assert (C : contents (exec 0 os w_empty) 0 = [(u, [1%nat]); (v, [1%nat])]).
  { unfold os. clear - D Dv. destruct u as [du mu nu pu iu au], v as [dv mv nv pv iv av]. simpl in D, Dv. subst. reflexivity. }
  assert (HD : has_dim (exec 0 os w_empty) 0 (2 ^ 2)).
  { unfold os. clear - D Dv. destruct u as [du mu nu pu iu au], v as [dv mv nv pv iv av]. simpl in D, Dv. subst. eexists; split; reflexivity. }
  assert (F := winv_full 0 true _ _ 0 2 ltac:(lra) (exact_winv os H) HD (lim_zero _ _)). rewrite C in F.
  destruct (F (u, [1%nat])) as (f & Ef); [now left|]. destruct (F (v, [1%nat])) as (f' & Ef'); [right; now left|].
  exists u, v, f, f'. split; [exact B|]. split; [exact EI|]. split; [|split; [exact Ef|exact Ef']].
  intros X. rewrite Mv, M in X. specialize (X 0%nat 1%nat ltac:(lia) ltac:(lia)).
  unfold adj, rot345, mat22 in X. apply (f_equal fst) in X. simpl in X. lra.
Qed.

Lemma ex_C52_reversed_lemma : exists u os i,
  built 0 u /\ os = [NewEntry u [0%Z]; NewEntry u [1%Z]; NewSequence 4 false [0; 1]%nat] /\
  let w := exec 0 os w_empty in
  let w' := fst (step 0 (Inverse 0) w) in
  snd (step 0 (Inverse 0) w) = Ok (VSequence i) /\
  (forall g, In g (contents w 0) -> plain_gate (fst g)) /\ List.length (contents w 0) = 2%nat /\
  forall fmt,
    (exists t t', snd (on_seq 0 (get_qasm fmt 0) w) = Ok t /\ snd (on_seq i (get_qasm fmt 0) w') = Ok t') /\
    (exists t t', snd (on_seq 0 (get_jaqal fmt 0) w) = Ok t /\ snd (on_seq i (get_jaqal fmt 0) w') = Ok t') /\
    (exists t t', snd (on_seq 0 (get_display_output fmt 0) w) = Ok t /\ snd (on_seq i (get_display_output fmt 0) w') = Ok t').
Proof.
  destruct (some_gate 0 ltac:(lra)) as (u & B & D & M & _ & N & P & _).
  set (os := [NewEntry u [0%Z]; NewEntry u [1%Z]; NewSequence 4 false [0; 1]%nat]).
  assert (C : contents (exec 0 os w_empty) 0 = [(u, [0%nat]); (u, [1%nat])]) by (unfold os; clear - D; conc u D; reflexivity).
  assert (HD : has_dim (exec 0 os w_empty) 0 (2 ^ 2)) by (unfold os; clear - D; conc u D; eexists; split; reflexivity).
  assert (HN : odd_entries (exec 0 os w_empty) 0).
  { unfold os; clear - D; conc u D. intros q [= <-] l Hl. cbn [s_entries In] in Hl. intuition (subst; reflexivity). }
  assert (HA : from_array (exec 0 os w_empty) 0 false) by (unfold os; clear - D; conc u D; eexists; split; reflexivity).
  assert (H : history 0 (built 0) odd_entries os w_empty) by (cbn [history os]; auto 20).
  destruct (C18_lemma os 0 2 H HD HA HN) as (i & p & p' & EI & Di & _).
  assert (H' : history 0 (built 0) odd_entries (os ++ [Inverse 0]) w_empty).
  { apply history_app. split; [exact H|]. cbn [history]. auto. }
  assert (Ew : exec 0 (os ++ [Inverse 0]) w_empty = fst (step 0 (Inverse 0) (exec 0 os w_empty))) by now rewrite exec_app.
  exists u, os, i. split; [exact B|]. split; [reflexivity|]. cbv zeta. split; [exact EI|]. split.
  { intros g Hg. rewrite C in Hg. destruct Hg as [<-|[<-|[]]]; now apply some_plain. }
  split; [now rewrite C|]. intros fmt. rewrite <- Ew in *.
  destruct (C51_exists_lemma fmt os 0 2 H HD) as ((t1 & T1) & (t2 & T2) & (t3 & T3)).
  destruct (C51_exists_lemma fmt _ i 2 H' Di) as ((t4 & T4) & (t5 & T5) & (t6 & T6)).
  split; [|split]; eauto.
Qed.

Lemma ex_C52_mark_lemma : exists u v, built 0 u /\ u_inverse 0 u = Ok v /\ u_inv u = false /\ u_inv v = true.
Proof.
  destruct (some_gate 0 ltac:(lra)) as (u' & B' & D & M & _ & _ & _ & I & _).
  assert (SU : special 2 (adj (u_mat u'))) by (rewrite M; apply special_adj; exact rot345_special).
  destruct (mk_special 0 2 (adj (u_mat u')) (Some (u_name u')) (u_params u') (negb (u_inv u')) (u_apply u') ltac:(lia) SU (eps_clean_0 _ _))
    as (v' & E & _ & _ & _ & Iv & _).
  exists u', v'. split; [exact B'|]. split; [unfold u_inverse; now rewrite D|]. split; [exact I|]. now rewrite Iv, I.
Qed.
