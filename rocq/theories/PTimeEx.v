(** A concrete case for C111. *)
From Coq Require Import Reals List Arith Lia Lra Bool String ZArith.
From Verif Require Import Base ModelUnitary ModelPrimitive ModelSequence ModelCompiler ModelResult SpecModel SpecCompiler SpecTime PCompEx PTime.
Import ListNotations.
Open Scope R_scope.

Lemma ex_C111_lemma : exists tick dur g target st c now now' st' c' r,
  never_back tick dur /\ compile_result tick dur g 0 target (Some 2%R) 1 (now, (st, c)) = ((now', (st', c')), Ok r) /\
  List.length (cr_costs r) = 1%nat /\ List.length (contents (r_world st') (cr_sequence r)) = 1%nat /\
  dur (now + tick now) (st, c) = 3 /\ cr_time r = 4 /\ now' - now = 5.
Proof.
  destruct ex_run_lemma as (g & c & target & st & st' & c' & s & costs & G & _ & R & _ & _ & _ & _ & E & L & L').
  exists (fun _ => 1), (fun _ _ => 3), g, target, st, c, 7, 12, st', c', {| cr_sequence := s; cr_costs := costs; cr_time := 4 |}.
  split; [split; intros; lra|]. split; [|repeat split; auto; lra].
  unfold compile, se_bind, c_self, se_lift in E. unfold compile_result, at_once, measured, perf_counter, takes_time, se_bind, c_self, se_lift.
  cbn [fst snd] in *. destruct (assert_primitives c) as [u|e]; [|discriminate]. cbn [fst snd] in *. rewrite E. cbn [fst snd].
  unfold se_ret. repeat f_equal; lra.
Qed.
Lemma ex_C111_layered_lemma : exists tick dur g target counts st c now now' st' c' r,
  never_back tick dur /\ compile_layered_result tick dur g 0 target counts (Some 2%R) 1 (now, (st, c)) = ((now', (st', c')), Ok r) /\
  List.length (contents (r_world st') (cr_sequence r)) = 3%nat /\
  dur (now + tick now) (st, c) = 3 /\ cr_time r = 4 /\ now' - now = 5.
Proof.
  destruct ex_layered_lemma as (g & c & target & counts & st & st' & c' & s & costs & G & _ & R & _ & _ & _ & _ & _ & _ & E & _ & L).
  exists (fun _ => 1), (fun _ _ => 3), g, target, counts, st, c, 7, 12, st', c', {| cr_sequence := s; cr_costs := costs; cr_time := 4 |}.
  split; [split; intros; lra|]. split; [|repeat split; auto; lra].
  unfold compile_layered_result, measured, perf_counter, takes_time, se_bind. cbn [fst snd]. unfold compile_layered in E. rewrite E. cbn [fst snd].
  unfold se_ret. repeat f_equal; lra.
Qed.
