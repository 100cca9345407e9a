(** The measured time: proofs for C111. *)
From Coq Require Import Reals List Arith Lia Lra Bool String ZArith.
From Verif Require Import Base ModelUnitary ModelPrimitive ModelSequence ModelCompiler ModelResult SpecModel SpecCompiler SpecTime.
Import ListNotations.
Open Scope R_scope.

Lemma measured_timed tick dur now x m : never_back tick dur ->
  timed_as tick dur now x (measured tick dur m (now, x)) (m x).
Proof.
  intros (HT & HD). unfold timed_as, measured, se_bind, perf_counter, takes_time. cbn [fst snd].
  destruct (m x) as [x' [[s costs]|e]]; cbn [fst snd se_ret cr_sequence cr_costs cr_time].
  - assert (T0 := HT now). assert (D := HD (now + tick now) x). assert (T1 := HT (now + tick now + dur (now + tick now) x)).
    repeat split; auto; lra.
  - assert (T0 := HT now). assert (D := HD (now + tick now) x). repeat split; auto; lra.
Qed.

Theorem compile_timed : forall tick dur g eps target thr K now st c, never_back tick dur ->
  timed_as tick dur now (st, c) (compile_result tick dur g eps target thr K (now, (st, c))) (compile g eps target thr K (st, c)).
Proof.
  intros tick dur g eps target thr K now st c HN. unfold compile_result, compile, at_once, se_bind, c_self, se_lift. cbn [fst snd].
  destruct (assert_primitives c) as [u|e]; cbn [fst snd].
  - now apply measured_timed.
  - unfold timed_as. cbn [fst snd]. repeat split; auto; lra.
Qed.
Theorem layered_timed : forall tick dur g eps target counts thr K now st c, never_back tick dur ->
  timed_as tick dur now (st, c) (compile_layered_result tick dur g eps target counts thr K (now, (st, c)))
    (compile_layered g eps target counts thr K (st, c)).
Proof. intros. now apply measured_timed. Qed.
