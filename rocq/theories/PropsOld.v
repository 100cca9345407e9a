(** The older copies of the library in paper/fig10, fig11 and fig12 where they differ from
    stoqcompiler: C102. *)
From Coq Require Import Reals List Arith Bool String ZArith.
From Coquelicot Require Import Complex.
From Verif Require Import Base CMat ModelUnitary ModelPrimitive ModelSequence ModelText ModelOld Spec SpecModel POld.
Import ListNotations.
Open Scope R_scope.

(** C102: [close_to] of the copies is [close_to] of the library for every threshold but 0.0. *)
Theorem C102_close_to_same : forall eps u v t, t <> Some 0%R ->
  old_close_to eps u v t = u_close_to eps u v t.
Proof. exact old_close_to_same_lemma. Qed.
Print Assumptions C102_close_to_same.

(** C102: with the threshold 0.0 the library accepts any two unitaries of the same size, the copies
    only those that are equal up to a phase and the tolerance. *)
Theorem C102_close_to_zero : forall eps u v,
  built eps u -> built eps v -> u_dim u = u_dim v -> eps_clean eps (u_dim u) (u_mat u) ->
  u_close_to eps u v (Some 0%R) = Ok true /\
  exists b, old_close_to eps u v (Some 0%R) = Ok b /\
    (b = true <-> (1 - overlap (u_dim u) (u_mat u) (u_mat v) <= / 10 ^ 8)%R).
Proof. exact old_close_to_zero_lemma. Qed.
Print Assumptions C102_close_to_zero.

(** The coupling by pi/2 and the identity. *)
Example C102_pair : exists u v, built eps_code u /\ built eps_code v /\ u_dim u = u_dim v /\
  eps_clean eps_code (u_dim u) (u_mat u) /\ overlap (u_dim u) (u_mat u) (u_mat v) = 0%R.
Proof. exact ex_old_pair. Qed.

(** C102: so the two methods do not always agree. *)
Theorem C102_close_to_refuted : exists u v, built eps_code u /\ built eps_code v /\
  u_close_to eps_code u v (Some 0%R) = Ok true /\ old_close_to eps_code u v (Some 0%R) = Ok false.
Proof. exact old_close_to_refuted_lemma. Qed.
Print Assumptions C102_close_to_refuted.

(** C102: [get_display_output] of the copies differs in the first line only; it ends in the same
    state and raises the same exceptions. *)
Theorem C102_display : forall fmt eps st st' r, get_display_output fmt eps st = (st', r) ->
  match r with
  | Raise e => old_get_display_output fmt eps st = (st', Raise e)
  | Ok t => exists lines,
      t = ("# Generated from UnitarySequence.get_display_output()" ++ newline ++ lines)%string /\
      old_get_display_output fmt eps st =
        (st', Ok ("# Display output generated from UnitarySequence.get_display_output()" ++ newline ++ lines)%string)
  end.
Proof. exact old_display_lemma. Qed.
Print Assumptions C102_display.

(** C102: [compile] of the copies raises on an empty set of gates and on an array of two or more,
    and otherwise does what the subclass does; the class itself raises [NotImplementedError]. *)
Theorem C102_compile : forall A (hook : option (unitary -> option R -> Z -> old_res (A * list R))) c T t m,
  (oc_prims c = [] -> old_compile hook c T t m = OldRaise (Lib AssertionError)) /\
  (oc_array c = true -> (2 <= List.length (oc_prims c))%nat -> old_compile hook c T t m = OldRaise (Lib ValueError)) /\
  (oc_array c = false \/ List.length (oc_prims c) = 1%nat -> oc_prims c <> [] ->
     (hook = None -> old_compile hook c T t m = OldRaise NotImplementedError) /\
     (forall f, hook = Some f -> old_compile hook c T t m = f T t m)).
Proof. exact old_compile_lemma. Qed.
Print Assumptions C102_compile.

(** C102: without a subclass nothing is ever compiled. *)
Theorem C102_abstract : forall A c cs T t m r,
  old_compile (A := A) None c T t m <> OldOk r /\
  old_compile_layered (A := A) None T cs t m = OldRaise (Lib AttributeError).
Proof. exact old_abstract_lemma. Qed.
Print Assumptions C102_abstract.

(** C102: whatever sets of gates are given, in any number of calls, the compiler keeps one of them (or
    none) and all its gates fit the system. *)
Theorem C102_primitives : forall d c0 calls, old_mk_compiler d = OldOk c0 ->
  let c := fold_left (fun c call => fst (old_set_primitives (fst call) (snd call) c)) calls c0 in
  oc_dim c = d /\ (0 < d)%nat /\
  (oc_prims c = [] \/ exists call, In call calls /\ oc_prims c = snd call /\ oc_array c = fst call) /\
  (forall p, In p (oc_prims c) -> (src_dim (p_source p) <= d)%nat).
Proof. exact old_primitives_lemma. Qed.
Print Assumptions C102_primitives.

(** A compiler for two qubits with a coupling; the coupling is refused by a compiler for one. *)
Example C102_case : exists u p c0 c, built eps_code u /\ u_dim u = 4%nat /\
  mk_primitive (Fixed u) (Some [[0%Z; 1%Z]; [1%Z; 0%Z]]) = Ok p /\ old_mk_compiler 4 = OldOk c0 /\
  old_set_primitives false [p; p] c0 = (c, OldOk tt) /\ oc_prims c <> [] /\ oc_array c = false /\
  old_mk_compiler 2 <> OldOk c0 /\
  snd (old_set_primitives false [p] {| oc_dim := 2; oc_array := false; oc_prims := [] |}) = OldRaise (Lib AssertionError).
Proof. exact ex_old_compiler_lemma. Qed.

