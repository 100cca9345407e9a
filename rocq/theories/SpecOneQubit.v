(** Vocabulary for programs on a single qubit (C70). *)
From Coq Require Import Reals List Arith.
From Coquelicot Require Import Complex.
From Verif Require Import Base CMat Det ModelUnitary ModelEntry ModelPrimitive ModelSequence ModelCompiler
  Spec SpecModel SpecCompiler.
Import ListNotations.
Open Scope R_scope.

(** The stored matrix is exactly unitary with determinant 1, and none of its
    components lies strictly between 0 and [eps] in size. *)
Definition exact_gate (eps : R) (u : unitary) : Prop :=
  special (u_dim u) (u_mat u) /\ eps_clean eps (u_dim u) (u_mat u).

(** A program whose gates are exact, and which calls [inverse()] only on sequences in
    which every object occurs an odd number of times (see C22). *)
Definition exact_program (eps : R) (os : list op) : Prop :=
  history eps (fun u => made eps u /\ exact_gate eps u) odd_entries os w_empty.

(** A state such a program reaches. *)
Definition exact_state (eps : R) (w : world) : Prop :=
  exists os, w = exec eps os w_empty /\ exact_program eps os.

(** Every gate of the primitive is exact. *)
Definition exact_primitive (eps : R) (p : primitive) : Prop :=
  forall u, instance eps p u -> exact_gate eps u.
