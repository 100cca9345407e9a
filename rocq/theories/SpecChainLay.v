(** One step of compile_layered() as a random walk: what C97 speaks of. *)
From Coq Require Import Reals List Arith ZArith.
From Verif Require Import Base CMat ModelUnitary ModelPrimitive ModelSequence ModelCompiler Spec SpecModel SpecCompiler SpecChain.
Import ListNotations.
Open Scope R_scope.

(** The contents after one step of compile_layered(); compiler/compiler.py:263-276. *)
Definition step_contents_layered (st : rstate) (c : compiler) (s : nat) (target : unitary) (counts : list (primitive * Z))
    (g : rng) : list gate_on :=
  contents (r_world (fst (fst (compile_step g 0 (make_random_change_layered g 0 counts) s target (st, c))))) s.

(** Lists of whole layers: each has as many gates as the counts sum up to. *)
Definition whole_layers (counts : list (primitive * Z)) (layers : list (list gate_on)) : Prop :=
  forall l, In l layers -> Z.of_nat (List.length l) = fold_right Z.add 0%Z (map snd counts).

(** The weight of a list of layers at inverse temperature [beta]: Boltzmann's factor
    times, for each layer, its probability and the odds of appending. *)
Definition boltzmann_layered (n : nat) (c : compiler) (counts : list (primitive * Z)) (beta : R) (target : unitary)
    (layers : list (list gate_on)) : R :=
  exp (- beta * cost_of n target (List.concat layers)) *
  fold_right Rmult 1 (map (fun l => c_append c / (1 - c_append c) * layer_chance n counts l) layers).
