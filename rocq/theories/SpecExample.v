(** What the printed report of a compilation should say. *)
From Coq Require Import Reals List Arith Bool String ZArith.
From Coquelicot Require Import Complex.
From Verif Require Import Base CMat ModelUnitary ModelSequence ModelExample Spec SpecModel SpecText SpecCompiler.
Import ListNotations.
Open Scope R_scope.

(** The infidelity between the matrix [T] and the product of the gates [gs]. *)
Definition infidelity (n : nat) (T : mat) (gs : list (unitary * list nat)) : R :=
  1 - overlap (2 ^ n) T (ordered n gs).

(** The report [r] tells the truth about the sequence it names, as it is in [w]: its length, its
    number of steps, its cost up to [bound], its gates; and it ended early only when the
    gates do what they should. *)
Definition truthful (fmt : nat -> R -> string) (n : nat) (T : mat) (max : Z) (bound : R) (w : world) (r : report) : Prop :=
  let gs := contents w (rp_seq r) in
  has_dim w (rp_seq r) (2 ^ n) /\
  rp_length r = List.length gs /\
  (1 <= Z.of_nat (rp_steps r) <= max)%Z /\
  Rabs (rp_cost r - infidelity n T gs) <= bound /\
  ((Z.of_nat (rp_steps r) < max)%Z -> infidelity n T gs <= / 10 ^ 8 + bound) /\
  read_text read_qasm_line (rp_qasm r) = Some (map (qasm_line fmt) gs).

(** A line of the notebook's QASM: a rotation of one qubit with two angles, or a coupling of
    both qubits with one. *)
Definition notebook_line (l : line) : Prop :=
  match l with (name, ps, qs) =>
    (name = "Rxy"%string /\ List.length ps = 2%nat /\ (qs = [0%nat] \/ qs = [1%nat])) \/
    (name = "XX"%string /\ List.length ps = 1%nat /\ (qs = [0%nat; 1%nat] \/ qs = [1%nat; 0%nat]))
  end.
