(** What sharing of mutable objects should and should not do. *)
From Coq Require Import Reals List Arith Bool String.
From Coquelicot Require Import Complex.
From Verif Require Import Base CMat ModelUnitary ModelAlias.
Import ListNotations.
Open Scope R_scope.
Open Scope C_scope.

(** The store after some program. *)
Definition reached (eps : R) (k : store) : Prop := exists xs, k = act_run eps xs store0.

(** [n] names an existing [Unitary] object. *)
Definition alive (k : store) (n : nat) : Prop := (n < List.length (k_units k))%nat.

(** The object behind [n]. *)
Definition object (k : store) (n : nat) : uobj := nth n (k_units k) no_unit.

(** Calls of the library (as opposed to what the client does on its own). *)
Definition library (x : act) : Prop :=
  match x with
  | MakeArray _ | MakeDict _ | MakeList _ | WriteArray _ _ | WriteDict _ _ | WriteList _ _ => False
  | _ => True
  end.

(** Nothing that existed has changed; something may have been added. *)
Definition extends (k k' : store) : Prop :=
  (exists t, k_arrays k' = k_arrays k ++ t) /\ (exists t, k_dicts k' = k_dicts k ++ t) /\
  (exists t, k_lists k' = k_lists k ++ t) /\ (exists t, k_units k' = k_units k ++ t).

(** The same operation with other qubits. *)
Definition on_qubits (l : list nat) (r : res unitary) : res unitary :=
  match r with
  | Ok u => Ok {| u_dim := u_dim u; u_mat := u_mat u; u_name := u_name u; u_params := u_params u;
                  u_inv := u_inv u; u_apply := l |}
  | Raise e => Raise e
  end.

(** The value a call should compute, from the present values of its arguments; false
    for what does not make a [Unitary] or names something that does not exist. *)
Definition computes (eps : R) (k : store) (x : act) (r : res unitary) : Prop :=
  match x with
  | NewUnitary d matrix name params is_inverse apply_to =>
      (forall a, matrix = Some a -> (a < List.length (k_arrays k))%nat) /\
      (forall p, params = Some p -> (p < List.length (k_dicts k))%nat) /\
      (forall l, apply_to = Some l -> (l < List.length (k_lists k))%nat) /\
      r = mk_unitary eps d (option_map (fun a => nth a (k_arrays k) no_array) matrix) name
            (match params with Some p => nth p (k_dicts k) [] | None => [] end) is_inverse
            (nth (match apply_to with Some l => l | None => 0%nat end) (k_lists k) [])
  | InverseOf n => alive k n /\ r = u_inverse eps (look k n)
  | TensorOf n m => alive k n /\ alive k m /\ r = u_tensor eps (look k n) (look k m)
  | LeftOf n m =>
      alive k n /\ alive k m /\
      r = on_qubits (nth 0 (k_lists k) []) (u_left_multiply eps (look k n) (look k m))
  | RightOf n m =>
      alive k n /\ alive k m /\
      r = on_qubits (nth 0 (k_lists k) []) (u_right_multiply eps (look k n) (look k m))
  | _ => False
  end.

(** Along the actions from [k], the client writes into no dictionary, no list, and
    only into arrays that no [Unitary] holds. *)
Fixpoint polite (eps : R) (xs : list act) (k : store) : Prop :=
  match xs with
  | [] => True
  | x :: t =>
      match x with
      | WriteArray r _ => forall n, alive k n -> o_array (object k n) <> r
      | WriteDict _ _ | WriteList _ _ => False
      | _ => True
      end /\ polite eps t (fst (act_step eps x k))
  end.

(** A value with another matrix, dictionary, list. *)
Definition with_mat (u : unitary) (A : mat) : unitary :=
  {| u_dim := u_dim u; u_mat := A; u_name := u_name u; u_params := u_params u; u_inv := u_inv u;
     u_apply := u_apply u |}.
Definition with_params (u : unitary) (d : param_dict) : unitary :=
  {| u_dim := u_dim u; u_mat := u_mat u; u_name := u_name u; u_params := d; u_inv := u_inv u;
     u_apply := u_apply u |}.
Definition with_apply (u : unitary) (l : list nat) : unitary :=
  {| u_dim := u_dim u; u_mat := u_mat u; u_name := u_name u; u_params := u_params u; u_inv := u_inv u;
     u_apply := l |}.
