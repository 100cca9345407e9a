(** Reading the text output back: independent of how it is written. *)
From Coq Require Import Reals List Arith Bool String Ascii.
From Verif Require Import Base ModelUnitary ModelSequence.
Import ListNotations.
Open Scope string_scope.

(** ** Characters *)
Definition chars (s : string) : list ascii := list_ascii_of_string s.

(** A name that none of the formats' punctuation occurs in. *)
Definition plain (s : string) : Prop :=
  forall c, In c (chars s) -> ~ In c (["009"; "010"]%char ++ chars " ()[],;=")%list.

(** A text such as Python prints for a number: "1.5707963", "-1e-07", "inf". *)
Definition numeral (s : string) : Prop :=
  s <> "" /\ forall c, In c (chars s) -> In c (chars "0123456789.+-einfa").

(** All names of the gate are plain. *)
Definition plain_gate (u : unitary) : Prop :=
  plain (u_name u) /\ forall k v, In (k, v) (u_params u) -> plain k.

(** ** Taking text apart *)
(** The pieces between the occurrences of a character. *)
Fixpoint split_on (c : ascii) (s : string) : list string :=
  match s with
  | EmptyString => [""]
  | String a t =>
      if Ascii.eqb a c then "" :: split_on c t
      else match split_on c t with
           | h :: r => String a h :: r
           | [] => [String a ""]
           end
  end.

(** The text without its first, or last, character. *)
Definition drop_first (s : string) : string :=
  match s with String _ t => t | "" => "" end.
Fixpoint drop_last (s : string) : string :=
  match s with
  | EmptyString => ""
  | String a t => match t with EmptyString => "" | _ => String a (drop_last t) end
  end.

(** The number written in decimal digits. *)
Definition read_number (s : string) : nat :=
  fold_left (fun n c => (10 * n + (nat_of_ascii c - 48))%nat) (chars s) 0%nat.

(** "q[12]" is qubit 12. *)
Definition read_qubit (s : string) : nat := read_number (drop_last (drop_first (drop_first s))).

(** ** The three formats *)
(** One line: the name, the parameters, the qubits. *)
Definition line : Type := string * list string * list nat.

(** [name(p,p)<tab>q[0],q[1];] *)
Definition read_qasm_line (s : string) : option line :=
  match split_on "009" s with
  | [l; r] =>
      let qs := map read_qubit (split_on "," (drop_last r)) in
      match split_on "(" l with
      | [name] => Some (name, [], qs)
      | [name; ps] => Some (name, split_on "," (drop_last ps), qs)
      | _ => None
      end
  | _ => None
  end.

(** [name q[0] q[1] p p]: a word beginning with "q" is a qubit. *)
Definition is_qubit_word (s : string) : bool :=
  match s with String "q" _ => true | _ => false end.
Definition read_jaqal_line (s : string) : option line :=
  match split_on " " s with
  | name :: words =>
      Some (name, filter (fun t => negb (is_qubit_word t) && negb (String.eqb t "")) words,
            map read_qubit (filter is_qubit_word words))
  | [] => None
  end.

(** [name[0, 1](k=v, k=v)]: parameters are given as "k=v". *)
Definition unpad (s : string) : string := match s with String " " t => t | _ => s end.
Definition read_display_line (s : string) : option line :=
  match split_on "[" s with
  | [name; r] =>
      match split_on "]" r with
      | [qs; ps] =>
          Some (name,
                match ps with "" => [] | _ => map unpad (split_on "," (drop_last (drop_first ps))) end,
                map read_number (map unpad (split_on "," qs)))
      | _ => None
      end
  | _ => None
  end.

(** A whole text: the first line is a comment; each further line is read. *)
Definition read_text (read_line : string -> option line) (s : string) : option (list line) :=
  match split_on "010" s with
  | _ :: [""] => Some []
  | _ :: ls =>
      fold_right (fun l r => match read_line l, r with
                             | Some x, Some xs => Some (x :: xs)
                             | _, _ => None
                             end) (Some []) ls
  | [] => None
  end.

(** ** What the lines should say of a gate *)
Section Fmt.
Variable fmt : nat -> R -> string.
(** Angles in units of pi. *)
Definition qasm_value (v : R * bool) : string :=
  match v with (x, true) => "pi*" ++ fmt 7%nat (x / PI)%R | (x, false) => fmt 7%nat x end.
Definition display_value (v : R * bool) : string :=
  match v with (x, true) => fmt 3%nat (x / PI)%R ++ "π" | (x, false) => fmt 4%nat x end.

Definition qasm_line (g : unitary * list nat) : line :=
  (u_name (fst g), map (fun kv => qasm_value (snd kv)) (u_params (fst g)), snd g).
(** JAQAL shows angles like other values. *)
Definition jaqal_line (g : unitary * list nat) : line :=
  (u_name (fst g), map (fun kv => fmt 7%nat (fst (snd kv))) (u_params (fst g)), snd g).
Definition display_line (g : unitary * list nat) : line :=
  (u_name (fst g), map (fun kv => fst kv ++ "=" ++ display_value (snd kv)) (u_params (fst g)), snd g).
End Fmt.
