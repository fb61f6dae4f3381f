(** S_Message: messages with holes. *)
From Coq Require Import List String Ascii.
Import ListNotations.
Local Open Scope string_scope.

(** the pieces of a message with [name] in every hole *)
Fixpoint filled (name : string) (pieces : list string) : string :=
  match pieces with
  | [] => ""
  | [p] => p
  | p :: r => p ++ name ++ filled name r
  end.
(** [c] does not occur in [s] *)
Fixpoint free (c : ascii) (s : string) : Prop :=
  match s with EmptyString => True | String d r => d <> c /\ free c r end.
(** indentation *)
Fixpoint spaces (n : nat) : string := match n with O => "" | S n => String " " (spaces n) end.
(** the end of a line *)
Definition newline : string := String (ascii_of_nat 10) "".
(** letters, digits and underscores *)
Definition name_char (c : ascii) : Prop :=
  let k := nat_of_ascii c in (48 <= k <= 57 \/ 65 <= k <= 90 \/ k = 95 \/ 97 <= k <= 122)%nat.
Fixpoint name_chars (s : string) : Prop :=
  match s with EmptyString => True | String c r => name_char c /\ name_chars r end.
