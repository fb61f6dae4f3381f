(** S_Files: names and numbers that survive being written to a file and read back. *)
From Verif Require Export S_Io M_Files.
Open Scope nat_scope.

(** Every number of the matrix is written as a decimal literal and reads back as itself. *)
Definition prints (show : num -> text) (float : text -> option num) (n m : nat) (P : mat) : Prop :=
  forall i j, i < n -> j < m -> decimal (show (Fin (mget P i j))) /\ survives show float (Fin (mget P i j)).
(** No text of the matrix is longer than the limit. *)
Definition short (show : num -> text) (limit n m : nat) (P : mat) : Prop :=
  forall i j, i < n -> j < m -> length (show (Fin (mget P i j))) <= limit.
(** What a format asks of a name (csv.field_size_limit is 131072 by default; csv refuses
    NUL before Python 3.11). *)
Definition name_fits (limit : nat) (nul_ok : bool) (f : format) (s : string) : Prop :=
  match f with
  | Csv => length (chars s) <= limit /\ (nul_ok = true \/ no_nul s)
  | Json => True
  | Txt => spaceless s
  | Xml => trimmed s /\ xml_text s
  end.
(** In the CSV files of hidden Markov models the names carry a two-character tag and lose
    trailing white space. *)
Definition hmm_name_fits (limit : nat) (nul_ok : bool) (f : format) (s : string) : Prop :=
  match f with
  | Csv => 2 + length (chars s) <= limit /\ (nul_ok = true \/ no_nul s) /\ forall c r, chars s = r ++ [c] -> is_space c = false
  | _ => name_fits limit nul_ok f s
  end.
