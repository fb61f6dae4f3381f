(** S_Alias: proper names, and which member an alias stands for. *)
From Coq Require Import List String Ascii.
From Verif Require Import M_Alias.
Import ListNotations.
Open Scope string_scope.

Definition lower_case (c : ascii) : Prop := (97 <= nat_of_ascii c <= 122)%nat.
Definition digit (c : ascii) : Prop := (48 <= nat_of_ascii c <= 57)%nat.

(** lower-case names: words of letters and digits joined by single underscores, the first starting with a letter *)
Inductive word : string -> Prop :=
| word_one c : lower_case c \/ digit c -> word (String c "")
| word_more c s : lower_case c \/ digit c -> word s -> word (String c s).
Inductive chunks : string -> Prop :=
| chunks_one s : word s -> chunks s
| chunks_more s t : word s -> chunks t -> chunks (s ++ String "_" t).
Definition proper_name (s : string) : Prop := chunks s /\ exists c r, s = String c r /\ lower_case c.

(** member [name] of the class has the alias [a] *)
Definition has_alias (c : class) (name a : string) : Prop :=
  exists m al, In (name, m) c /\ m_aliases m = Some al /\ In a al.
