(** S_Io: what reading back and writing out must satisfy. *)
From Verif Require Export S_Gen S_Validation M_Io.
Open Scope nat_scope.

(** The chains the public constructor accepts. *)
Definition accepted_chain (n : nat) (c : chain) : Prop :=
  2 <= n /\ wf n n (ch_p c) /\ probabilities n n (ch_p c) /\ nearly_stochastic n n (ch_p c) /\ names_ok n (ch_states c).
(** The object holding that matrix and these names. *)
Definition as_object (c : chain) : robj := mkrobj (map (map Fin) (ch_p c)) (ch_states c).

(** The hidden Markov models the public constructor accepts. *)
Definition accepted_hmm (n k : nat) (o : hobj) : Prop :=
  2 <= n /\ 2 <= k /\ wf n n (ho_p o) /\ probabilities n n (ho_p o) /\ nearly_stochastic n n (ho_p o)
  /\ wf n k (ho_e o) /\ probabilities n k (ho_e o) /\ nearly_stochastic n k (ho_e o)
  /\ names_ok n (ho_states o) /\ names_ok k (ho_symbols o)
  /\ forall s, In s (ho_states o) -> ~ In s (ho_symbols o).
Definition as_hmm_object (o : hobj) : rhobj :=
  mkrhobj (map (map Fin) (ho_p o)) (map (map Fin) (ho_e o)) (ho_states o) (ho_symbols o).

(** A dictionary given by the caller: its keys are distinct Python values. *)
Definition is_pydict (entries : list (pyval * pyval)) : Prop := NoDup (map fst entries).
(** The entries are exactly one number per pair of names of l, with the values P. *)
Definition table_of (entries : list (pyval * pyval)) (n : nat) (l : list string) (P : mat) : Prop :=
  (forall k v, In (k, v) entries -> exists i j, i < n /\ j < n /\
     k = PTuple [PStr (nth i l EmptyString); PStr (nth j l EmptyString)] /\ number_value v (Fin (mget P i j)))
  /\ (forall i j, i < n -> j < n -> exists v, In (PTuple [PStr (nth i l EmptyString); PStr (nth j l EmptyString)], v) entries).
(** The names appear in the order in which the keys (s, s) appear. *)
Definition diagonal_order (entries : list (pyval * pyval)) (n : nat) (l : list string) : Prop :=
  forall i j, i < j -> j < n -> exists a b va vb, a < b /\
    nth_error entries a = Some (PTuple [PStr (nth i l EmptyString); PStr (nth i l EmptyString)], va) /\
    nth_error entries b = Some (PTuple [PStr (nth j l EmptyString); PStr (nth j l EmptyString)], vb).

(** The conversion of a number to text and back. *)
Definition survives (show : num -> text) (float : text -> option num) (x : num) : Prop :=
  float (show x) = Some x.
(** A non-empty text of visible characters without commas and quotes. *)
Definition plain (t : text) : Prop :=
  t <> [] /\ forall c, In c t -> is_space c = false /\ c <> ","%char /\ c <> """"%char.
(** A name without white space. *)
Definition spaceless (s : string) : Prop := forall c, In c (chars s) -> is_space c = false.
(** No NUL character. *)
Definition no_nul (s : string) : Prop := ~ In "000"%char (chars s).
Definition entries_of (P : mat) : list num := map Fin (concat P).

(** Decimal digits, and the way Python writes a non-negative float (its repr): digits
    without superfluous leading zeros, then possibly a fraction, then possibly an exponent. *)
Definition digits (t : text) : Prop := forall c, In c t -> In c (chars "0123456789").
Definition decimal (t : text) : Prop :=
  exists i f e, t = i ++ f ++ e
    /\ (i = ["0"%char] \/ exists c ds, i = c :: ds /\ In c (chars "123456789") /\ digits ds)
    /\ (f = [] \/ exists ds, f = "."%char :: ds /\ ds <> [] /\ digits ds)
    /\ (e = [] \/ exists s ds, e = "e"%char :: s ++ ds /\ (s = [] \/ s = ["-"%char] \/ s = ["+"%char]) /\ ds <> [] /\ digits ds).
(** A name without leading and trailing white space. *)
Definition trimmed (s : string) : Prop :=
  forall c r, (chars s = c :: r \/ chars s = r ++ [c]) -> is_space c = false.
(** Only characters that XML 1.0 allows. *)
Definition xml_text (s : string) : Prop :=
  forall c, In c (chars s) -> 32 <= nat_of_ascii c \/ c = "009"%char \/ c = "010"%char \/ c = "013"%char.
