(** S_Disk: what files must do to names, crashes and cuts. *)
From Verif Require Export S_Files M_Disk.
Open Scope nat_scope.

(** The four extensions, without their dot. *)
Definition extension (f : format) : text :=
  match f with Csv => chars "csv" | Json => chars "json" | Xml => chars "xml" | Txt => chars "txt" end.
(** The extension of a file name is what follows its last dot, when something other than
    dots stands before it; upper and lower case are the same. *)
Definition has_extension (name : text) (f : format) : Prop :=
  exists base w, name = base ++ "."%char :: w /\ lower w = extension f /\ exists c, In c base /\ c <> "."%char.
(** No other dot in the name, except at its beginning. *)
Definition one_dot (name : text) : Prop :=
  exists dots base w, name = dots ++ base ++ "."%char :: w /\ (forall c, In c dots -> c = "."%char)
    /\ base <> [] /\ ~ In "."%char base /\ ~ In "."%char w.

(** A text and a beginning of it that is not all of it. *)
Definition cut_short (p t : text) : Prop := exists q, q <> [] /\ t = p ++ q.
(** The object is the chain, except that the last entry of its matrix may be off by
    twice the tolerance of the constructor. *)
Definition nearly_chain (n : nat) (c : chain) (o : robj) : Prop :=
  exists P, o = as_object (mkchain P (ch_states c)) /\ wf n n P
    /\ (forall i j, i < n -> j < n -> (i, j) <> (n - 1, n - 1) -> mget P i j = mget (ch_p c) i j)
    /\ (Qcabs (mget P (n - 1) (n - 1) - mget (ch_p c) (n - 1) (n - 1)) <= tolerance + tolerance)%Qc.
(** The object is the hidden Markov model, except that the last row of its emission
    matrix may be another row of sum one. *)
Definition same_but_last_row (n k : nat) (o : hobj) (o' : rhobj) : Prop :=
  exists E, o' = as_hmm_object (mkhobj (ho_p o) E (ho_states o) (ho_symbols o)) /\ wf n k E /\ nearly_stochastic n k E
    /\ (forall i j, i < n - 1 -> j < k -> mget E i j = mget (ho_e o) i j).
(** The object is the hidden Markov model, except that the last entry of its emission
    matrix may be off by twice the tolerance of the constructor. *)
Definition nearly_hmm (n k : nat) (o : hobj) (o' : rhobj) : Prop :=
  exists E, o' = as_hmm_object (mkhobj (ho_p o) E (ho_states o) (ho_symbols o)) /\ wf n k E
    /\ (forall i j, i < n -> j < k -> (i, j) <> (n - 1, k - 1) -> mget E i j = mget (ho_e o) i j)
    /\ (Qcabs (mget E (n - 1) (k - 1) - mget (ho_e o) (n - 1) (k - 1)) <= tolerance + tolerance)%Qc.

(** A chain that the format can hold: accepted by the constructor, with numbers that
    Python prints and reads back, and names that fit the format. *)
Definition writable_chain (show : num -> text) (float : text -> option num) (limit : nat) (nul_ok : bool) (n : nat) (f : format) (c : chain) : Prop :=
  accepted_chain n c /\ prints show float n n (ch_p c) /\ (f = Csv -> short show limit n n (ch_p c))
  /\ (forall s, In s (ch_states c) -> name_fits limit nul_ok f s).
Definition writable_hmm (show : num -> text) (float : text -> option num) (limit : nat) (nul_ok : bool) (n k : nat) (f : format) (o : hobj) : Prop :=
  accepted_hmm n k o /\ prints show float n n (ho_p o) /\ prints show float n k (ho_e o)
  /\ (f = Csv -> short show limit n n (ho_p o) /\ short show limit n k (ho_e o))
  /\ (forall s, In s (ho_states o) \/ In s (ho_symbols o) -> hmm_name_fits limit nul_ok f s).
