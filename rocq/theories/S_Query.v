(** S_Query: what the answers about single states and the lines of a summary should be. *)
From Verif Require Export S_Validation S_Measures S_Props S_Det M_Query.
Open Scope nat_scope.

(** The communicating classes, the closed ones (rcs) and the others (tcs). *)
Definition classes_of (n : nat) (E : nat -> nat -> Prop) (rcs tcs : list (list nat)) : Prop :=
  partition_of n (rcs ++ tcs) /\
  (forall B i j, In B (rcs ++ tcs) -> In i B -> j < n -> (In j B <-> reach n E i j /\ reach n E j i)) /\
  (forall B, In B rcs -> closed n E B) /\ (forall B, In B tcs -> ~ closed n E B).
(** The lines of a text. *)
Definition printed (l : list string) : string := String.concat (String (Ascii.ascii_of_nat 10) "") l.
Definition says (b : bool) : string := if b then "YES"%string else "NO"%string.
(** The layout of the two summaries. *)
Definition chain_lines (n rk nr nt : nat) (e a : bool) (d : Z) (ir ab mo rg rv sy : bool) : list string :=
  [""%string; "DISCRETE-TIME MARKOV CHAIN"%string;
   (" SIZE:           " ++ dec n)%string;
   (" RANK:           " ++ dec rk)%string;
   (" CLASSES:        " ++ dec (nr + nt))%string;
   ("  > RECURRENT:   " ++ dec nr)%string;
   ("  > TRANSIENT:   " ++ dec nt)%string;
   (" ERGODIC:        " ++ says e)%string;
   ("  > APERIODIC:   " ++ (if a then "YES" else "NO (" ++ dec (Z.to_nat d) ++ ")"))%string;
   ("  > IRREDUCIBLE: " ++ says ir)%string;
   (" ABSORBING:      " ++ says ab)%string;
   (" MONOTONE:       " ++ says mo)%string;
   (" REGULAR:        " ++ says rg)%string;
   (" REVERSIBLE:     " ++ says rv)%string;
   (" SYMMETRIC:      " ++ says sy)%string;
   ""%string].
Definition hmm_lines (n k : nat) (e r : bool) : list string :=
  [""%string; "HIDDEN MARKOV MODEL"%string; (" STATES:  " ++ dec n)%string; (" SYMBOLS: " ++ dec k)%string;
   (" ERGODIC: " ++ says e)%string; (" REGULAR: " ++ says r)%string; ""%string].
