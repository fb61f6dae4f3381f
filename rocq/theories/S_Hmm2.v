(** S_Hmm2: which positions a selection argument of HiddenMarkovModel.restrict stands
    for. *)
From Verif Require Export S_Hmm M_Hmm.
From Coq Require Import Sorted Permutation.
(** Nothing given: all; a single label: that one; a list: the same labels, without
    repetition, in increasing order. *)
Definition selected (n : nat) (s : option sel) (l : list nat) : Prop :=
  match s with
  | None => l = seq 0 n
  | Some (SelOne i) => i < n /\ l = [i]
  | Some (SelList l0) => Permutation.Permutation l0 l /\ Sorted le l /\ NoDup l /\ 2 <= length l <= n - 1 /\ (forall i, In i l -> i < n)
  end.
