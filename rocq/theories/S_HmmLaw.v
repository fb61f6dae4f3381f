(** S_HmmLaw: the law of a simulated hidden Markov model. *)
From Verif Require Export S_Hmm S_Simulation S_Gen S_Validation S_Measures M_HmmMore.
Close Scope R_scope.
Open Scope nat_scope.

(** The interval of draws assigned to column j of row i: open on the left and closed on the right,
    the first one closed on both sides.  Its length is the probability of j. *)
Definition in_slot_right (P : mat) (i j : nat) (u : Qc) : Prop :=
  (u <= sumn j (mget P i) + mget P i j)%Qc /\ ((sumn j (mget P i) < u)%Qc \/ j = 0).
(** What the caller sees of a list of positions. *)
Definition shown (index : bool) (names : list string) (l : list nat) (o : labels_out) : Prop :=
  if index then o = Indices l else exists t, o = Names t /\ Forall2 (fun i s => nth_error names i = Some s) l t.
(** An optional argument: missing, or designating a name. *)
Definition chosen (labels : list string) (v : option pyval) (o : option nat) : Prop :=
  match v, o with None, None => True | Some v, Some i => designates1 labels v i | _, _ => False end.
(** After exactly m steps, from whatever state, every state emitting every symbol has positive probability. *)
Definition mixes (n k : nat) (P E : mat) (m : nat) : Prop :=
  forall i s y, i < n -> s < n -> y < k -> (0 < kstep n P m i s * mget E s y)%Qc.
