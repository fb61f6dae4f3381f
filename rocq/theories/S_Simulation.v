(** S_Simulation: what simulated and predicted walks must satisfy, independently of
    the model of the code. *)
From Verif Require Export S_Chain.

(** Every transition of the list of states has positive probability. *)
Definition possible_walk (n : nat) (P : mat) (w : list nat) : Prop :=
  (forall k, k < length w -> nth k w 0 < n) /\
  (forall k, S k < length w -> edge P (nth k w 0) (nth (S k) w 0)).

(** Stops at the first arrival in f: no earlier entry (apart from the start) is f,
    and the walk is shorter than [steps] transitions only because it ended in f. *)
Definition stops_at (steps : nat) (final : option nat) (w : list nat) : Prop :=
  match final with
  | None => length w = steps + 1
  | Some f => (forall k, 1 <= k -> S k < length w -> nth k w 0 <> f) /\
              (length w <= steps + 1) /\ (length w = steps + 1 \/ (2 <= length w /\ nth (length w - 1) w 0 = f))
  end.

(** Probability of a list of states: product of the transition probabilities. *)
Fixpoint walk_prob (P : mat) (w : list nat) : Qc :=
  match w with
  | i :: ((j :: _) as r) => (mget P i j * walk_prob P r)%Qc
  | _ => 1q
  end.

(** A walk of maximal probability among those of the same length and start. *)
Definition most_probable (n : nat) (P : mat) (w : list nat) : Prop :=
  forall w', length w' = length w -> nth 0 w' 0 = nth 0 w 0 -> (forall k, k < length w' -> nth k w' 0 < n) ->
    (walk_prob P w' <= walk_prob P w)%Qc.

(** j is the strictly most probable successor of i. *)
Definition strict_best (n : nat) (P : mat) (i j : nat) : Prop :=
  j < n /\ forall k, k < n -> k <> j -> (mget P i k < mget P i j)%Qc.

(** The half-open interval of draws assigned to successor j of i: lengths are the
    transition probabilities and the intervals are laid out in state order. *)
Definition in_slot (P : mat) (i j : nat) (u : Qc) : Prop :=
  (sumn j (mget P i) <= u /\ u < sumn j (mget P i) + mget P i j)%Qc.

(** The greedy walk: every transition is the strictly best one. *)
Definition greedy (n : nat) (P : mat) (w : list nat) : Prop :=
  forall k, S k < length w -> strict_best n P (nth k w 0) (nth (S k) w 0).

(** Uniform draws lie in [0,1). *)
Definition unit_draws (u : nat -> Qc) : Prop := forall t, (0 <= u t)%Qc /\ (u t < 1q)%Qc.
