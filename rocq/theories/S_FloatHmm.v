(** S_FloatHmm: possible observations of a hidden model. *)
From Coq Require Import Reals List.
From Verif Require Import S_Float.
Import ListNotations.
Local Open Scope R_scope.

(** from state [cur], every move and every symbol has a positive probability *)
Fixpoint possible_run (n k : nat) (p e : nat -> nat -> R) (cur : nat) (r : list (nat * nat)) : Prop :=
  match r with
  | [] => True
  | (s, y) :: r => (s < n)%nat /\ (y < k)%nat /\ 0 < p cur s /\ 0 < e s y /\ possible_run n k p e s r
  end.
(** draws between 0 and 1, both excluded *)
Definition inner_draws (us : list (R * R)) : Prop := forall u v, In (u, v) us -> 0 < u < 1 /\ 0 < v < 1.
(** the final state or the final symbol *)
Definition is_final (fs fy : option nat) (sy : nat * nat) : Prop := fs = Some (fst sy) \/ fy = Some (snd sy).
(** the run has [m] entries, or stops at the first final one *)
Definition stops (fs fy : option nat) (m : nat) (r : list (nat * nat)) : Prop :=
  (length r <= m)%nat /\ (forall sy, In sy (removelast r) -> ~ is_final fs fy sy) /\
  (length r = m \/ exists r' sy, r = r' ++ [sy] /\ is_final fs fy sy).
(** rows of [k] non-negative numbers that sum to one *)
Definition rowsR (n k : nat) (e : nat -> nat -> R) : Prop :=
  (forall i j, (i < n)%nat -> (j < k)%nat -> 0 <= e i j) /\ (forall i, (i < n)%nat -> rsumn k (e i) = 1).
