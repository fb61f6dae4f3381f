(** S_Flow: what an alluvial diagram should show.  Specification only. *)
From Verif Require Import M_Flow S_Measures.
Open Scope nat_scope.

(** The bar of state i in column t, as (bottom, top), and the flow from it to the bar of j in the
    next column. *)
Definition bar (f : diagram) (t i : nat) : Qc * Qc := nth i (nth t (fd_bars f) []) (0q, 0q).
Definition stripe_of (f : diagram) (t i j : nat) : stripe := nth j (nth i (nth t (fd_flows f) []) []) (mkstripe 0 0 0 0).

(** In every column the bars of the n states lie one after the other in [0, 1], separated by gaps
    of the same size and sharing nine tenths of the height in proportion to y. *)
Definition bars_drawn (n steps : nat) (y : nat -> nat -> Qc) (f : diagram) : Prop :=
  length (fd_bars f) = S steps /\
  forall t, t <= steps -> length (nth t (fd_bars f) []) = n /\ fst (bar f t 0) = 0q /\ snd (bar f t (n - 1)) = 1q /\
  forall i, i < n -> (snd (bar f t i) - fst (bar f t i) = Q2Qc (9 # 10) * y t i)%Qc /\ (0 <= fst (bar f t i))%Qc /\ (snd (bar f t i) <= 1)%Qc /\
    (S i < n -> fst (bar f t (S i)) = (snd (bar f t i) + Q2Qc (1 # 10) / (Qcn n - 1))%Qc).

(** The flows that leave a bar divide it from end to end in the order of their targets, those that
    arrive at a bar divide it in the order of their sources, and the flow from i to j has at both
    ends the height that belongs to the mass z t i j. *)
Definition flows_drawn (n steps : nat) (z : nat -> nat -> nat -> Qc) (f : diagram) : Prop :=
  length (fd_flows f) = steps /\
  forall t, t < steps -> length (nth t (fd_flows f) []) = n /\
  (forall i, i < n -> length (nth i (nth t (fd_flows f) []) []) = n /\
    fl_l0 (stripe_of f t i 0) = fst (bar f t i) /\ fl_l1 (stripe_of f t i (n - 1)) = snd (bar f t i) /\
    fl_r0 (stripe_of f t 0 i) = fst (bar f (S t) i) /\ fl_r1 (stripe_of f t (n - 1) i) = snd (bar f (S t) i)) /\
  forall i j, i < n -> j < n ->
    (fl_l1 (stripe_of f t i j) - fl_l0 (stripe_of f t i j) = Q2Qc (9 # 10) * z t i j)%Qc /\
    (fl_r1 (stripe_of f t i j) - fl_r0 (stripe_of f t i j) = Q2Qc (9 # 10) * z t i j)%Qc /\
    (S j < n -> fl_l0 (stripe_of f t i (S j)) = fl_l1 (stripe_of f t i j)) /\
    (S i < n -> fl_r0 (stripe_of f t (S i) j) = fl_r1 (stripe_of f t i j)).
