(** S_Plots: what a plot of a sequence has to show. *)
From Verif Require Export M_Plots S_Measures.
Open Scope nat_scope.

(** [w] has the entries w_0, ..., w_steps below [n].  The histogram pictures the share of the entries with each value,
    the heatmap the share of the moves with each pair of values, the matrix a mark in the row w_t of every
    column t, and every column lies in the visible range. *)
Definition pictures (n steps : nat) (w : list nat) (kind : sequence_kind) (pl : sequence_plot) : Prop :=
  match kind, pl with
  | KHistogram, Histogram h => length h = n /\ forall s, s < n -> vget h s = (Qcn (count_occ Nat.eq_dec w s) / Qcn (steps + 1))%Qc
  | KHeatmap, Heatmap m => wf n n m /\ forall a b, a < n -> b < n -> mget m a b = (Qcn (count_moves a b w) / Qcn steps)%Qc
  | KMatrix, Dots m xl => wf n (steps + 1) m /\ forall t, t <= steps ->
      (forall s, s < n -> mget m s t = if Nat.eqb (nth t w 0) s then 1q else 0q) /\
      (fst xl <= Qcn t - Q2Qc (1 # 2))%Qc /\ (Qcn t + Q2Qc (1 # 2) <= snd xl)%Qc
  | _, _ => False
  end.
