(** M_GraphPlot: nodes, colours, shapes and edge labels of plot_graph.  Model only.
    States are their positions; layout, fonts and the drawing itself are left out. *)
From Coq Require Import Qround.
From Verif Require Export M_Struct.
Open Scope nat_scope.

(** numpy.min of a matrix *)
Definition mat_min (M : mat) : Qc := match concat M with [] => 0q | a :: l => fold_left Qcmin l a end.
(** /repo/pydtmc/plotting.py 554-556: 0 for a least entry of 0, and otherwise -floor(log10(least entry)).
    log10 is taken as exact; five or more digits are cut off at four afterwards (line 559), so that the
    digits beyond four are not counted. *)
Definition digits_of (m : Qc) : nat :=
  if Qceqb m 0 then 0 else if Qcleb 1 m then 0 else if Qcleb (Q2Qc (1 # 10)) m then 1
  else if Qcleb (Q2Qc (1 # 100)) m then 2 else if Qcleb (Q2Qc (1 # 1000)) m then 3 else 4.
(** lines 550-561 _calculate_magnitude *)
Definition magnitude (elements : list mat) : nat :=
  Nat.max 1 (Nat.min (fold_left Nat.max (map (fun e => digits_of (mat_min e)) elements) 0) 4).

(** round(x, m) and the format .{m}f: the nearest multiple of 10^-m, ties to even; the result is the
    numerator.  (For doubles halves are the exact binary halves.) *)
Definition nearest (x : Qc) : Z :=
  let f := Qfloor (this x) in
  let r := (x - Q2Qc (inject_Z f))%Qc in
  if Qcltb r (Q2Qc (1 # 2)) then f else if Qcltb (Q2Qc (1 # 2)) r then (f + 1)%Z else if Z.even f then f else (f + 1)%Z.
Definition ten_to (m : nat) : Qc := Q2Qc (inject_Z (10 ^ Z.of_nat m)).
Definition edge_label (m : nat) (x : Qc) : Z := nearest (x * ten_to m)%Qc.

(** lines 855-873 and 920-946: for each pair of states, if the probability is positive, an edge with its
    label.  Also lines 677-694 and 767-795 for the state edges, and 696-713 and 797-810 for the symbol
    edges, of a hidden Markov model (with columns for symbols). *)
Definition labelled_edges (m : nat) (p : mat) (cols : nat) : list (nat * nat * Z) :=
  flat_map (fun i => map (fun j => (i, j, edge_label m (mget p i j))) (filter (fun j => Qcltb 0 (mget p i j)) (seq 0 cols))) (seq 0 (nrows p)).
Definition chain_edges (p : mat) : list (nat * nat * Z) := labelled_edges (magnitude [p]) p (nrows p).
Definition hmm_edges (p e : mat) : list (nat * nat * Z) * list (nat * nat * Z) :=
  let m := magnitude [p; e] in (labelled_edges m p (nrows p), labelled_edges m e (ncols e)).

(** lines 610-629 _node_colors: positions in the list of the nine colours (line 96) *)
Fixpoint node_colors (count offset : nat) : list nat :=
  match count with
  | 0 => []
  | S c => offset :: node_colors c (if Nat.ltb 8 (offset + 1) then 0 else offset + 1)
  end.
(** lines 840-847 and 895-901: the colour of the first class that has the state, with the colours made
    for as many as there are classes; None is the default colour *)
Fixpoint class_color (i : nat) (classes : list (list nat)) (colors : list nat) : option nat :=
  match classes, colors with
  | c :: cs, k :: ks => if memn i c then Some k else class_color i cs ks
  | _, _ => None
  end.
Definition node_color (comps : list (list nat)) (i : nat) : option nat :=
  let classes := communicating_indices comps in class_color i classes (node_colors (length classes) 0).
(** lines 644, 735: a state of a hidden Markov model *)
Definition hmm_color (n i : nat) : option nat := nth_error (node_colors n 0) i.
(** lines 849-853 and 903-909: rectangular (box, s) or round (ellipse, o) *)
Definition rectangular (p : mat) (comps : list (list nat)) (i : nat) : bool := memn i (transient_states_indices p comps).
