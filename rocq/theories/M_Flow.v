(** M_Flow: what plot_flow draws.  Model only.
    A diagram is the vertical extents of its bars, the ends of its flows and the horizontal
    positions; the cosine curves between the ends, colours, texts and ticks are left out. *)
From Verif Require Export M_Measures.
Open Scope nat_scope.
Open Scope res_scope.

(** numpy.cumsum and numpy.clip *)
Definition cumulate (v : vec) : vec := tab (length v) (fun i => sumn (S i) (vget v)).
Definition clip01 (x : Qc) : Qc := Qcmax 0 (Qcmin x 1).

(** /repo/pydtmc/plotting.py 475: list(range(0, steps * interval + 1, interval)) *)
Definition flow_indices (steps interval : nat) : list nat := map (fun c => c * interval) (seq 0 (S steps)).
(** lines 476-477: redistribute up to the last index, and the distributions at the indices *)
Definition flow_distributions (p : mat) (steps interval : nat) (x : vec) : res (list vec) :=
  let indices := flow_indices steps interval in
  ds <- redistribute_all p (last indices 0) x ;;
  Ok (map snd (filter (fun e => memn (fst e) indices) (combine (seq 0 (length ds)) ds))).

(** lines 350-368 _get_boundaries, one column: lower and upper ends of the bars (the vertical axis is
    inverted, so that the lower end in this sense is drawn on top); k = 0.1 / (i - 1.0) *)
Definition flow_gap (n : nat) : Qc := (Q2Qc (1 # 10) / (Qcn n - 1))%Qc.
Definition bar_bottoms (d : vec) : vec :=
  let k := flow_gap (length d) in let c := cumulate (map (fun y => y + k)%Qc d) in
  tab (length d) (fun i => clip01 (vget c i - vget d i - k)).
Definition bar_tops (d : vec) : vec :=
  let k := flow_gap (length d) in let c := cumulate (map (fun y => y + k)%Qc d) in
  tab (length d) (fun i => clip01 (vget c i - k)).

(** The two ends of a flow: from [fl_l0, fl_l1] at the right side of the bar on the left to
    [fl_r0, fl_r1] at the left side of the bar on the right. *)
Record stripe := mkstripe { fl_l0 : Qc; fl_l1 : Qc; fl_r0 : Qc; fl_r1 : Qc }.
(** lines 434-455: the loop over the bars of a column, bj being updated by each of them; a row of the
    result has the flows of one bar *)
Fixpoint flow_rows (q : mat) (d bb : vec) (bj : vec) (rows : list nat) : list (list stripe) :=
  match rows with
  | [] => []
  | oi :: rest =>
    let qi := mrow q oi in
    let qis := cumulate qi in
    let tl := tab (length qi) (fun z => (vget qis z - vget qi z) * vget d oi + vget bb oi)%Qc in
    let bl := tab (length qi) (fun z => vget qis z * vget d oi + vget bb oi)%Qc in
    let br := tab (length qi) (fun z => vget bj z + vget bl z - vget tl z)%Qc in
    tab (length qi) (fun z => mkstripe (vget tl z) (vget bl z) (vget bj z) (vget br z))
    :: flow_rows q d bb (tab (length qi) (fun z => vget bj z + (vget bl z - vget tl z))%Qc) rest
  end.
(** lines 422-459 _get_polygons_flows for the columns oj and oj + 1; q is the power of the transition
    matrix to the difference of the two indices *)
Definition flow_column (p : mat) (interval : nat) (d d' : vec) : list (list stripe) :=
  flow_rows (mpow p interval) d (bar_bottoms d) (bar_bottoms d') (seq 0 (length d)).

(** lines 450-525: the diagram.  Each column is a list of bars (bottom, top); column c reaches from
    c - w to c + w with w = (steps + 1) / 40, and the visible range is that of _xticks_steps (line 151). *)
Record diagram := mkdiagram {
  fd_bars : list (list (Qc * Qc));
  fd_flows : list (list (list stripe));
  fd_halfwidth : Qc;
  fd_xlim : Qc * Qc
}.
Fixpoint flow_columns (p : mat) (interval : nat) (ds : list vec) : list (list (list stripe)) :=
  match ds with
  | d :: ((d' :: _) as rest) => flow_column p interval d d' :: flow_columns p interval rest
  | _ => []
  end.
(** lines 463-466, 475-525; the validation of the initial status is that of redistribute *)
Definition plot_flow (p : mat) (steps interval : nat) (x : vec) : res diagram :=
  guard Nat.leb 1 steps && Nat.leb 1 interval else ValueErr ;;
  distributions <- flow_distributions p steps interval x ;;
  let ds := map (map (fun y => y * Q2Qc (9 # 10))%Qc) distributions in
  Ok (mkdiagram (map (fun d => combine (bar_bottoms d) (bar_tops d)) ds) (flow_columns p interval ds)
        (Qcn (length ds) / Q2Qc 40)%Qc ((- Q2Qc (1 # 2))%Qc, (Qcn steps - Q2Qc (1 # 2))%Qc)).

(** lines 430-431: the horizontal ends of the flows that leave column c *)
Definition flow_from (f : diagram) (c : nat) : Qc := (Qcn c + fd_halfwidth f)%Qc.
Definition flow_to (f : diagram) (c : nat) : Qc := (Qcn c - fd_halfwidth f + 1)%Qc.
(** lines 402-403 *)
Definition bar_left (f : diagram) (c : nat) : Qc := (Qcn c - fd_halfwidth f)%Qc.
Definition bar_right (f : diagram) (c : nat) : Qc := (Qcn c + fd_halfwidth f)%Qc.
