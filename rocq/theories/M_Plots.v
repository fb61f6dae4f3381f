(** M_Plots: plot_sequence, plot_redistributions and plot_comparison up to the drawing calls.  Model only. *)
From Coq Require Import Ascii String.
From Verif Require Export M_Measures M_Simulation M_Hmm.
Open Scope nat_scope.
Open Scope res_scope.

(** /repo/pydtmc/plotting.py 1180-1183 and 1213-1216: zeros, and a one in row [state] of column [index] *)
Definition sequence_matrix (size walk_steps : nat) (sequence : list nat) : mat :=
  mk size walk_steps (fun state index => match nth_error sequence index with Some s => if Nat.eqb s state then 1q else 0q | None => 0q end).
(** lines 1180-1185: row sums over the total *)
Definition sequence_histogram (size walk_steps : nat) (sequence : list nat) : vec :=
  let m := sequence_matrix size walk_steps sequence in
  let total := lsum (map lsum m) in map (fun row => lsum row / total)%Qc m.
(** lines 1144-1149: the moves i - 1 to i for i in range(1, walk_steps), counted in the matrix, over the
    number of all *)
Definition sequence_heatmap (size walk_steps : nat) (sequence : list nat) : mat :=
  let counts := mk size size (fun a b => lsum (map (fun i => if Nat.eqb (nth (i - 1) sequence 0) a && Nat.eqb (nth i sequence 0) b then 1q else 0q) (seq 1 (walk_steps - 1)))) in
  let total := lsum (map lsum counts) in map (map (fun x => x / total)%Qc) counts.
(** lines 146-151 _xticks_steps: the visible range *)
Definition xlim_steps (length : nat) : Qc * Qc := ((- Q2Qc (1 # 2))%Qc, (Qcn length - Q2Qc (1 # 2))%Qc).

Inductive sequence_plot :=
| Heatmap (m : mat)
| Histogram (h : vec)
| Dots (m : mat) (xlim : Qc * Qc).
Inductive sequence_kind := KHeatmap | KHistogram | KMatrix.
(** lines 1257-1262 and the three functions above: the plot of one sequence *)
Definition one_sequence (kind : sequence_kind) (size walk_steps : nat) (sequence : list nat) : sequence_plot :=
  match kind with
  | KHeatmap => Heatmap (sequence_heatmap size walk_steps sequence)
  | KHistogram => Histogram (sequence_histogram size walk_steps sequence)
  | KMatrix => Dots (sequence_matrix size walk_steps sequence) (xlim_steps walk_steps)
  end.
(** lines 1222-1262 for a Markov chain: one plot; simulate is called without a final state *)
Definition plot_sequence (p : mat) (steps : nat) (initial_state : option nat) (kind : sequence_kind) (r : nat) (u : nat -> Qc) : res sequence_plot :=
  guard Nat.leb 2 steps else ValueErr ;;
  w <- simulate p steps initial_state None r u ;;
  Ok (one_sequence kind (nrows p) (steps + 1) w).
(** the same for a hidden Markov model: the states above, the symbols below.  The initial state is the given
    one or the random one. *)
Definition plot_sequence_hmm (h : hmm) (steps init : nat) (kind : sequence_kind) (c0 : Qc) (pr er : nat -> Qc) : res (sequence_plot * sequence_plot) :=
  guard Nat.leb 2 steps else ValueErr ;;
  let s := hmm_simulate h steps init None None c0 pr er in
  Ok (one_sequence kind (nrows (h_p h)) (steps + 1) (fst s), one_sequence kind (ncols (h_e h)) (steps + 1) (snd s)).

(** numpy.array_equal *)
Definition array_equal (a b : vec) : bool := Nat.eqb (length a) (length b) && forallb (fun e => Qceqb (fst e) (snd e)) (combine a b).
(** lines 1019-1046: the points (t, distributions[t][i]) of each state and the visible ranges; a given status
    is compared with the first distribution.  [uniform] is the status used if none is given. *)
Record projection := mkprojection { pj_points : list (list (Qc * Qc)); pj_xlim : Qc * Qc; pj_ylim : Qc * Qc }.
Definition even_status (n : nat) : vec := tab n (fun _ => 1 / Qcn n)%Qc.
Definition plot_redistributions (p : mat) (redistributions : nat) (initial_status : option vec) : res projection :=
  guard Nat.leb 1 redistributions else ValueErr ;;
  ds <- redistribute_all p redistributions (match initial_status with Some x => x | None => even_status (nrows p) end) ;;
  guard match initial_status with Some x => array_equal (nth 0 ds []) x | None => true end else ValueErr ;;
  Ok (mkprojection (tab (nrows p) (fun i => tab (length ds) (fun t => (Qcn t, vget (nth t ds []) i))))
       (xlim_steps (length ds)) ((- Q2Qc (5 # 100))%Qc, Q2Qc (105 # 100))).

(** lines 200-212: rows and columns of the grid, and which model is drawn in which subplot: zip stops at the
    end of the shortest list.  int(math.sqrt(space)) is the integer square root. *)
Definition grid (space : nat) : nat * nat := let rows := Nat.sqrt space in (rows, (space + rows - 1) / rows).
(** [models] stands for the matrices to draw *)
Definition plot_comparison {A B} (models : list A) (names : list B) : res (list (nat * A * B)) :=
  guard Nat.leb 2 (length models) && Nat.eqb (length names) (length models) else ValueErr ;;
  let (rows, columns) := grid (length models) in
  Ok (map (fun e => (fst (fst e), snd (fst e), snd e)) (combine (combine (seq 0 (rows * columns)) models) names)).
(** utilities.py 165-176 create_models_names: [hidden] tells for each model whether it is a hidden Markov
    model; a name is kept as its label and number *)
Definition models_names (hidden : list bool) : list (string * nat) :=
  let label := if forallb (fun h => h) hidden then "HMM"%string else if forallb negb hidden then "MC"%string else "MODEL"%string in
  map (fun i => (label, i + 1)) (seq 0 (length hidden)).
