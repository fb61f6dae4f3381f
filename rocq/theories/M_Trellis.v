(** M_Trellis: what plot_trellis draws.  Model only.
    A plot is the numbers, headers and colours of its nodes and the list of its edges; sizes,
    positions and fonts are left out. *)
From Verif Require Export M_Hmm.
Open Scope nat_scope.
Open Scope res_scope.

(** A node of the lattice: row (a state) and column.  The code numbers it row * f + col. *)
Definition lnode := (nat * nat)%type.
Record lattice := mklattice {
  la_cols : nat;                          (* number of columns *)
  la_number : lnode -> Qc;                (* the number in a node, before it is rounded to two digits *)
  la_header : nat -> option nat;          (* the symbol above a column; None is the text T0 *)
  la_node_marked : lnode -> bool;         (* whether a node has the colour of the path, _default_color_path *)
  la_edges : list (lnode * lnode * bool)  (* from, to, whether in the colour of the path *)
}.
Definition at_col (M : list vec) (x : lnode) : Qc := vget (nth (snd x) M []) (fst x).
(** /repo/pydtmc/plotting.py 1317, 1413 *)
Definition header (symbols : list nat) (col : nat) : option nat := if Nat.eqb col 0 then None else Some (nth col symbols 0).
(** lines 1326 and 1374 *)
Definition marked_node (path : list nat) (x : lnode) : bool := Nat.eqb (nth (snd x) path 0) (fst x).
(** lines 1331-1343 and 1387-1399: the loops over row, col and row_next with their conditions; line 1337
    (1393) looks at the entry [col] of the initial distribution *)
Definition lattice_moves (n f : nat) (p : mat) (init : vec) : list (nat * nat * nat) :=
  flat_map (fun row =>
    flat_map (fun col =>
      if Nat.eqb col 0 && negb (Qcltb 0 (vget init col)) then []
      else map (fun next => (row, col, next)) (filter (fun next => Qcltb 0 (mget p row next)) (seq 0 n)))
    (seq 0 (f - 1)))
  (seq 0 n).
(** lines 1295-1355 _generate_trellis_extended *)
Definition trellis_extended (n : nat) (p : mat) (init : vec) (symbols : list nat) (fw : bool) (M : list vec) (path : list nat) : lattice :=
  let f := length symbols in
  mklattice f (at_col M) (header symbols) (marked_node path)
    (map (fun m => let '(row, col, next) := m in
            (if fw then (row, col) else (next, S col), if fw then (next, S col) else (row, col),
             Nat.eqb (nth col path 0) row && Nat.eqb (nth (S col) path 0) next))
         (lattice_moves n f p init)).
(** networkx.DiGraph: the edges are listed node after node in the order in which the nodes were
    added, and for a node in the order in which its edges were added.  The nodes of the lattice were
    added row after row (lines 1367-1381); the edges of the lattice are added only once each. *)
Definition leaves (row col : nat) (e : lnode * lnode) : bool := Nat.eqb (fst (fst e)) row && Nat.eqb (snd (fst e)) col.
Definition nx_edges (n f : nat) (added : list (lnode * lnode)) : list (lnode * lnode) :=
  flat_map (fun row => flat_map (fun col => filter (leaves row col) added) (seq 0 f)) (seq 0 n).
(** lines 1357-1436 _generate_trellis_standard: the colours are a list of their own, which
    draw_networkx (lines 1479 and 1487) matches with the edges in the order of the graph *)
Definition trellis_standard (n : nat) (p : mat) (init : vec) (symbols : list nat) (fw : bool) (M : list vec) (path : list nat) : lattice :=
  let f := length symbols in
  let moves := lattice_moves n f p init in
  let added := map (fun m => let '(row, col, next) := m in
                      if fw then ((row, col), (next, S col)) else ((next, S col), (row, col))) moves in
  let colors := map (fun m => let '(row, col, next) := m in
                      if fw then Nat.eqb (nth col path 0) row && Nat.eqb (nth (S col) path 0) next
                      else Nat.eqb (nth col path 0) next && Nat.eqb (nth (S col) path 0) row) moves in
  mklattice f (at_col M) (header symbols) (marked_node path) (combine (nx_edges n f added) colors).
(** lines 1496-1547: [r] is the draw of the initial state and c0, pr, er those of the simulation; the
    backward and the forward plot.  [extended] says whether pydot and graphviz are used. *)
Definition initial_distribution (n : nat) (init : option nat) : vec :=
  match init with None => uniform n | Some i => tab n (fun j => if Nat.eqb j i then 1q else 0q) end.
Definition plot_trellis (extended : bool) (h : hmm) (steps : nat) (init : option nat) (r : nat) (c0 : Qc) (pr er : nat -> Qc) : res (lattice * lattice) :=
  let n := nrows (h_p h) in
  guard Nat.leb 2 steps else ValueErr ;;
  guard match init with Some i => Nat.ltb i n | None => true end else ValueErr ;;
  let d := initial_distribution n init in
  let start := match init with Some i => i | None => Nat.modulo r n end in
  let symbols := snd (hmm_simulate h steps start None None c0 pr er) in
  match decode h symbols (Some d) true with
  | None => Err ValueErr
  | Some dec =>
      v <- viterbi (h_p h) (h_e h) d symbols ;;
      match v with
      | None => Err ValueErr
      | Some (_, path) =>
          let draw := if extended then trellis_extended n (h_p h) d symbols else trellis_standard n (h_p h) d symbols in
          Ok (draw false (d_back dec) path, draw true (d_fwd dec) path)
      end
  end.
