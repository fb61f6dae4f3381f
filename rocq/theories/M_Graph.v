(** M_Graph: chains and hidden Markov models as graphs.  Model only. *)
From Verif Require Export M_Io.
Open Scope nat_scope.
Open Scope res_scope.

(** A networkx graph given by the caller: whether it is a MultiDiGraph, the nodes with
    their 'layer' attribute, the edges (the positions of the end points among the
    nodes) with their 'weight' and 'type' attributes.  In networkx the nodes are
    distinct and the end points of every edge are nodes. *)
Record pygraph := mkg {
  g_multi : bool;
  g_nodes : list (pyval * option pyval);
  g_edges : list (nat * nat * (option pyval * option pyval)) }.
Definition gedge := (nat * nat * (option pyval * option pyval))%type.
Definition or_else {A} (a b : option A) : option A := match a with Some _ => a | None => b end.
(** nx.DiGraph(value): parallel edges are merged, later attributes override *)
Fixpoint edge_set (l : list gedge) (e : gedge) : list gedge :=
  match l with
  | [] => [e]
  | f :: r => if Nat.eqb (fst (fst f)) (fst (fst e)) && Nat.eqb (snd (fst f)) (snd (fst e))
              then (fst f, (or_else (fst (snd e)) (fst (snd f)), or_else (snd (snd e)) (snd (snd f)))) :: r
              else f :: edge_set r e
  end.
Definition simple_edges (g : pygraph) : list gedge :=
  if g_multi g then fold_left edge_set (g_edges g) [] else g_edges g.
Definition label (g : pygraph) (i : nat) : string := as_str (fst (nth i (g_nodes g) (PNone, None))).
Definition num_pos (x : num) : bool := match x with Fin q => Qcltb 0 q | PInf => true | _ => false end.
(** value.edges(data='weight', default=0.0): a missing weight is 0.0 *)
Definition edge_weight (e : gedge) : pyval := match fst (snd e) with Some v => v | None => PFloat (Fin 0) end.

(** /repo/pydtmc/validation.py 348-408 validate_graph without layers (None: not a
    directed graph); the result is the list of nodes and the list of weighted edges *)
Definition v_graph (v : option pygraph) : res (list string * list (nat * nat * num)) :=
  match v with
  | None => Err ValueErr
  | Some g =>
      guard Nat.leb 2 (length (g_nodes g)) else ValueErr ;;
      guard forallb (fun x => is_string (fst x)) (g_nodes g) else ValueErr ;;
      let es := simple_edges g in
      guard forallb (fun e => is_number (edge_weight e) && num_pos (as_float (edge_weight e))) es else ValueErr ;;
      Ok (map (fun x => as_str (fst x)) (g_nodes g), map (fun e => (fst e, as_float (edge_weight e))) es)
  end.

(** float division *)
Definition num_div (a b : num) : num :=
  match a, b with
  | NaN, _ | _, NaN => NaN
  | Fin x, Fin y => if Qceqb y 0 then (if Qceqb x 0 then NaN else if Qcltb 0 x then PInf else NInf) else Fin (x / y)%Qc
  | Fin _, _ => Fin 0
  | PInf, Fin y => if Qcltb y 0 then NInf else PInf
  | NInf, Fin y => if Qcltb y 0 then PInf else NInf
  | _, _ => NaN
  end.
(** a row divided by its sum; the uniform row when the sum is close to zero *)
Definition normalise_row (n : nat) (r : list num) : list num :=
  let s := num_sum r in
  if num_isclose s 0 then repeat (Fin (1 / Qcn n)%Qc) n else map (fun x => num_div x s) r.
Definition normalise (n : nat) (p : nmat) : nmat := map (normalise_row n) p.

Fixpoint fill_graph (g : pygraph) (states : list string) (es : list (nat * nat * num)) (p : nmat) : res nmat :=
  match es with
  | [] => Ok p
  | (a, b, w) :: r =>
      i <- pos states (label g a) ;;
      j <- pos states (label g b) ;;
      fill_graph g states r (set2 i j w p)
  end.
(** /repo/pydtmc/markov_chain.py 2466-2505 MarkovChain.from_graph *)
Definition from_graph (v : option pygraph) : res robj :=
  ns <- v_graph v ;;
  match v with
  | None => Err ValueErr
  | Some g =>
      let states := fst ns in
      let size := length states in
      p <- fill_graph g states (snd ns) (nzeros size size) ;;
      Ok (mkrobj (normalise size p) states)
  end.

(** /repo/pydtmc/utilities.py 112-130 build_mc_graph and markov_chain.py 1990-1998
    to_graph (a deep copy of the graph built by the constructor) *)
Definition to_graph (c : chain) : pygraph :=
  let n := length (ch_states c) in
  mkg false (map (fun s => (PStr s, None)) (ch_states c))
    (flat_map (fun i => flat_map (fun j =>
       if Qcltb 0 (mget (ch_p c) i j) then [(i, j, (Some (PFloat (Fin (mget (ch_p c) i j))), None))] else [])
       (seq 0 n)) (seq 0 n)).

(** ** Hidden Markov models *)
(** value.nodes(data='layer', default=-1) *)
Definition node_layer (x : pyval * option pyval) : pyval := match snd x with Some v => v | None => PInt (-1) end.
Definition edge_type (e : gedge) : pyval := match snd (snd e) with Some v => v | None => PStr EmptyString end.
(** /repo/pydtmc/validation.py 348-408 with layers = 2 and the types 'E' and 'P' *)
Definition v_hmm_graph (v : option pygraph) : res (list string * list string * list (nat * nat * num * string)) :=
  match v with
  | None => Err ValueErr
  | Some g =>
      guard forallb (fun x => is_string (fst x)) (g_nodes g) else ValueErr ;;
      guard forallb (fun x => is_integer (node_layer x) && (Z.eqb (as_int (node_layer x)) 0 || Z.eqb (as_int (node_layer x)) 1)) (g_nodes g) else ValueErr ;;
      let layer k := map (fun x => as_str (fst x)) (filter (fun x => Z.eqb (as_int (node_layer x)) k) (g_nodes g)) in
      guard Nat.leb 2 (length (layer 0%Z)) && Nat.leb 2 (length (layer 1%Z)) else ValueErr ;;
      let es := simple_edges g in
      guard forallb (fun e => is_number (edge_weight e) && num_pos (as_float (edge_weight e))) es else ValueErr ;;
      guard forallb (fun e => is_string (edge_type e) && existsb (String.eqb (as_str (edge_type e))) ["E"; "P"]%string) es else ValueErr ;;
      Ok (layer 1%Z, layer 0%Z, map (fun e => (fst e, as_float (edge_weight e), as_str (edge_type e))) es)
  end.
Fixpoint fill_hmm_graph (g : pygraph) (states symbols : list string) (es : list (nat * nat * num * string)) (p e : nmat) : res (nmat * nmat) :=
  match es with
  | [] => Ok (p, e)
  | (a, b, w, t) :: r =>
      i <- pos states (label g a) ;;
      if String.eqb t "E" then
        j <- pos symbols (label g b) ;;
        fill_hmm_graph g states symbols r p (set2 i j w e)
      else
        j <- pos states (label g b) ;;
        fill_hmm_graph g states symbols r (set2 i j w p) e
  end.
(** /repo/pydtmc/hidden_markov_model.py 803-862 HiddenMarkovModel.from_graph *)
Definition hmm_from_graph (v : option pygraph) : res rhobj :=
  ns <- v_hmm_graph v ;;
  match v with
  | None => Err ValueErr
  | Some g =>
      let '(states, symbols, es) := ns in
      let n := length states in
      let k := length symbols in
      pe <- fill_hmm_graph g states symbols es (nzeros n n) (nzeros n k) ;;
      Ok (mkrhobj (normalise n (fst pe)) (normalise k (snd pe)) states symbols)
  end.
(** /repo/pydtmc/utilities.py 83-109 build_hmm_graph and hidden_markov_model.py 532-540.
    Faithful when no state is also a symbol (otherwise networkx would merge the two nodes). *)
Definition hmm_to_graph (o : hobj) : pygraph :=
  let n := length (ho_states o) in
  let k := length (ho_symbols o) in
  mkg false (map (fun s => (PStr s, Some (PInt 1))) (ho_states o) ++ map (fun s => (PStr s, Some (PInt 0))) (ho_symbols o))
    (flat_map (fun i =>
       flat_map (fun j => if Qcltb 0 (mget (ho_p o) i j) then [(i, j, (Some (PFloat (Fin (mget (ho_p o) i j))), Some (PStr "P")))] else []) (seq 0 n) ++
       flat_map (fun j => if Qcltb 0 (mget (ho_e o) i j) then [(i, n + j, (Some (PFloat (Fin (mget (ho_e o) i j))), Some (PStr "E")))] else []) (seq 0 k))
       (seq 0 n)).
