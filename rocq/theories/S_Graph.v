(** S_Graph: what reading a graph must satisfy. *)
From Verif Require Export S_Io M_Graph.
Open Scope nat_scope.

(** A directed graph of networkx without parallel edges: distinct nodes, at most one
    edge per ordered pair of nodes, all end points are nodes. *)
Definition digraph (n : nat) (g : pygraph) : Prop :=
  g_multi g = false /\ length (g_nodes g) = n /\ NoDup (map fst (g_nodes g)) /\ NoDup (map fst (g_edges g))
  /\ forall i j a, In (i, j, a) (g_edges g) -> i < n /\ j < n.
(** The nodes are the names l, in this order. *)
Definition nodes_named (g : pygraph) (l : list string) : Prop := map fst (g_nodes g) = map PStr l.
(** The finite positive weights of the edges; no edge is weight zero. *)
Definition weights_of (n : nat) (g : pygraph) (W : mat) : Prop :=
  wf n n W /\
  (forall i j a, In (i, j, a) (g_edges g) -> exists v, fst a = Some v /\ number_value v (Fin (mget W i j)) /\ (0 < mget W i j)%Qc) /\
  (forall i j, i < n -> j < n -> (forall a, ~ In (i, j, a) (g_edges g)) -> mget W i j = 0q).
(** 1e-8, the absolute tolerance of the comparison with zero *)
Definition tiny : Qc := Q2Qc (1 # 100000000).
(** P is W with each row divided by its total; the uniform row when the total is tiny. *)
Definition rows_divided (n m : nat) (W P : mat) : Prop :=
  wf n m P /\ forall i, i < n ->
    let s := sumn m (fun j => mget W i j) in
    ((tiny < s)%Qc -> forall j, j < m -> (mget P i j * s)%Qc = mget W i j) /\
    ((s <= tiny)%Qc -> forall j, j < m -> (mget P i j * Qcn m)%Qc = 1q).
