(** S_Period: what is assumed about the orders in which networkx enumerates things. *)
From Verif Require Export S_Struct M_Period.

(** [o] is a possible behaviour of networkx on the graph of p: some enumeration of
    the strongly connected components, some first element for each, some order of
    the successors. *)
Definition nx_ok (n : nat) (p : mat) (o : nxorder) : Prop :=
  scc_enum n (edge p) (nx_comps o) /\
  forall scc, In scc (nx_comps o) ->
    In (nx_start o scc) scc /\ forall u v, In u scc -> (In v (nx_succ o scc u) <-> In v scc /\ edge p u v).

(** One such behaviour. *)
Definition nx_default (p : mat) : nxorder :=
  mknx (sccs p) (hd 0) (fun scc u => filter (fun v => Qcltb 0 (mget p u v)) scc).

(** The names are listed in increasing (string) order. *)
Definition names_ascending (n : nat) (names : list string) : Prop :=
  forall i j, i < j -> j < n -> String.compare (nth i names ""%string) (nth j names ""%string) = Lt.

(** networkx.is_aperiodic as its documentation states it for an arbitrary directed
    graph: no integer k > 1 divides the length of every cycle. *)
Definition nx_aperiodic_doc (n : nat) (E : nat -> nat -> Prop) (b : bool) : Prop :=
  b = true <-> forall k, (1 < k)%Z -> exists x l, 0 < l /\ walk n E l x x /\ ~ (k | Z.of_nat l)%Z.

(** Recurrent state: whatever it reaches leads back to it. *)
Definition recurrent (n : nat) (E : nat -> nat -> Prop) (x : nat) : Prop :=
  x < n /\ forall y, reach n E x y -> reach n E y x.

(** D is the least common multiple of the periods of the recurrent states. *)
Definition lcm_of_periods (n : nat) (E : nat -> nat -> Prop) (D : Z) : Prop :=
  (forall x d, recurrent n E x -> period_of n E x d -> (d | D)%Z) /\
  (forall e, (forall x d, recurrent n E x -> period_of n E x d -> (d | e)%Z) -> (D | e)%Z).

(** Cyclic structure: d classes, the k-th leading only into the next one. *)
Definition cyclic_order (n : nat) (E : nat -> nat -> Prop) (cyc : list (list nat)) : Prop :=
  forall k i j, k < length cyc -> In i (nth k cyc []) -> j < n -> E i j -> In j (nth ((k + 1) mod length cyc) cyc []).
