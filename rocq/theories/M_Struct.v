(** M_Struct: model of the structural properties of a MarkovChain (classes,
    accessibility, absorption, periods, regularity).  Model only. *)
From Verif Require Export M_Generators.
Open Scope res_scope.

(** networkx graph of the chain: /repo/pydtmc/utilities.py 112-130 build_mc_graph.
    Nodes are the states, (i, j) is an edge exactly when p[i, j] > 0.  We use state
    positions as nodes: names are distinct, so positions and names correspond. *)
Definition edgeb (p : mat) (i j : nat) : bool := Qcltb 0 (mget p i j).

(** networkx.strongly_connected_components, by its specification: a list of the
    mutual-reachability classes.  The functions below take that list ([comps]) as
    an argument, so that theorems can quantify over the enumeration order; [sccs]
    is one such enumeration (components by least member). *)
Definition reachb (p : mat) : nat -> nat -> bool :=
  let c := sub_closure (nrows p) (adjacency p) in fun i j => Nat.eqb i j || bget c i j.
Definition sccs (p : mat) : list (list nat) :=
  let n := nrows p in
  let r := reachb p in
  let mutual i j := r i j && r j i in
  let leaders := filter (fun i => negb (existsb (fun j => mutual i j) (seq 0 i))) (seq 0 n) in
  map (fun i => filter (mutual i) (seq 0 n)) leaders.

(** sorted(..., key=lambda x: (-len(x), x[0])): insertion sort, stable *)
Definition class_leb (a b : list nat) : bool :=
  Nat.ltb (length b) (length a) || (Nat.eqb (length a) (length b) && Nat.leb (hd 0 a) (hd 0 b)).
Fixpoint insert_class (x : list nat) (l : list (list nat)) : list (list nat) :=
  match l with [] => [x] | y :: l' => if class_leb x y then x :: l else y :: insert_class x l' end.
Definition sort_classes (l : list (list nat)) : list (list nat) := fold_right insert_class [] l.

(** /repo/pydtmc/markov_chain.py 279-285 __classes_indices *)
Definition classes_indices (comps : list (list nat)) : list (list nat) := map sort_nat comps.
(** markov_chain.py 287-292 __communicating_classes_indices *)
Definition communicating_indices (comps : list (list nat)) : list (list nat) := sort_classes (classes_indices comps).

(** networkx.condensation(...).edges: pairs of distinct component numbers joined by
    an edge; markov_chain.py 356-363 __transient_classes_indices.  The Python set
    of first components is listed here in increasing order (the result is sorted
    afterwards and the sort keys are distinct). *)
Definition leaves (p : mat) (comps : list (list nat)) (k : nat) : bool :=
  existsb (fun l => negb (Nat.eqb k l) &&
    existsb (fun i => existsb (fun j => edgeb p i j) (nth l comps [])) (nth k comps [])) (seq 0 (length comps)).
Definition transient_classes_indices (p : mat) (comps : list (list nat)) : list (list nat) :=
  sort_classes (map (fun k => nth k (classes_indices comps) []) (filter (leaves p comps) (seq 0 (length comps)))).

(** markov_chain.py 325-332 __recurrent_classes_indices *)
Definition list_nat_eqb (a b : list nat) : bool := if list_eq_dec Nat.eq_dec a b then true else false.
Definition recurrent_classes_indices (p : mat) (comps : list (list nat)) : list (list nat) :=
  sort_classes (filter (fun c => negb (existsb (list_nat_eqb c) (transient_classes_indices p comps))) (classes_indices comps)).

(** markov_chain.py 334-338, 365-370: flattened, sorted *)
Definition recurrent_states_indices (p : mat) (comps : list (list nat)) : list nat :=
  sort_nat (concat (recurrent_classes_indices p comps)).
Definition transient_states_indices (p : mat) (comps : list (list nat)) : list nat :=
  sort_nat (concat (transient_classes_indices p comps)).

(** markov_chain.py 272-277 __absorbing_states_indices *)
Definition absorbing_indices (p : mat) : list nat :=
  filter (fun i => isclose (mget p i i) 1) (seq 0 (nrows p)).

(** markov_chain.py 425-437 communication_matrix *)
Definition communication_matrix (p : mat) (comps : list (list nat)) : list (list Z) :=
  let cs := communicating_indices comps in
  tab (nrows p) (fun i => tab (nrows p) (fun j =>
    if existsb (fun c => memn i c && memn j c) cs then 1%Z else 0%Z)).

(** markov_chain.py 689-697 is_irreducible *)
Definition is_irreducible (comps : list (list nat)) : bool := Nat.eqb (length (communicating_indices comps)) 1.

(** markov_chain.py 598-631 is_absorbing.  [abs_loop]: one turn of the while loop
    per recursive call; [known] is fixed during a turn (line 615), and a state is
    added when it has a positive transition into a known one.  Python iterates
    over sets; the resulting sets do not depend on the order. *)
Fixpoint abs_loop (fuel : nat) (p : mat) (known unknown : list nat) : res (list nat) :=
  match fuel with
  | O => Err FuelErr
  | S fuel' =>
      let found := filter (fun i => existsb (fun j => edgeb p i j) known) unknown in
      if Nat.eqb (length found) 0 then Ok unknown
      else abs_loop fuel' p (known ++ found) (filter (fun i => negb (memn i found)) unknown)
  end.
Definition is_absorbing (p : mat) : res bool :=
  let n := nrows p in
  let a := absorbing_indices p in
  if Nat.eqb (length a) 0 then Ok false
  else
    unknown <- abs_loop (n + 1) p a (filter (fun i => negb (memn i a)) (seq 0 n)) ;;
    Ok (Nat.eqb (length unknown) 0).

(** markov_chain.py 650-664 is_canonical *)
Definition is_canonical (p : mat) (comps : list (list nat)) : bool :=
  let r := recurrent_states_indices p comps in
  let t := transient_states_indices p comps in
  if Nat.eqb (length r) 0 || Nat.eqb (length t) 0 then true else Nat.ltb (list_max0 t) (list_min0 r).

(** markov_chain.py 1934-1948 to_canonical_form *)
Definition to_canonical_form (c : chain) (comps : list (list nat)) : chain :=
  to_canonical_form_of c (recurrent_states_indices (ch_p c) comps) (transient_states_indices (ch_p c) comps).

(** int64 arithmetic: the value modulo 2^64 in [-2^63, 2^63). *)
Definition wrap64 (z : Z) : Z := ((z + 2 ^ 63) mod 2 ^ 64 - 2 ^ 63)%Z.
(** numpy integer matrices: product with wrap-around (wrapping only the final sum
    gives the same result as wrapping each operation). *)
Definition zget (M : list (list Z)) (i j : nat) : Z := nth j (nth i M []) 0%Z.
Definition zsum (n : nat) (f : nat -> Z) : Z := fold_right (fun i a => (f i + a)%Z) 0%Z (seq 0 n).
Definition zmk (n : nat) (f : nat -> nat -> Z) : list (list Z) := tab n (fun i => tab n (f i)).
Definition zmul64 (n : nat) (A B : list (list Z)) : list (list Z) :=
  zmk n (fun i j => wrap64 (zsum n (fun k => (zget A i k * zget B k j)%Z))).
(** numpy.linalg.matrix_power(M, k); repeated multiplication instead of squaring,
    the same value in arithmetic modulo 2^64. *)
Fixpoint zpow64 (n : nat) (M : list (list Z)) (k : nat) : list (list Z) :=
  match k with O => zmk n (fun i j => if Nat.eqb i j then 1%Z else 0%Z) | S k' => zmul64 n (zpow64 n M k') M end.

(** markov_chain.py 403-411 adjacency_matrix (dtype int = int64) *)
Definition adjacency_matrix (p : mat) : list (list Z) :=
  zmk (nrows p) (fun i j => if Qcltb 0 (mget p i j) then 1%Z else 0%Z).
(** markov_chain.py 388-400 accessibility_matrix *)
Definition accessibility_matrix (p : mat) : list (list Z) :=
  let n := nrows p in
  let ia := zmk n (fun i j => wrap64 ((if Nat.eqb i j then 1 else 0) + zget (adjacency_matrix p) i j)) in
  let am := zpow64 n ia (n - 1) in
  zmk n (fun i j => if Z.ltb 0 (zget am i j) then 1%Z else 0%Z).
(** markov_chain.py 1401-1421 is_accessible, 1068-1090 are_communicating, after
    label resolution *)
Definition is_accessible (p : mat) (target origin : nat) : bool :=
  negb (Z.eqb (zget (accessibility_matrix p) origin target) 0).
Definition are_communicating (p : mat) (s1 s2 : nat) : bool :=
  negb (Z.eqb (zget (accessibility_matrix p) s1 s2) 0) && negb (Z.eqb (zget (accessibility_matrix p) s2 s1) 0).

(** markov_chain.py 700-716 is_regular *)
Definition count_nonzero_diag (p : mat) : nat :=
  length (filter (fun i => negb (Qceqb (mget p i i) 0)) (seq 0 (nrows p))).
Definition regular_exponent (p : mat) : nat :=
  let n := nrows p in
  let nz := count_nonzero_diag p in
  if Nat.ltb 0 nz then 2 * n - nz - 1 else Nat.pow n n - 2 * n + 2.
Definition is_regular (p : mat) : bool :=
  mforall (Qcltb 0) (mpow p (regular_exponent p)).

(** markov_chain.py 738-759 is_stochastically_monotone *)
Definition is_stochastically_monotone (p : mat) : bool :=
  let n := nrows p in
  forallb (fun m =>
    let sm i := sumn n (fun j => if Nat.leb m j then mget p i j else 0q) in
    forallb (fun k => negb (Qcltb (sm (k + 1)%nat) (sm k))) (seq 0 (n - 1))) (seq 1 (n - 1)).
