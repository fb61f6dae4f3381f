(** M_Period: model of the period computations, the cyclic classes and the
    enumeration of lumping partitions.  Model only. *)
From Verif Require Export M_Struct.
Open Scope res_scope.

(** /repo/pydtmc/computations.py 50-96 _calculate_period, called on the subgraph of
    one strongly connected component (line 119), so that the loop over the
    components (line 56) runs exactly once.  Vertices are state positions; [succ u]
    lists the successors of u inside the component in networkx' iteration order
    and [x] is list(scc)[0]: both orders are arguments.  [levels] is the dictionary
    of lines 60-64 (None = not visited).  A visited state [None] below means the
    early "return 1" of line 86. *)
Definition pstate : Type := (list (option Z) * list nat * Z)%type.
Definition per_visit (previous_level : Z) (st : option pstate) (v : nat) : option pstate :=
  match st with
  | None => None
  | Some (levels, next_level, g) =>
      match nth v levels None with
      | Some level =>
          let g' := Z.gcd g (previous_level - level) in
          if Z.eqb g' 1 then None else Some (levels, next_level, g')
      | None => Some (set_nth levels v (Some previous_level), next_level ++ [v], g)
      end
  end.
Fixpoint per_loop (fuel : nat) (succ : nat -> list nat) (levels : list (option Z)) (g : Z)
    (current_level : list nat) (previous_level : Z) : res Z :=
  match current_level with
  | [] => Ok g
  | _ =>
      match fuel with
      | O => Err FuelErr
      | S fuel' =>
          match fold_left (fun st u => fold_left (per_visit previous_level) (succ u) st) current_level (Some (levels, [], g)) with
          | None => Ok 1%Z
          | Some (levels', next_level, g') => per_loop fuel' succ levels' g' next_level (previous_level + 1)
          end
      end
  end.
Definition calculate_period (n : nat) (succ : nat -> list nat) (x : nat) : res Z :=
  per_loop (n + 1) succ (set_nth (repeat None n) x (Some 0%Z)) 0%Z [x] 1%Z.

(** Python string comparison and sorted(list of strings): code point order, which
    is byte order for UTF-8 strings. *)
Definition str_leb (a b : string) : bool := match String.compare a b with Gt => false | _ => true end.
Fixpoint insert_str (x : string) (l : list string) : list string :=
  match l with [] => [x] | y :: l' => if str_leb x y then x :: l else y :: insert_str x l' end.
Definition sort_str (l : list string) : list string := fold_right insert_str [] l.
(** sorted(classes, key=lambda x: (-len(x), x[0])) on classes of names *)
Definition sclass_leb (a b : list string) : bool :=
  Nat.ltb (length b) (length a) || (Nat.eqb (length a) (length b) && str_leb (hd ""%string a) (hd ""%string b)).
Fixpoint insert_sclass (x : list string) (l : list (list string)) : list (list string) :=
  match l with [] => [x] | y :: l' => if sclass_leb x y then x :: l else y :: insert_sclass x l' end.
Definition sort_sclasses (l : list (list string)) : list (list string) := fold_right insert_sclass [] l.
Definition names_eqb (a b : list string) : bool := if list_eq_dec string_dec a b then true else false.

(** /repo/pydtmc/computations.py 99-123 calculate_periods.  The graph's nodes are
    the state names, so the classes are sorted by name here.  Parameters: [comps]
    as in M_Struct, [start scc] is list(scc)[0] and [succ scc u] the successors of u
    in graph.subgraph(scc). *)
Record nxorder := mknx { nx_comps : list (list nat); nx_start : list nat -> nat; nx_succ : list nat -> nat -> list nat }.
Definition scc_closed (p : mat) (scc : list nat) : bool :=
  forallb (fun c => forallb (fun v => negb (reachb p c v) || memn v scc) (seq 0 (nrows p))) scc.
Definition named (names : list string) (scc : list nat) : list string := map (fun i => nth i names ""%string) scc.
Definition scc_period (p : mat) (o : nxorder) (scc : list nat) : res Z :=
  if scc_closed p scc then calculate_period (nrows p) (nx_succ o scc) (nx_start o scc) else Ok 1%Z.
Definition calculate_periods (p : mat) (names : list string) (o : nxorder) : res (list Z) :=
  let indices := sort_sclasses (map (fun scc => sort_str (named names scc)) (nx_comps o)) in
  fold_left (fun acc scc =>
    periods <- acc ;;
    match index_of names_eqb (sort_str (named names scc)) indices with
    | None => Err ValueErr
    | Some index => v <- scc_period p o scc ;; Ok (set_nth periods index v)
    end) (nx_comps o) (Ok (repeat 0%Z (length indices))).

(** markov_chain.py 855-865 periods, 633-647 is_aperiodic, 835-853 period.  In the
    irreducible case set(periods).pop() is the only element.  [nx_aperiodic] is the
    value of networkx.is_aperiodic on the whole graph. *)
Definition is_aperiodic (p : mat) (names : list string) (o : nxorder) (nx_aperiodic : bool) : res bool :=
  periods <- calculate_periods p names o ;;
  if is_irreducible (nx_comps o) then Ok (Z.eqb (hd 0%Z periods) 1)
  else if forallb (Z.eqb 1) periods then Ok true
  else Ok nx_aperiodic.
Definition period (p : mat) (names : list string) (o : nxorder) (nx_aperiodic : bool) : res Z :=
  a <- is_aperiodic p names o nx_aperiodic ;;
  if a then Ok 1%Z
  else
    periods <- calculate_periods p names o ;;
    if is_irreducible (nx_comps o) then Ok (hd 0%Z periods)
    else
      fold_left (fun acc rc =>
        per <- acc ;;
        match index_of list_nat_eqb rc (communicating_indices (nx_comps o)) with
        | None => Err ValueErr
        | Some k => let q := nth k periods 0%Z in Ok (Z.div (per * q) (Z.gcd per q))
        end) (recurrent_classes_indices p (nx_comps o)) (Ok 1%Z).

(** /repo/pydtmc/computations.py 166-210 find_cyclic_classes.  [t] is the queue, [w]
    the list of visited states, [v] the levels, [d] the running gcd.  The inner
    loop over j (lines 188-202) is a fold. *)
Definition cyc_visit (p : mat) (w : list nat) (i : nat) (v_ip : Z) (st : list Z * list nat * Z) (j : nat) : list Z * list nat * Z :=
  let '(v, t, d) := st in
  if Qcltb 0 (mget p i j) then
    if memn j (w ++ t) then (v, t, Z.gcd d (v_ip - nth j v 0%Z))
    else (set_nth v j v_ip, t ++ [j], d)
  else st.
Fixpoint cyc_loop (fuel : nat) (p : mat) (w : list nat) (v : list Z) (t : list nat) (d : Z) : res (list Z * Z) :=
  match t with
  | [] => Ok (v, d)
  | i :: t' =>
      if Z.eqb d 1 then Ok (v, d)
      else
        match fuel with
        | O => Err FuelErr
        | S fuel' =>
            let w' := w ++ [i] in
            let '(v2, t2, d2) := fold_left (cyc_visit p w' i (nth i v 0%Z + 1)) (seq 0 (nrows p)) (v, t', d) in
            cyc_loop fuel' p w' v2 t2 d2
        end
  end.
(** numpy.unique: sorted distinct values; here the residues are in [0, d). *)
Fixpoint insert_z (x : Z) (l : list Z) : list Z :=
  match l with [] => [x] | y :: l' => if Z.ltb x y then x :: l else if Z.eqb x y then l else y :: insert_z x l' end.
Definition unique_z (l : list Z) : list Z := fold_right insert_z [] l.
Definition find_cyclic_classes (p : mat) : res (list (list nat)) :=
  let n := nrows p in
  r <- cyc_loop (n + 1) p [] (set_nth (repeat 0%Z n) 0 1%Z) [0] 0%Z ;;
  let v := map (fun z => if Z.eqb (snd r) 0 then 0%Z else Z.modulo z (snd r)) (fst r) in
  Ok (map (fun u => filter (fun i => Z.eqb (nth i v 0%Z) u) (seq 0 n)) (unique_z v)).
(** markov_chain.py 293-310 __cyclic_classes_indices *)
Definition cyclic_classes_indices (p : mat) (names : list string) (o : nxorder) (nx_aperiodic : bool) : res (list (list nat)) :=
  if is_irreducible (nx_comps o) then
    a <- is_aperiodic p names o nx_aperiodic ;;
    if a then Ok (communicating_indices (nx_comps o))
    else cs <- find_cyclic_classes p ;; Ok (sort_classes cs)
  else Ok [].

(** /repo/pydtmc/computations.py 213-268 find_lumping_partitions.  The partition
    for the bit pattern i: state positions in order, a block ends at each position
    whose bit is set and at the last position. *)
Definition bits_partition (size i : nat) : list (list nat) :=
  fst (fold_left (fun acc position =>
    let '(partition, subset) := acc in
    let subset := subset ++ [position] in
    if Nat.testbit i position || Nat.eqb position (size - 1) then (partition ++ [subset], []) else (partition, subset))
    (seq 0 size) ([], [])).
Definition lumpable_test (p : mat) (parts : list (list nat)) : bool :=
  let size := nrows p in
  let r := lump_r size parts in
  let rt := transpose r in
  match minv (mmul rt r) with
  | None => false
  | Some iv =>
      let k := mmul iv rt in
      meqb (mmul (mmul (mmul r k) p) r) (mmul p r)
  end.
Definition find_lumping_partitions (p : mat) : list (list (list nat)) :=
  let size := nrows p in
  if Nat.eqb size 2 then []
  else
    let possible := filter (fun partition => Nat.leb 2 (length partition) && Nat.ltb (length partition) size)
                      (map (bits_partition size) (seq 0 (Nat.pow 2 (size - 1)))) in
    filter (lumpable_test p) possible.
