(** M_Validation: the argument validators (validation.py) and the type tests and
    conversions of utilities.py, over a universe of Python values.  Model only.

    Simplifications common to the file.  Finite floats are exact rationals, so
    int -> float conversions are exact.  A Python str is a sequence of code points
    below 256.  [PInt]/[PFloat] stand for Python and numpy scalars alike; the
    scalar numpy.bool_ is not in the universe.  The texts of the exceptions are
    dropped, their classes are kept.  The API methods call every validator inside
    a try block whose handler raises ValidationError, whatever the exception
    (markov_chain.py 219-225 and similarly everywhere): at the API level
    every [Err] below is that ValidationError. *)
From Verif Require Export M_Generators M_Period.
Open Scope res_scope.

(** IEEE values: finite (exact), infinities, NaN. *)
Inductive num := Fin (x : Qc) | PInf | NInf | NaN.
Definition isfinite (x : num) : bool := match x with Fin _ => true | _ => false end.
Definition isnan (x : num) : bool := match x with NaN => true | _ => false end.
(** a <= b and a < b; comparisons with NaN are False *)
Definition num_le (a b : num) : bool :=
  match a, b with
  | NaN, _ | _, NaN => false
  | NInf, _ | _, PInf => true
  | Fin x, Fin y => Qcleb x y
  | _, _ => false
  end.
Definition num_lt (a b : num) : bool :=
  match a, b with
  | NaN, _ | _, NaN => false
  | Fin x, Fin y => Qcltb x y
  | NInf, NInf => false
  | NInf, _ => true
  | _, PInf => match a with PInf => false | _ => true end
  | _, _ => false
  end.
(** the value of a finite number *)
Definition fin (x : num) : Qc := match x with Fin q => q | _ => 0q end.

(** Complex number: real and imaginary part. *)
Definition cplx : Type := num * num.

(** numpy data types, as far as extract_numeric tells them apart: booleans are not
    a subtype of numpy.number; [KOther] stands for str, object, ... *)
Inductive kind := KBool | KInt | KFloat | KComplex | KOther.
Definition kind_join (a b : kind) : kind :=
  match a, b with
  | KOther, _ | _, KOther => KOther
  | KComplex, _ | _, KComplex => KComplex
  | KFloat, _ | _, KFloat => KFloat
  | KInt, _ | _, KInt => KInt
  | KBool, KBool => KBool
  end.

(** numpy.ndarray: shape, data type and the element at each index. *)
Record arr := mkarr { a_shape : list nat; a_kind : kind; a_at : list nat -> cplx }.

Inductive pyval :=
| PNone
| PBool (b : bool)
| PInt (z : Z)
| PFloat (x : num)
| PComplex (x : cplx)
| PStr (s : string)
| PList (l : list pyval)
| PTuple (l : list pyval)
| PArr (a : arr)
| PFrame (a : arr)   (* scipy sparse matrix or pandas object whose dense copy is a *)
| POther.            (* any other object: dict, set, function, ... *)

(** /repo/pydtmc/utilities.py 316-379 *)
Definition is_list (v : pyval) : bool := match v with PList _ => true | _ => false end.
Definition is_tuple (v : pyval) : bool := match v with PTuple _ => true | _ => false end.
Definition is_boolean (v : pyval) : bool := match v with PBool _ => true | _ => false end.
Definition is_float (v : pyval) : bool := match v with PFloat _ => true | _ => false end.
Definition is_integer (v : pyval) : bool := match v with PInt _ => true | _ => false end.
Definition is_number (v : pyval) : bool := is_float v || is_integer v.
Definition is_string (v : pyval) : bool := match v with PStr s => nonblank s | _ => false end.
(** int(value), float(value), the str itself: only used after the type tests *)
Definition as_int (v : pyval) : Z := match v with PInt z => z | _ => 0%Z end.
Definition as_float (v : pyval) : num :=
  match v with PInt z => Fin (Q2Qc (inject_Z z)) | PFloat x => x | _ => NaN end.
Definition as_str (v : pyval) : string := match v with PStr s => s | _ => EmptyString end.

(** numpy.array of a nested sequence: all the elements must have the same shape
    (otherwise an exception or, in old releases, an object array: both make
    extract_numeric fail); the data type is the common type; an empty list is an
    array of floats.  Integers outside [-2^63, 2^64) give an object array.  The
    limit on the number of dimensions is ignored. *)
Definition int_fits (z : Z) : bool := (Z.leb (-9223372036854775808) z && Z.ltb z 18446744073709551616)%Z.
Definition scalar_arr (k : kind) (c : cplx) : arr := mkarr [] k (fun _ => c).
Definition czero : cplx := (Fin 0, Fin 0).
Definition shape_eqb (s t : list nat) : bool := if list_eq_dec Nat.eq_dec s t then true else false.
Definition stack (subs : list arr) : option arr :=
  match subs with
  | [] => Some (mkarr [0] KFloat (fun _ => czero))
  | a :: _ =>
      if forallb (fun b => shape_eqb (a_shape b) (a_shape a)) subs
      then Some (mkarr (length subs :: a_shape a) (fold_right kind_join KBool (map a_kind subs))
                       (fun idx => match idx with
                                   | [] => czero
                                   | i :: idx' => a_at (nth i subs a) idx'
                                   end))
      else None
  end.
Fixpoint all_some {A} (l : list (option A)) : option (list A) :=
  match l with
  | [] => Some []
  | None :: _ => None
  | Some a :: l' => match all_some l' with None => None | Some r => Some (a :: r) end
  end.
Fixpoint np_array (v : pyval) : option arr :=
  match v with
  | PBool b => Some (scalar_arr KBool (Fin (if b then 1 else 0), Fin 0))
  | PInt z => Some (scalar_arr (if int_fits z then KInt else KOther) (Fin (Q2Qc (inject_Z z)), Fin 0))
  | PFloat x => Some (scalar_arr KFloat (x, Fin 0))
  | PComplex c => Some (scalar_arr KComplex c)
  | PList l | PTuple l =>
      match all_some (map np_array l) with None => None | Some subs => stack subs end
  | PArr a => Some a
  | PNone | PStr _ | PFrame _ | POther => Some (scalar_arr KOther czero)
  end.

(** numpy.issubdtype(dtype, numpy.number) *)
Definition kind_number (k : kind) : bool := match k with KInt | KFloat | KComplex => true | _ => false end.

(** /repo/pydtmc/utilities.py 205-224 extract_numeric(data, float).  astype(float)
    discards the imaginary parts (numpy only emits a warning), so the result is an
    array of real numbers: a shape and an element at each index. *)
Record farr := mkfarr { f_shape : list nat; f_at : list nat -> num }.
Definition extract_numeric (v : pyval) : res farr :=
  match (match v with
         | PList _ => np_array v
         | PArr a | PFrame a => Some a
         | _ => None
         end) with
  | None => Err TypeErr
  | Some a => guard kind_number (a_kind a) else TypeErr ;;
              Ok (mkfarr (a_shape a) (fun idx => fst (a_at a idx)))
  end.

(** numpy.isfinite(x) and numpy.isreal(x) and 0.0 <= x <= 1.0 (isreal is True on
    floats) *)
Definition prob01 (x : num) : bool := isfinite x && num_le (Fin 0) x && num_le x (Fin 1).
Definition all2 (n m : nat) (f : nat -> nat -> num) (p : num -> bool) : bool :=
  forallb (fun i => forallb (fun j => p (f i j)) (seq 0 m)) (seq 0 n).
Definition all1 (n : nat) (f : nat -> num) (p : num -> bool) : bool := forallb (fun i => p (f i)) (seq 0 n).
Definition fmat (n m : nat) (a : farr) : mat := mk n m (fun i j => fin (f_at a [i; j])).

(** /repo/pydtmc/validation.py 1063-1082 validate_transition_matrix *)
Definition v_transition_matrix (v : pyval) (size : option nat) : res mat :=
  a <- extract_numeric v ;;
  match f_shape a with
  | [n; m] =>
      guard Nat.eqb n m && Nat.leb 2 n else ValueErr ;;
      guard match size with None => true | Some s => Nat.eqb n s end else ValueErr ;;
      guard all2 n m (fun i j => f_at a [i; j]) prob01 else ValueErr ;;
      let p := fmat n m a in
      guard forallb (fun i => isclose (rowsum p i) 1) (seq 0 n) else ValueErr ;;
      Ok p
  | _ => Err ValueErr
  end.

(** /repo/pydtmc/validation.py 249-265 validate_emission_matrix *)
Definition v_emission_matrix (v : pyval) (size : nat) : res mat :=
  a <- extract_numeric v ;;
  match f_shape a with
  | [n; m] =>
      guard Nat.eqb n size && Nat.leb 2 m else ValueErr ;;
      guard all2 n m (fun i j => f_at a [i; j]) prob01 else ValueErr ;;
      let p := fmat n m a in
      guard forallb (fun i => isclose (rowsum p i) 1) (seq 0 n) else ValueErr ;;
      Ok p
  | _ => Err ValueErr
  end.

(** /repo/pydtmc/validation.py 670-693 validate_matrix *)
Definition v_matrix (v : pyval) (rows columns : option nat) : res mat :=
  a <- extract_numeric v ;;
  match f_shape a with
  | [n; m] =>
      guard match columns, rows with
            | None, None => Nat.leb 2 n && Nat.eqb n m
            | Some c, None => Nat.leb 2 n && Nat.eqb m c
            | None, Some r => Nat.eqb n r && Nat.leb 2 m
            | Some c, Some r => Nat.eqb n r && Nat.eqb m c
            end else ValueErr ;;
      guard all2 n m (fun i j => f_at a [i; j]) (fun x => isfinite x && num_le (Fin 0) x) else ValueErr ;;
      Ok (fmat n m a)
  | _ => Err ValueErr
  end.

(** /repo/pydtmc/validation.py 438-451 validate_hyperparameter: numpy.mod(x, 1.0) = 0 iff
    the (reduced) rational is an integer *)
Definition is_int (x : Qc) : bool := Pos.eqb (Qden (this x)) 1.
Definition v_hyperparameter (v : pyval) (size : nat) : res mat :=
  a <- extract_numeric v ;;
  match f_shape a with
  | [n; m] =>
      guard Nat.eqb n size && Nat.eqb m size else ValueErr ;;
      guard all2 n m (fun i j => f_at a [i; j])
              (fun x => isfinite x && is_int (fin x) && num_le (Fin 1) x) else ValueErr ;;
      Ok (fmat n m a)
  | _ => Err ValueErr
  end.

(** /repo/pydtmc/validation.py 646-667 validate_mask.  The result is a matrix of
    numbers: NaN marks a cell left free.  numpy.nansum treats NaN as 0. *)
Definition v_mask (v : pyval) (rows columns : nat) : res (list (list num)) :=
  a <- extract_numeric v ;;
  match f_shape a with
  | [n; m] =>
      guard Nat.eqb n rows && Nat.eqb m columns else ValueErr ;;
      guard all2 n m (fun i j => f_at a [i; j]) (fun x => isnan x || prob01 x) else ValueErr ;;
      guard forallb (fun i => Qcleb (sumn m (fun j => fin (f_at a [i; j]))) 1) (seq 0 n) else ValueErr ;;
      Ok (tab n (fun i => tab m (fun j => f_at a [i; j])))
  | _ => Err ValueErr
  end.

(** numpy.ravel of an array accepted as a vector: 0-d, 1-d, or 2-d with one row;
    the element at each position and the number of elements *)
Definition as_vector (a : farr) : option (nat * (nat -> num)) :=
  match f_shape a with
  | [] => Some (1, fun _ => f_at a [])
  | [n] => Some (n, fun i => f_at a [i])
  | [1; n] => Some (n, fun i => f_at a [0; i])
  | _ => None
  end.

(** /repo/pydtmc/validation.py 1085-1124 validate_vector.  value[0] and value[-1]
    of an empty vector raise IndexError (shape (1, 0), no size given). *)
Definition v_vector (v : pyval) (t : vtype) (flex : bool) (size : option nat) : res vec :=
  nf <- (if flex && is_number v then
           guard match t with Unconstrained => true | _ => false end else ValueErr ;;
           match size with
           | None => Err ValueErr
           | Some n => Ok (n, fun _ : nat => as_float v)
           end
         else
           a <- extract_numeric v ;;
           match as_vector a with
           | None => Err ValueErr
           | Some (n, f) =>
               guard negb (match f_shape a with [0] => true | _ => false end) else ValueErr ;;
               guard match size with None => true | Some s => Nat.eqb n s end else ValueErr ;;
               Ok (n, f)
           end) ;;
  let '(n, f) := nf in
  guard all1 n f prob01 else ValueErr ;;
  let w := tab n (fun i => fin (f i)) in
  match t with
  | Annihilation => guard negb (Nat.eqb n 0) else IndexErr ;; guard isclose (vget w 0) 0 else ValueErr ;; Ok w
  | Creation => guard negb (Nat.eqb n 0) else IndexErr ;; guard isclose (vget w (n - 1)) 0 else ValueErr ;; Ok w
  | StochasticV => guard isclose (lsum w) 1 else ValueErr ;; Ok w
  | Unconstrained => Ok w
  end.

(** /repo/pydtmc/validation.py 836-854 validate_rewards *)
Definition v_rewards (v : pyval) (size : nat) : res vec :=
  a <- extract_numeric v ;;
  match as_vector a with
  | None => Err ValueErr
  | Some (n, f) =>
      guard negb (match f_shape a with [0] => true | _ => false end) else ValueErr ;;
      guard Nat.eqb n size else ValueErr ;;
      guard all1 n f isfinite else ValueErr ;;
      Ok (tab n (fun i => fin (f i)))
  end.

(** labels.index(value), when value in labels *)
Definition find_label (labels : list string) (s : string) : option nat := index_of String.eqb s labels.
(** an integer between 0 and len(labels) - 1 *)
Definition in_range (z : Z) (n : nat) : bool := Z.leb 0 z && Z.ltb z (Z.of_nat n).

(** /repo/pydtmc/validation.py 922-970 validate_status *)
Definition v_status (v : pyval) (labels : list string) : res vec :=
  let size := length labels in
  if is_integer v then
    guard in_range (as_int v) size else ValueErr ;;
    Ok (tab size (delta (Z.to_nat (as_int v))))
  else if is_string v then
    match find_label labels (as_str v) with
    | None => Err ValueErr
    | Some k => Ok (tab size (delta k))
    end
  else
    a <- extract_numeric v ;;
    match as_vector a with
    | None => Err ValueErr
    | Some (n, f) =>
        guard Nat.eqb n size else ValueErr ;;
        guard all1 n f prob01 else ValueErr ;;
        let w := tab n (fun i => fin (f i)) in
        guard isclose (lsum w) 1 else ValueErr ;;
        Ok w
    end.

(** /repo/pydtmc/validation.py 490-511 validate_label *)
Definition v_label (v : pyval) (labels : list string) : res nat :=
  if is_integer v then
    guard in_range (as_int v) (length labels) else ValueErr ;;
    Ok (Z.to_nat (as_int v))
  else if is_string v then
    match find_label labels (as_str v) with None => Err ValueErr | Some k => Ok k end
  else Err TypeErr.

(** [labels.index(label) if label in labels else -1 for label in value], rejected
    when -1 occurs; and the corresponding test on integers *)
Definition positions (l : list pyval) (labels : list string) : res (list nat) :=
  if forallb is_integer l then
    guard forallb (fun v => in_range (as_int v) (length labels)) l else ValueErr ;;
    Ok (map (fun v => Z.to_nat (as_int v)) l)
  else if forallb is_string l then
    mapM (fun v => match find_label labels (as_str v) with None => Err ValueErr | Some k => Ok k end) l
  else Err TypeErr.

(** /repo/pydtmc/validation.py 514-589 validate_labels_current *)
Definition v_labels_current (v : pyval) (labels : list string) (subset : bool) (minimum : option nat) : res (list nat) :=
  let n := length labels in
  if is_integer v then
    guard in_range (as_int v) n else ValueErr ;;
    Ok [Z.to_nat (as_int v)]
  else match v with
  | PList l =>
      ks <- positions l labels ;;
      guard nodupb Nat.eqb ks else ValueErr ;;
      guard negb (Nat.eqb (length ks) 0) else ValueErr ;;
      let maximum := if subset then n - 1 else n in
      guard match minimum with
            | None | Some 1 => Nat.leb (length ks) maximum
            | Some m => Nat.leb m (length ks) && Nat.leb (length ks) maximum
            end else ValueErr ;;
      Ok (sort_nat ks)
  | _ =>
      if is_string v then
        match find_label labels (as_str v) with None => Err ValueErr | Some k => Ok [k] end
      else Err TypeErr
  end.

(** /repo/pydtmc/validation.py 592-613 validate_labels_input *)
Definition v_labels_input (v : pyval) (size : option nat) : res (list string) :=
  match v with
  | PList l =>
      guard forallb is_string l else TypeErr ;;
      let ss := map as_str l in
      guard Nat.leb 2 (length ss) else ValueErr ;;
      guard nodupb String.eqb ss else ValueErr ;;
      guard match size with None => true | Some n => Nat.eqb (length ss) n end else ValueErr ;;
      Ok ss
  | _ => Err ValueErr
  end.

(** /repo/pydtmc/validation.py 738-796 validate_partitions *)
Fixpoint cut (groups : list nat) (l : list nat) : list (list nat) :=
  match groups with [] => [] | g :: gs => firstn g l :: cut gs (skipn g l) end.
Definition v_partitions (v : pyval) (labels : list string) : res (list (list nat)) :=
  match v with
  | PList parts =>
      let n := length labels in
      guard Nat.leb 2 (length parts) && Nat.ltb (length parts) n else ValueErr ;;
      guard forallb is_list parts else TypeErr ;;
      let lists := map (fun p => match p with PList l => l | _ => [] end) parts in
      flat <- positions (concat lists) labels ;;
      guard nodupb Nat.eqb flat && Nat.eqb (length flat) n
            && (if list_eq_dec Nat.eq_dec flat (seq 0 n) then true else false) else ValueErr ;;
      Ok (cut (map (@length pyval) lists) flat)
  | _ => Err ValueErr
  end.

(** /repo/pydtmc/validation.py 857-886 validate_sequence *)
Definition v_sequence (v : pyval) (labels : list string) : res (list nat) :=
  match v with
  | PList l =>
      guard Nat.leb 2 (length l) else ValueErr ;;
      positions l labels
  | _ => Err ValueErr
  end.

(** /repo/pydtmc/validation.py 889-919 validate_sequences.  Besides the result, the
    list object passed by the caller as it is afterwards: the loop stores each
    validated sequence back into the list ("value[index] = ..."), unless a flat
    sequence was first wrapped in a new list; on failure the elements before the
    failing one have been replaced. *)
Definition PIndices (l : list nat) : pyval := PList (map (fun k => PInt (Z.of_nat k)) l).
Fixpoint seqs_loop (l : list pyval) (labels : list string) : res (list (list nat)) * list pyval :=
  match l with
  | [] => (Ok [], [])
  | v :: l' =>
      match v_sequence v labels with
      | Err _ => (Err ValueErr, v :: l')
      | Ok ks =>
          let (r, after) := seqs_loop l' labels in
          ((rest <- r ;; Ok (ks :: rest)), PIndices ks :: after)
      end
  end.
Definition v_sequences (v : pyval) (labels : list string) (flex : bool) : res (list (list nat)) * pyval :=
  match v with
  | PList l =>
      if negb (Nat.leb 2 (length l)) then (Err ValueErr, v)
      else if forallb is_list l then let (r, after) := seqs_loop l labels in (r, PList after)
      else if flex && (forallb is_integer l || forallb is_string l) then (fst (seqs_loop [v] labels), v)
      else (Err TypeErr, v)
  | _ => (Err ValueErr, v)
  end.

(** /repo/pydtmc/validation.py 107-135 _validate_limits: a limit is a bound and a flag *)
Definition limits_ok {A} (le lt : A -> A -> bool) (value : A) (lower upper : option (A * bool)) : bool :=
  match lower with
  | None => true
  | Some (b, included) => if (included : bool) then negb (le value b) else negb (lt value b)
  end &&
  match upper with
  | None => true
  | Some (b, included) => if (included : bool) then negb (le b value) else negb (lt b value)
  end.

(** /repo/pydtmc/validation.py 333-345 validate_float *)
Definition v_float (v : pyval) (lower upper : option (Qc * bool)) : res Qc :=
  match v with
  | PFloat (Fin x) => guard limits_ok Qcleb Qcltb x lower upper else ValueErr ;; Ok x
  | PFloat _ => Err ValueErr
  | _ => Err TypeErr
  end.

(** /repo/pydtmc/validation.py 454-463 validate_integer *)
Definition v_integer (v : pyval) (lower upper : option (Z * bool)) : res Z :=
  match v with
  | PInt z => guard limits_ok Z.leb Z.ltb z lower upper else ValueErr ;; Ok z
  | _ => Err TypeErr
  end.

(** /repo/pydtmc/validation.py 146-166 validate_boundary_condition *)
Inductive bcond := BNumber (x : num) | BAbsorbing | BReflecting.
Definition v_boundary_condition (v : pyval) : res bcond :=
  if is_number v then
    let x := as_float v in
    guard negb (num_lt x (Fin 0) || num_lt (Fin 1) x) else ValueErr ;;
    Ok (BNumber x)
  else if is_string v then
    if String.eqb (as_str v) "absorbing" then Ok BAbsorbing
    else if String.eqb (as_str v) "reflecting" then Ok BReflecting
    else Err ValueErr
  else Err TypeErr.

(** /repo/pydtmc/validation.py 466-487 validate_interval *)
Definition v_interval (v : pyval) : res (Qc * Qc) :=
  match v with
  | PTuple [a; b] =>
      guard is_number a && is_number b else ValueErr ;;
      let x := as_float a in
      let y := as_float b in
      guard isfinite x && num_le (Fin 0) x && (isfinite y && num_le (Fin 0) y) else ValueErr ;;
      guard negb (num_le y x) else ValueErr ;;
      Ok (fin x, fin y)
  | PTuple _ => Err ValueErr
  | _ => Err TypeErr
  end.

(** /repo/pydtmc/validation.py 992-1027 validate_time_points *)
Inductive tpoints := TPoint (k : Z) | TPoints (l : list Z).
Fixpoint insert_Z (x : Z) (l : list Z) : list Z :=
  match l with [] => [x] | y :: l' => if Z.leb x y then x :: l else y :: insert_Z x l' end.
Definition sort_Z (l : list Z) : list Z := fold_right insert_Z [] l.
Definition v_time_points (v : pyval) : res tpoints :=
  match v with
  | PInt z => guard Z.leb 0 z else ValueErr ;; Ok (TPoint z)
  | PList l =>
      guard forallb is_integer l else TypeErr ;;
      let zs := map as_int l in
      guard forallb (Z.leb 0) zs else ValueErr ;;
      guard Nat.leb 1 (length zs) else ValueErr ;;
      guard nodupb Z.eqb zs else ValueErr ;;
      Ok (TPoints (sort_Z zs))
  | _ => Err TypeErr
  end.

(** /repo/pydtmc/validation.py 268-276 validate_enumerator, 138-143 validate_boolean *)
Definition v_enumerator (v : pyval) (values : list string) : res string :=
  guard is_string v else TypeErr ;;
  guard existsb (String.eqb (as_str v)) values else ValueErr ;;
  Ok (as_str v).
Definition v_boolean (v : pyval) : res bool := match v with PBool b => Ok b | _ => Err TypeErr end.

(** /repo/pydtmc/utilities.py 244-253 get_instance_generators(MarkovChain): the names
    of the public functions marked as instance generators in markov_chain.py, and
    their aliases (decorators.py 121-end, functools.wraps copies the mark). *)
Definition instance_generators : list string :=
  ["aggregate"; "approximation"; "birth_death"; "closest_reversible"; "dirichlet_process";
   "fit_function"; "fit_sequence"; "from_dictionary"; "from_file"; "from_graph"; "from_matrix";
   "gamblers_ruin"; "identity"; "lump"; "merge_with"; "population_genetics_model"; "random";
   "random_distribution"; "to_bounded"; "to_bounded_chain"; "to_canonical"; "to_canonical_form";
   "to_lazy"; "to_lazy_chain"; "to_nth"; "to_nth_order"; "to_sub"; "to_subchain"; "urn_model"]%string.

(** A chain object whose matrix has not been validated: cells may be any number. *)
Record robj := mkrobj { r_p : list (list num); r_states : list string }.

(** /repo/pydtmc/markov_chain.py 210-231 MarkovChain.__init__(p, states) called by a
    function named [caller].  In the unvalidated branch, p and states are used as
    they are: p must be an array indexable at [i, j] for i, j < len(states)
    (build_mc_graph); a non-array or a missing list of states makes the
    construction fail with a raw exception.  States that are not strings are not
    modelled in that branch ([Err TypeErr]). *)
Definition construct (caller : string) (p states : pyval) : res robj :=
  if existsb (String.eqb caller) instance_generators then
    match p, states with
    | PArr a, PList l =>
        guard forallb (fun v => match v with PStr _ => true | _ => false end) l else TypeErr ;;
        guard kind_number (a_kind a) else TypeErr ;;
        match a_shape a with
        | [n; m] =>
            guard Nat.leb (length l) n && Nat.leb (length l) m else IndexErr ;;
            Ok (mkrobj (tab n (fun i => tab m (fun j => fst (a_at a [i; j])))) (map as_str l))
        | _ => Err IndexErr
        end
    | _, _ => Err TypeErr
    end
  else
    P <- v_transition_matrix p None ;;
    labels <- match states with
              | PNone => Ok (create_labels (nrows P) "")
              | _ => v_labels_input states (Some (nrows P))
              end ;;
    Ok (mkrobj (map (map Fin) P) labels).

(** /repo/pydtmc/markov_chain.py 2510-2544 from_matrix on arbitrary arguments *)
Definition from_matrix_py (m states : pyval) : res chain :=
  M <- v_matrix m None None ;;
  labels <- match states with
            | PNone => Ok (create_labels (nrows M) "")
            | _ => v_labels_input states (Some (nrows M))
            end ;;
  Ok (mkchain (normalize_matrix M) labels).

(** /repo/pydtmc/markov_chain.py 2581-2602 identity on arbitrary arguments *)
Definition identity_py (size states : pyval) : res chain :=
  z <- v_integer size (Some (2%Z, false)) None ;;
  let n := Z.to_nat z in
  labels <- match states with
            | PNone => Ok (create_labels n "")
            | _ => v_labels_input states (Some n)
            end ;;
  Ok (mkchain (eye n) labels).

(** The names that inspect.getmembers finds marked instance_generator in
    /repo/pydtmc/hidden_markov_model.py (restrict 415, estimate 577, fit 612,
    from_dictionary 659, from_file 709, from_graph 802, from_matrices 866, random 917) *)
Definition hmm_instance_generators : list string :=
  ["estimate"; "fit"; "from_dictionary"; "from_file"; "from_graph"; "from_matrices"; "random"; "restrict"]%string.

(** A hidden Markov model object. *)
Record hobj := mkhobj { ho_p : mat; ho_e : mat; ho_states : list string; ho_symbols : list string }.

(** /repo/pydtmc/hidden_markov_model.py 145-172 HiddenMarkovModel.__init__ called by
    a function named [caller]; only the validated branch is modelled (FuelErr
    stands for the other one). *)
Definition construct_hmm (caller : string) (p e states symbols : pyval) : res hobj :=
  guard negb (existsb (String.eqb caller) hmm_instance_generators) else FuelErr ;;
  P <- v_transition_matrix p None ;;
  E <- v_emission_matrix e (nrows P) ;;
  l <- match states with
       | PNone => Ok (create_labels (nrows P) "P")
       | _ => v_labels_input states (Some (nrows P))
       end ;;
  k <- match symbols with
       | PNone => Ok (create_labels (ncols E) "E")
       | _ => v_labels_input symbols (Some (ncols E))
       end ;;
  guard forallb (fun s => negb (existsb (String.eqb s) k)) l else ValueErr ;;
  Ok (mkhobj P E l k).
