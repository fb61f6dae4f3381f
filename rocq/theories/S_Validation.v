(** S_Validation: what it means for a Python value to be an array of numbers, to
    designate states, and so on.  These specifications use the universe of values
    (M_Validation: num, arr, pyval) and none of the validators. *)
From Verif Require Export S_Gen M_Validation.
From Coq Require Export Sorted.

(** ** Arrays of numbers *)

(** The scalar values. *)
Definition scalar (v : pyval) : Prop :=
  match v with PList _ | PTuple _ | PArr _ => False | _ => True end.

(** [has_shape v s]: v, seen as an array, has shape s. *)
Inductive has_shape : pyval -> list nat -> Prop :=
| sh_scalar v : scalar v -> has_shape v []
| sh_array a : has_shape (PArr a) (a_shape a)
| sh_nil_l : has_shape (PList []) [0]
| sh_nil_t : has_shape (PTuple []) [0]
| sh_list l s : l <> [] -> (forall x, In x l -> has_shape x s) -> has_shape (PList l) (length l :: s)
| sh_tuple l s : l <> [] -> (forall x, In x l -> has_shape x s) -> has_shape (PTuple l) (length l :: s).

(** [has_entry v idx c]: v[i1][i2]... is the number c. *)
Inductive has_entry : pyval -> list nat -> cplx -> Prop :=
| en_bool b : has_entry (PBool b) [] (Fin (if b then 1 else 0), Fin 0)
| en_int z : has_entry (PInt z) [] (Fin (Q2Qc (inject_Z z)), Fin 0)
| en_float x : has_entry (PFloat x) [] (x, Fin 0)
| en_complex c : has_entry (PComplex c) [] c
| en_array a idx : has_entry (PArr a) idx (a_at a idx)
| en_list l i v idx c : nth_error l i = Some v -> has_entry v idx c -> has_entry (PList l) (i :: idx) c
| en_tuple l i v idx c : nth_error l i = Some v -> has_entry v idx c -> has_entry (PTuple l) (i :: idx) c.

(** [has_kind v k]: some element of v is of kind k. *)
Inductive has_kind : pyval -> kind -> Prop :=
| ki_bool b : has_kind (PBool b) KBool
| ki_int z : (-9223372036854775808 <= z < 18446744073709551616)%Z -> has_kind (PInt z) KInt
| ki_big z : ~ (-9223372036854775808 <= z < 18446744073709551616)%Z -> has_kind (PInt z) KOther
| ki_float x : has_kind (PFloat x) KFloat
| ki_complex c : has_kind (PComplex c) KComplex
| ki_none : has_kind PNone KOther
| ki_str s : has_kind (PStr s) KOther
| ki_frame a : has_kind (PFrame a) KOther
| ki_other : has_kind POther KOther
| ki_array a : has_kind (PArr a) (a_kind a)
| ki_nil_l : has_kind (PList []) KFloat
| ki_nil_t : has_kind (PTuple []) KFloat
| ki_list l v k : In v l -> has_kind v k -> has_kind (PList l) k
| ki_tuple l v k : In v l -> has_kind v k -> has_kind (PTuple l) k.

(** An array of numbers: nothing but numbers and booleans in it, and not only
    booleans. *)
Definition all_numbers (v : pyval) : Prop :=
  (forall k, has_kind v k -> k <> KOther) /\ (exists k, has_kind v k /\ k <> KBool).

(** [numeric_array v s E]: v is a list, an array or a data frame / sparse matrix of
    numbers of shape s whose entry at index idx is E idx. *)
Definition numeric_array (v : pyval) (s : list nat) (E : list nat -> cplx) : Prop :=
  match v with
  | PFrame a => a_shape a = s /\ (a_kind a <> KOther /\ a_kind a <> KBool) /\ a_at a = E
  | PList _ | PArr _ =>
      has_shape v s /\ all_numbers v
      /\ forall idx, Forall2 lt idx s -> has_entry v idx (E idx)
  | _ => False
  end.

(** v is an n x m array of finite real numbers, the entries of P. *)
Definition real_matrix (v : pyval) (n m : nat) (P : mat) : Prop :=
  wf n m P /\ exists E, numeric_array v [n; m] E
  /\ forall i j, i < n -> j < m -> E [i; j] = (Fin (mget P i j), Fin 0).

(** The same when the imaginary parts of the entries are disregarded. *)
Definition real_part_matrix (v : pyval) (n m : nat) (P : mat) : Prop :=
  wf n m P /\ exists E, numeric_array v [n; m] E
  /\ forall i j, i < n -> j < m -> fst (E [i; j]) = Fin (mget P i j).

(** v is a vector (an array of shape (n,), (1, n) or, if n = 1, without dimensions)
    whose entries have the real parts w. *)
Definition real_part_vector (v : pyval) (n : nat) (w : vec) : Prop :=
  length w = n /\ exists s E, numeric_array v s E
  /\ ((s = [n] /\ forall i, i < n -> fst (E [i]) = Fin (vget w i))
      \/ (s = [1; n] /\ forall i, i < n -> fst (E [0; i]) = Fin (vget w i))
      \/ (s = [] /\ n = 1 /\ fst (E []) = Fin (vget w 0))).

(** Entries in [0,1]; row sums (totals) within 1e-8 + 1e-5 of 1. *)
Definition probabilities (n m : nat) (P : mat) : Prop :=
  forall i j, i < n -> j < m -> (0 <= mget P i j <= 1)%Qc.
Definition tolerance : Qc := Q2Qc (1001 # 100000000).
Definition nearly_one (x : Qc) : Prop := (- tolerance <= x - 1 <= tolerance)%Qc.
Definition nearly_stochastic (n m : nat) (P : mat) : Prop :=
  forall i, i < n -> nearly_one (sumn m (fun j => mget P i j)).

(** The states argument: None (names '1', '2', ...) or a list of n distinct
    non-blank strings. *)
Definition names_argument (v : pyval) (n : nat) (l : list string) : Prop :=
  (v = PNone /\ l = map dec (seq 1 n)) \/ (v = PList (map PStr l) /\ names_ok n l).

(** ** Designating states *)

(** v designates state k among the labels: an index or a name. *)
Definition designates1 (labels : list string) (v : pyval) (k : nat) : Prop :=
  k < length labels /\ (v = PInt (Z.of_nat k) \/ exists s, v = PStr s /\ nth_error labels k = Some s).

(** a list of designations, all indices or all names *)
Definition designates_list (labels : list string) (l : list pyval) (ks : list nat) : Prop :=
  (forall k, In k ks -> k < length labels)
  /\ (l = map (fun k => PInt (Z.of_nat k)) ks \/ l = map (fun k => PStr (nth k labels ""%string)) ks).

(** ** Limits: a bound and a flag telling whether the bound is excluded *)
Definition above {A} (lt : A -> A -> Prop) (x : A) (o : option (A * bool)) : Prop :=
  match o with
  | None => True
  | Some (b, excluded) => lt b x \/ (excluded = false /\ x = b)
  end.
Definition below {A} (lt : A -> A -> Prop) (x : A) (o : option (A * bool)) : Prop :=
  match o with
  | None => True
  | Some (b, excluded) => lt x b \/ (excluded = false /\ x = b)
  end.

(** Labels of a chain: distinct non-blank strings. *)
Definition labels_ok (labels : list string) : Prop := NoDup labels /\ forall s, In s labels -> nonblank s = true.

(** What a selection of states designates, and how many it may designate. *)
Definition selection (labels : list string) (subset : bool) (minimum : option nat) (v : pyval) (r : list nat) : Prop :=
  (exists k, designates1 labels v k /\ r = [k])
  \/ (exists l ks, v = PList l /\ designates_list labels l ks /\ NoDup ks /\ 1 <= length ks
       /\ opt_get 1 minimum <= length ks /\ length ks <= (if subset then length labels - 1 else length labels)
       /\ StronglySorted lt r /\ forall k, In k r <-> In k ks).

(** ** Partitions *)
(** Ordered partition into consecutive blocks (blocks may be empty), given by
    indices or by names. *)
Definition block_argument (labels : list string) (v : pyval) (blocks : list (list nat)) : Prop :=
  v = PList (map (fun b => PList (map (fun k => PInt (Z.of_nat k)) b)) blocks)
  \/ v = PList (map (fun b => PList (map (fun k => PStr (nth k labels ""%string)) b)) blocks).

(** ** Vectors *)
(** What each kind of vector must satisfy. *)
Definition vector_spec (t : vtype) (n : nat) (w : vec) : Prop :=
  (forall i, i < n -> (0 <= vget w i <= 1)%Qc) /\
  match t with
  | Annihilation => (vget w 0 <= atol)%Qc
  | Creation => (vget w (n - 1) <= atol)%Qc
  | StochasticV => nearly_one (sumn n (vget w))
  | Unconstrained => True
  end.

(** ** Callers: a function that is not named like one of the class's own methods
    that build chains *)
Definition user_caller (caller : string) : Prop := ~ In caller instance_generators.


(** ** Other arguments *)

(** Mask of a random chain: free cells and assigned probabilities, the assigned ones
    of a row not exceeding 1 in total. *)
Definition mask_spec (n m : nat) (M : list (list num)) : Prop :=
  length M = n /\ (forall r, In r M -> length r = m)
  /\ (forall r x, In r M -> In x r -> x = NaN \/ exists q, x = Fin q /\ (0 <= q <= 1)%Qc)
  /\ (forall r, In r M -> (lsum (flat_map (fun x => match x with Fin q => [q] | _ => [] end) r) <= 1)%Qc).

(** v is an n x m array whose entries have the real parts M (numbers, infinities or
    NaN). *)
Definition num_matrix (v : pyval) (n m : nat) (M : list (list num)) : Prop :=
  exists E, numeric_array v [n; m] E /\ forall i j, i < n -> j < m -> fst (E [i; j]) = nth j (nth i M []) NaN.

(** The integers among the rationals. *)
Definition integral (x : Qc) : Prop := exists z : Z, x = Q2Qc (inject_Z z).

(** A number given as an int or a float. *)
Definition number_value (v : pyval) (x : num) : Prop :=
  v = PFloat x \/ exists z, v = PInt z /\ x = Fin (Q2Qc (inject_Z z)).

(** Entries at least 0. *)
Definition nonneg_entries (n m : nat) (P : mat) : Prop := forall i j, i < n -> j < m -> (0 <= mget P i j)%Qc.

(** The states or symbols argument of a hidden Markov model. *)
Definition hmm_names_argument (prefix : string) (v : pyval) (n : nat) (l : list string) : Prop :=
  (v = PNone /\ l = map (fun k => append prefix (dec k)) (seq 1 n)) \/ (v = PList (map PStr l) /\ names_ok n l).
