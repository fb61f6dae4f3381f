(** M_Object: chain objects: equality, hashing, and which of their parts are shared
    with the caller. *)
From Verif Require Export Base QcX Mat.
From Coq Require Import String List Arith Bool.
Import ListNotations.

(** ** Equality and hash
    Floating-point numbers with signed zeros: the value and, for a zero, its sign
    bit.  Rounding and other special values are not modelled here. *)
Record sfloat := mksf { sf_val : Qc; sf_neg0 : bool }.
Definition sf_same (x y : sfloat) : bool := Qceqb (sf_val x) (sf_val y).
(** -0.0: the flag only matters when the value is zero *)
Definition is_neg0 (x : sfloat) : bool := sf_neg0 x && Qceqb (sf_val x) 0.

Record fchain := mkfchain { fc_p : list (list sfloat); fc_states : list string }.

(** numpy.array_equal: same shape, equal numbers (-0.0 == 0.0) *)
Fixpoint all_eqb {A} (eqb : A -> A -> bool) (l m : list A) : bool :=
  match l, m with
  | [], [] => true
  | x :: l, y :: m => eqb x y && all_eqb eqb l m
  | _, _ => false
  end.
(** /repo/pydtmc/markov_chain.py 233-238 MarkovChain.__eq__ *)
Definition fc_eqb (c d : fchain) : bool :=
  all_eqb (all_eqb sf_same) (fc_p c) (fc_p d) && all_eqb String.eqb (fc_states c) (fc_states d).

(** The representation of a float: its value and the sign of zero, nothing else
    (there is one bit pattern for each finite float). *)
Definition sf_key (x : sfloat) : Qc * bool := (sf_val x, is_neg0 x).
(** /repo/pydtmc/markov_chain.py 240-242 MarkovChain.__hash__: the hash of the pair
    (bytes of the matrix, names).  [enc] gives the bytes of a float and [hash] is
    Python's hash on such pairs. *)
Definition fc_hash (enc : Qc * bool -> list bool) (hash : list bool * list string -> Z) (c : fchain) : Z :=
  hash (concat (map (fun r => concat (map (fun x => enc (sf_key x)) r)) (fc_p c)), fc_states c).

(** /repo/pydtmc/hidden_markov_model.py 174-183 HiddenMarkovModel.__eq__ and
    __hash__ *)
Record fhmm := mkfhmm { fh_p : list (list sfloat); fh_e : list (list sfloat); fh_states : list string; fh_symbols : list string }.
Definition fh_eqb (c d : fhmm) : bool :=
  all_eqb (all_eqb sf_same) (fh_p c) (fh_p d) && all_eqb (all_eqb sf_same) (fh_e c) (fh_e d)
  && all_eqb String.eqb (fh_states c) (fh_states d) && all_eqb String.eqb (fh_symbols c) (fh_symbols d).
Definition bytes (enc : Qc * bool -> list bool) (p : list (list sfloat)) : list bool :=
  concat (map (fun r => concat (map (fun x => enc (sf_key x)) r)) p).
Definition fh_hash (enc : Qc * bool -> list bool) (hash : list bool * list bool * list string * list string -> Z) (c : fhmm) : Z :=
  hash (bytes enc (fh_p c), bytes enc (fh_e c), fh_states c, fh_symbols c).

(** ** Sharing
    A heap of arrays and lists.  A location is a number. *)
Inductive cell := CMat (m : mat) | CStr (l : list string).
Definition heap := list cell.

(** A reference the caller holds: a whole array or list, or a view of a row. *)
Inductive ref := RWhole (l : nat) | RRow (l i : nat).
Definition ref_loc (r : ref) : nat := match r with RWhole l | RRow l _ => l end.

(** A chain object: where its matrix and its names are, and the cached results
    (identified by a number) with their locations. *)
Record obj := mkobj { o_p : nat; o_states : nat; o_cache : list (nat * nat) }.

(** How a reference was obtained. *)
Inductive origin :=
| FromArgument       (* the list of names passed to the constructor *)
| FromStates         (* mc.states *)
| FromRow            (* mc.conditional_probabilities(i) *)
| FromCopy           (* mc.p, mc.to_matrix(), or any result computed anew *)
| FromCache (k : nat). (* a cached property or method returning an array or a list *)

Record world := mkworld { w_heap : heap; w_objs : list obj; w_held : list (origin * ref) }.

Section Heap.
(** The value of the cached result k, of the computed result k, and the matrix of
    the derived chain k, for a chain with matrix m and names l. *)
Variable cached_value computed_value : nat -> mat -> list string -> cell.
Variable derived : nat -> mat -> mat.

Definition get_mat (h : heap) (l : nat) : mat := match nth_error h l with Some (CMat m) => m | _ => [] end.
Definition get_str (h : heap) (l : nat) : list string := match nth_error h l with Some (CStr s) => s | _ => [] end.

Fixpoint put {A} (n : nat) (x : A) (l : list A) : list A :=
  match l, n with
  | [], _ => []
  | _ :: r, 0 => x :: r
  | y :: r, S m => y :: put m x r
  end.

(** What the caller may do with object number x. *)
Inductive action :=
| AMatrix (x : nat)        (* mc.p, 827-833, or mc.to_matrix(), 2026-2034: a copy *)
| AStates (x : nat)        (* mc.states, 962-968: the list itself *)
| ARow (x i : nat)         (* mc.conditional_probabilities(i), 1175-1197: a view, p[i, :] *)
| ACached (x k : nat)      (* a cached property (272-1002) or cached method (1003-1017, 1513-1528, 1585-1616) *)
| AComputed (x k : nat)    (* any other result *)
| ADerive (x k : nat)      (* to_lazy_chain, to_bounded_chain, to_nth_order, closest_reversible: new matrix, MarkovChain(p, self.__states) *)
| ADeriveNew (x k : nat) (names : list string) (* to_subchain, lump, merge_with, to_canonical_form: new matrix and names *)
| AWriteMat (n : nat) (m : mat)         (* in-place change of the held reference number n to the array m *)
| AWriteRow (n : nat) (r : list Qc)     (* the same for a held row *)
| AWriteStr (n : nat) (l : list string). (* the same for a held list of names *)

Definition act (w : world) (a : action) : world :=
  let h := w_heap w in
  match a with
  | AMatrix x =>
      match nth_error (w_objs w) x with
      | Some o => mkworld (h ++ [CMat (get_mat h (o_p o))]) (w_objs w) ((FromCopy, RWhole (length h)) :: w_held w)
      | None => w
      end
  | AStates x =>
      match nth_error (w_objs w) x with
      | Some o => mkworld h (w_objs w) ((FromStates, RWhole (o_states o)) :: w_held w)
      | None => w
      end
  | ARow x i =>
      match nth_error (w_objs w) x with
      | Some o => mkworld h (w_objs w) ((FromRow, RRow (o_p o) i) :: w_held w)
      | None => w
      end
  | ACached x k =>
      match nth_error (w_objs w) x with
      | Some o =>
          match find (fun e => Nat.eqb (fst e) k) (o_cache o) with
          | Some (_, l) => mkworld h (w_objs w) ((FromCache k, RWhole l) :: w_held w)
          | None =>
              let l := length h in
              mkworld (h ++ [cached_value k (get_mat h (o_p o)) (get_str h (o_states o))])
                      (put x (mkobj (o_p o) (o_states o) ((k, l) :: o_cache o)) (w_objs w))
                      ((FromCache k, RWhole l) :: w_held w)
          end
      | None => w
      end
  | AComputed x k =>
      match nth_error (w_objs w) x with
      | Some o => mkworld (h ++ [computed_value k (get_mat h (o_p o)) (get_str h (o_states o))]) (w_objs w)
                          ((FromCopy, RWhole (length h)) :: w_held w)
      | None => w
      end
  | ADerive x k =>
      match nth_error (w_objs w) x with
      | Some o => mkworld (h ++ [CMat (derived k (get_mat h (o_p o)))]) (w_objs w ++ [mkobj (length h) (o_states o) []]) (w_held w)
      | None => w
      end
  | ADeriveNew x k names =>
      match nth_error (w_objs w) x with
      | Some o => mkworld (h ++ [CMat (derived k (get_mat h (o_p o))); CStr names]) (w_objs w ++ [mkobj (length h) (S (length h)) []]) (w_held w)
      | None => w
      end
  | AWriteMat n m =>
      match nth_error (w_held w) n with
      | Some (_, RWhole l) =>
          match nth_error h l with Some (CMat _) => mkworld (put l (CMat m) h) (w_objs w) (w_held w) | _ => w end
      | _ => w
      end
  | AWriteRow n r =>
      match nth_error (w_held w) n with
      | Some (_, RRow l i) =>
          match nth_error h l with Some (CMat m) => mkworld (put l (CMat (put i r m)) h) (w_objs w) (w_held w) | _ => w end
      | _ => w
      end
  | AWriteStr n s =>
      match nth_error (w_held w) n with
      | Some (_, RWhole l) =>
          match nth_error h l with Some (CStr _) => mkworld (put l (CStr s) h) (w_objs w) (w_held w) | _ => w end
      | _ => w
      end
  end.

Definition history (w : world) (acts : list action) : world := fold_left act acts w.

(** /repo/pydtmc/markov_chain.py 210-231: MarkovChain(p, states) keeps a validated
    copy of p and the caller's own list of names (validate_labels_input returns its
    argument); with states = None the names are new ([given] false). *)
Definition build (p : mat) (names : list string) (given : bool) : world :=
  mkworld [CMat p; CStr names] [mkobj 0 1 []] (if given then [(FromArgument, RWhole 1)] else []).

(** What mc.p and mc.states show for object x. *)
Definition matrix_of (w : world) (x : nat) : option mat := option_map (fun o => get_mat (w_heap w) (o_p o)) (nth_error (w_objs w) x).
Definition names_of (w : world) (x : nat) : option (list string) := option_map (fun o => get_str (w_heap w) (o_states o)) (nth_error (w_objs w) x).
End Heap.
