(** M_Chain: the MarkovChain object (its immutable part), default labels and the
    label validator.  Model only. *)
From Verif Require Export Base Np.
From Coq Require Import Ascii DecimalString.
Open Scope res_scope.

(** /repo/pydtmc/markov_chain.py 227-231 (MarkovChain.__init__): the transition
    matrix and the state names.  The cache and the networkx graph are modelled
    elsewhere (M_Cache, M_Graph); size is p.shape[1].  A call of the constructor
    from an instance generator (markov_chain.py 217) performs no validation:
    [mkchain]. *)
Record chain := mkchain { ch_p : mat; ch_states : list string }.
Definition ch_size (c : chain) : nat := nrows (ch_p c).

(** f'{i:d}' : decimal representation of a natural number. *)
Definition dec (n : nat) : string := NilEmpty.string_of_uint (Nat.to_uint n).

(** /repo/pydtmc/utilities.py 133-137 create_labels: '<prefix>1', ..., '<prefix>count' *)
Definition create_labels (count : nat) (prefix : string) : list string :=
  map (fun i => String.append prefix (dec i)) (seq 1 count).

(** str.strip() whitespace, for the code points below 256 (the model's strings
    are sequences of code points below 256). *)
Definition is_space (a : ascii) : bool :=
  let n := nat_of_ascii a in
  (Nat.leb 9 n && Nat.leb n 13) || (Nat.leb 28 n && Nat.leb n 32) || Nat.eqb n 133 || Nat.eqb n 160.

(** /repo/pydtmc/utilities.py 372-374 is_string, for a value that is a str:
    len(value.strip()) > 0 iff some character is not whitespace. *)
Fixpoint nonblank (s : string) : bool :=
  match s with EmptyString => false | String a s' => negb (is_space a) || nonblank s' end.

(** /repo/pydtmc/validation.py 592-613 validate_labels_input for a list of str. *)
Definition validate_labels_input (l : list string) (size : option nat) : res (list string) :=
  guard forallb nonblank l else TypeErr ;;
  guard Nat.leb 2 (length l) else ValueErr ;;
  guard nodupb String.eqb l else ValueErr ;;
  guard match size with None => true | Some n => Nat.eqb (length l) n end else ValueErr ;;
  Ok l.

(** The states argument of the generators: [None] means the default names. *)
Definition gen_states (st : option (list string)) (size : nat) (dflt : list string) : res (list string) :=
  match st with
  | None => Ok dflt
  | Some l => validate_labels_input l (Some size)
  end.

(** 0.0 <= x <= 1.0 *)
Definition in01 (x : Qc) : bool := Qcleb 0 x && Qcleb x 1.

(** numpy.any / numpy.all over a matrix of finite numbers *)
Definition mforall (f : Qc -> bool) (M : mat) : bool := forallb (forallb f) M.

(** shape of a nested list as numpy sees it: a 2d array with n rows, m columns *)
Definition is2d (n m : nat) (M : mat) : bool := wfb n m M.
