(** M_Alias: other names of properties and methods (/repo/pydtmc/decorators.py 26-185), and the class MarkovChain. *)
From Coq Require Import List String Ascii Bool Arith.
From Verif Require Import Base.
Import ListNotations.
Open Scope string_scope.
Open Scope nat_scope.

(** a member of a class: what it is, the function behind it (a number), and the names given by object_mark
    (decorators.py 87-122), which are kept in the attribute _aliases of that function *)
Inductive kind := KProperty | KCached | KMethod | KOther.
Record member := mkmember { m_kind : kind; m_fun : nat; m_aliases : option (list string) }.
(** the dictionary of a class, in the order of definition *)
Definition class := list (string * member).

Fixpoint assoc {A} (k : string) (l : list (string * A)) : option A :=
  match l with [] => None | (x, a) :: r => if String.eqb x k then Some a else assoc k r end.
(** setattr *)
Fixpoint put {A} (k : string) (a : A) (l : list (string * A)) : list (string * A) :=
  match l with [] => [(k, a)] | (x, b) :: r => if String.eqb x k then (k, a) :: r else (x, b) :: put k a r end.

(** line 168: the pattern ^[a-z][\da-z]*(?:_[\da-z]+)*$, where $ also matches before a final line feed; names are
    in ASCII, so \d is 0-9.  [in_piece]: at least one character of the current piece has been read. *)
Definition lower_char (c : ascii) : bool := let n := nat_of_ascii c in andb (97 <=? n) (n <=? 122).
Definition digit_char (c : ascii) : bool := let n := nat_of_ascii c in andb (48 <=? n) (n <=? 57).
Definition piece_char (c : ascii) : bool := orb (digit_char c) (lower_char c).
Definition lf : ascii := ascii_of_nat 10.
Fixpoint match_rest (in_piece : bool) (s : string) : bool :=
  match s with
  | EmptyString => in_piece
  | String c r =>
      if piece_char c then match_rest true r
      else if andb in_piece (Ascii.eqb c "_") then match_rest false r
      else andb in_piece (andb (Ascii.eqb c lf) (String.eqb r ""))
  end.
Definition matches_alias (s : string) : bool :=
  match s with EmptyString => false | String c r => andb (lower_char c) (match_rest true r) end.

(** lines 147-159: the members that have aliases *)
Definition marked (c : class) : list (member * list string) :=
  flat_map (fun nm => match m_aliases (snd nm) with Some al => [(snd nm, al)] | None => [] end) c.
(** lines 176-181: a property becomes a plain property, a function a wrapper around it *)
Definition wrapped (m : member) : member :=
  mkmember (match m_kind m with KProperty | KCached => KProperty | _ => KMethod end) (m_fun m) (m_aliases m).

(** lines 130-185 aliased *)
Definition aliased (c : class) : res class :=
  let names := map fst c in
  let pairs := marked c in
  match pairs with
  | [] => Ok c
  | _ =>
    let flat := flat_map snd pairs in
    if length (nodup string_dec flat) <? length flat then Err OtherErr
    else if existsb (fun a => negb (matches_alias a)) flat then Err OtherErr
    else if existsb (fun a => existsb (String.eqb a) names) flat then Err OtherErr
    else Ok (fold_left (fun c ma => fold_left (fun c a => put a (wrapped (fst ma)) c) (snd ma) c) pairs c)
  end.

(** An instance: its data, and the values that cached properties have left in its __dict__. *)
Record inst (D V : Type) := mkinst { i_data : D; i_dict : list (string * V) }.
Arguments mkinst {D V}. Arguments i_data {D V}. Arguments i_dict {D V}.

Section Reading.
Context {D V : Type}.
(** what function number k computes; for a method, the function of the arguments *)
Variable eval : nat -> D -> V.

(** reading an attribute: lines 55-64 for cached properties *)
Definition getattr (c : class) (i : inst D V) (name : string) : res (V * inst D V) :=
  match assoc name c with
  | None => Err OtherErr
  | Some m =>
      match m_kind m with
      | KCached =>
          match assoc name (i_dict i) with
          | Some v => Ok (v, i)
          | None => let v := eval (m_fun m) (i_data i) in Ok (v, mkinst (i_data i) (put name v (i_dict i)))
          end
      | _ => Ok (eval (m_fun m) (i_data i), i)
      end
  end.

(** what a user does: read an attribute, or read it and modify the object that was returned in place *)
Inductive action := Look (name : string) | Modify (name : string) (g : V -> V).
Definition act (c : class) (i : inst D V) (a : action) : inst D V :=
  match a with
  | Look name => match getattr c i name with Ok (_, i') => i' | Err _ => i end
  | Modify name g =>
      match getattr c i name with
      | Ok (v, i') =>
          match assoc name c with
          | Some (mkmember KCached _ _) => mkinst (i_data i') (put name (g v) (i_dict i'))
          | _ => i'
          end
      | Err _ => i
      end
  end.
End Reading.

(** markov_chain.py 197-2790: the members of MarkovChain with the aliases of their object_mark; private names are
    mangled; static methods, which have no aliases, and class variables are KOther *)
Definition markov_chain_class : class :=
   [("_MarkovChain__instance_generators", mkmember KOther 0 None);
    ("_MarkovChain__random_distributions", mkmember KOther 1 None);
    ("__init__", mkmember KMethod 2 None);
    ("__eq__", mkmember KMethod 3 None);
    ("__hash__", mkmember KMethod 4 None);
    ("__repr__", mkmember KMethod 5 None);
    ("__str__", mkmember KMethod 6 None);
    ("_MarkovChain__absorbing_states_indices", mkmember KCached 7 None);
    ("_MarkovChain__classes_indices", mkmember KCached 8 None);
    ("_MarkovChain__communicating_classes_indices", mkmember KCached 9 None);
    ("_MarkovChain__cyclic_classes_indices", mkmember KCached 10 None);
    ("_MarkovChain__cyclic_states_indices", mkmember KCached 11 None);
    ("_MarkovChain__eigenvalues_sorted", mkmember KCached 12 None);
    ("_MarkovChain__rdl_decomposition", mkmember KCached 13 None);
    ("_MarkovChain__recurrent_classes_indices", mkmember KCached 14 None);
    ("_MarkovChain__recurrent_states_indices", mkmember KCached 15 None);
    ("_MarkovChain__slem", mkmember KCached 16 None);
    ("_MarkovChain__states_indices", mkmember KCached 17 None);
    ("_MarkovChain__transient_classes_indices", mkmember KCached 18 None);
    ("_MarkovChain__transient_states_indices", mkmember KCached 19 None);
    ("absorbing_states", mkmember KCached 20 None);
    ("accessibility_matrix", mkmember KCached 21 None);
    ("adjacency_matrix", mkmember KCached 22 None);
    ("communicating_classes", mkmember KCached 23 None);
    ("communication_matrix", mkmember KCached 24 None);
    ("cyclic_classes", mkmember KCached 25 None);
    ("cyclic_states", mkmember KCached 26 None);
    ("density", mkmember KCached 27 None);
    ("determinant", mkmember KCached 28 None);
    ("entropy_rate", mkmember KCached 29 None);
    ("entropy_rate_normalized", mkmember KCached 30 None);
    ("fundamental_matrix", mkmember KCached 31 None);
    ("implied_timescales", mkmember KCached 32 None);
    ("incidence_matrix", mkmember KCached 33 None);
    ("is_absorbing", mkmember KCached 34 None);
    ("is_aperiodic", mkmember KCached 35 None);
    ("is_canonical", mkmember KCached 36 None);
    ("is_doubly_stochastic", mkmember KCached 37 None);
    ("is_ergodic", mkmember KCached 38 None);
    ("is_irreducible", mkmember KCached 39 None);
    ("is_regular", mkmember KCached 40 None);
    ("is_reversible", mkmember KCached 41 None);
    ("is_stochastically_monotone", mkmember KCached 42 (Some ["is_monotone"]));
    ("is_symmetric", mkmember KCached 43 None);
    ("kemeny_constant", mkmember KCached 44 None);
    ("lumping_partitions", mkmember KCached 45 None);
    ("mixing_rate", mkmember KCached 46 None);
    ("n", mkmember KProperty 47 None);
    ("p", mkmember KProperty 48 None);
    ("period", mkmember KCached 49 None);
    ("periods", mkmember KCached 50 None);
    ("pi", mkmember KCached 51 (Some ["stationary_distributions"; "steady_states"]));
    ("rank", mkmember KCached 52 None);
    ("recurrent_classes", mkmember KCached 53 None);
    ("recurrent_states", mkmember KCached 54 None);
    ("relaxation_rate", mkmember KCached 55 None);
    ("size", mkmember KProperty 56 None);
    ("spectral_gap", mkmember KCached 57 None);
    ("states", mkmember KProperty 58 None);
    ("topological_entropy", mkmember KCached 59 None);
    ("transient_classes", mkmember KCached 60 None);
    ("transient_states", mkmember KCached 61 None);
    ("absorption_probabilities", mkmember KMethod 62 None);
    ("aggregate", mkmember KMethod 63 None);
    ("are_communicating", mkmember KMethod 64 None);
    ("closest_reversible", mkmember KMethod 65 None);
    ("committor_probabilities", mkmember KMethod 66 (Some ["crp"]));
    ("conditional_probabilities", mkmember KMethod 67 (Some ["conditional_distribution"; "cd"; "cp"]));
    ("expected_rewards", mkmember KMethod 68 (Some ["er"]));
    ("expected_transitions", mkmember KMethod 69 (Some ["et"]));
    ("first_passage_probabilities", mkmember KMethod 70 (Some ["fpp"]));
    ("first_passage_reward", mkmember KMethod 71 (Some ["fpr"]));
    ("hitting_probabilities", mkmember KMethod 72 (Some ["hp"]));
    ("hitting_times", mkmember KMethod 73 (Some ["ht"]));
    ("is_absorbing_state", mkmember KMethod 74 None);
    ("is_accessible", mkmember KMethod 75 None);
    ("is_cyclic_state", mkmember KMethod 76 None);
    ("is_recurrent_state", mkmember KMethod 77 None);
    ("is_transient_state", mkmember KMethod 78 None);
    ("lump", mkmember KMethod 79 None);
    ("mean_absorption_times", mkmember KMethod 80 (Some ["mat"]));
    ("mean_first_passage_times_between", mkmember KMethod 81 (Some ["mfpt_between"; "mfptb"]));
    ("mean_first_passage_times_to", mkmember KMethod 82 (Some ["mfpt_to"; "mfptt"]));
    ("mean_number_visits", mkmember KMethod 83 (Some ["mnv"]));
    ("mean_recurrence_times", mkmember KMethod 84 (Some ["mrt"]));
    ("merge_with", mkmember KMethod 85 None);
    ("mixing_time", mkmember KMethod 86 (Some ["mt"]));
    ("next", mkmember KMethod 87 None);
    ("predict", mkmember KMethod 88 None);
    ("redistribute", mkmember KMethod 89 None);
    ("sensitivity", mkmember KMethod 90 None);
    ("sequence_probability", mkmember KMethod 91 None);
    ("simulate", mkmember KMethod 92 None);
    ("time_correlations", mkmember KMethod 93 (Some ["tc"]));
    ("time_relaxations", mkmember KMethod 94 (Some ["tr"]));
    ("to_bounded_chain", mkmember KMethod 95 (Some ["to_bounded"]));
    ("to_canonical_form", mkmember KMethod 96 (Some ["to_canonical"]));
    ("to_dictionary", mkmember KMethod 97 None);
    ("to_file", mkmember KMethod 98 None);
    ("to_graph", mkmember KMethod 99 None);
    ("to_lazy_chain", mkmember KMethod 100 (Some ["to_lazy"]));
    ("to_matrix", mkmember KMethod 101 None);
    ("to_nth_order", mkmember KMethod 102 (Some ["to_nth"]));
    ("to_subchain", mkmember KMethod 103 (Some ["to_sub"]));
    ("transition_probability", mkmember KMethod 104 None);
    ("approximation", mkmember KOther 105 None);
    ("birth_death", mkmember KOther 106 None);
    ("dirichlet_process", mkmember KOther 107 None);
    ("fit_function", mkmember KOther 108 None);
    ("fit_sequence", mkmember KOther 109 None);
    ("from_dictionary", mkmember KOther 110 None);
    ("from_file", mkmember KOther 111 None);
    ("from_graph", mkmember KOther 112 None);
    ("from_matrix", mkmember KOther 113 None);
    ("gamblers_ruin", mkmember KOther 114 None);
    ("identity", mkmember KOther 115 None);
    ("population_genetics_model", mkmember KOther 116 None);
    ("random", mkmember KOther 117 None);
    ("random_distribution", mkmember KOther 118 None);
    ("urn_model", mkmember KOther 119 None)].
