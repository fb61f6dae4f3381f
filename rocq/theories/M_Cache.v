(** M_Cache: threads reading the cached properties of objects.

    /repo/pydtmc/decorators.py 26-85 cached_property.  A descriptor holds one
    re-entrant lock, shared by all the instances of the class; reading the property
    k of the instance o is

        with self._lock:
            try: return instance.__dict__[name]
            except KeyError: return instance.__dict__.setdefault(name, self._func(instance))

    A property is a number k, an instance a number o.  The function behind k reads
    other cached properties of the same instance (the list [plan o k]: which ones
    depends on the data of the instance) and then builds a new value; values are
    identities of objects, so that two evaluations never give the same value.

    /repo/pydtmc/decorators.py 130-191 aliased: an alias of a cached property is a
    plain property around the same function: no lock, nothing stored. *)
From Coq Require Import List Arith Bool.
Import ListNotations.

(** Where the innermost call of a thread stands. *)
Inductive phase :=
| PWait                    (* before acquiring the lock *)
| PCheck                   (* lock held, before looking into __dict__ *)
| PRun (ds : list nat)     (* in func, the properties ds still to be read *)
| PStore (v : nat)         (* func returned v, before setdefault *)
| PRet (v : nat)           (* before releasing the lock and returning v *)
| PAlias (ds : list nat).  (* in func called through an alias *)

Record frame := mkframe { f_o : nat; f_k : nat; f_ph : phase }.

(** What a thread asks for: a property of an instance, by its name or by an alias. *)
Inductive request := RProp (o k : nat) | RAlias (o k : nat).

Record thread := mkthread {
  t_stack : list frame;                (* innermost call first *)
  t_todo : list request;
  t_results : list (nat * nat * nat)   (* (o, k, value) of the completed reads by name *)
}.

Record state := mkstate {
  s_threads : list thread;
  s_locks : nat -> option (nat * nat);    (* property -> owner and count *)
  s_dict : nat -> nat -> option nat;      (* instance.__dict__ *)
  s_log : list (nat * nat * nat);         (* evaluations by cached reads: (o, k, value) *)
  s_alias : list (nat * nat * nat);       (* evaluations through aliases *)
  s_next : nat                            (* next fresh identity *)
}.

Section Machine.
Variable plan : nat -> nat -> list nat.

Definition upd {A} (f : nat -> A) (k : nat) (v : A) : nat -> A := fun x => if Nat.eqb x k then v else f x.

Fixpoint set_nth {A} (n : nat) (x : A) (l : list A) : list A :=
  match l, n with
  | [], _ => []
  | _ :: r, 0 => x :: r
  | y :: r, S m => y :: set_nth m x r
  end.

(** threading.RLock: acquire by thread t *)
Definition acquire (t k : nat) (locks : nat -> option (nat * nat)) : option (nat -> option (nat * nat)) :=
  match locks k with
  | None => Some (upd locks k (Some (t, 1)))
  | Some (u, c) => if Nat.eqb u t then Some (upd locks k (Some (t, S c))) else None
  end.
Definition release (t k : nat) (locks : nat -> option (nat * nat)) : nat -> option (nat * nat) :=
  match locks k with
  | Some (u, S (S c)) => upd locks k (Some (u, S c))
  | _ => upd locks k None
  end.

Definition with_thread (s : state) (t : nat) (T : thread) : state :=
  mkstate (set_nth t T (s_threads s)) (s_locks s) (s_dict s) (s_log s) (s_alias s) (s_next s).

(** One step of thread t; None when it is blocked, finished or absent. *)
Definition step (s : state) (t : nat) : option state :=
  match nth_error (s_threads s) t with
  | None => None
  | Some T =>
    match t_stack T with
    | [] =>
        match t_todo T with
        | [] => None
        | RProp o k :: todo => Some (with_thread s t (mkthread [mkframe o k PWait] todo (t_results T)))
        | RAlias o k :: todo => Some (with_thread s t (mkthread [mkframe o k (PAlias (plan o k))] todo (t_results T)))
        end
    | mkframe o k ph :: fs =>
        let go ph' := mkthread (mkframe o k ph' :: fs) (t_todo T) (t_results T) in
        match ph with
        | PWait =>
            match acquire t k (s_locks s) with
            | None => None
            | Some l => Some (mkstate (set_nth t (go PCheck) (s_threads s)) l (s_dict s) (s_log s) (s_alias s) (s_next s))
            end
        | PCheck =>
            match s_dict s o k with
            | Some v => Some (with_thread s t (go (PRet v)))
            | None => Some (with_thread s t (go (PRun (plan o k))))
            end
        | PRun (d :: ds) =>
            Some (with_thread s t (mkthread (mkframe o d PWait :: mkframe o k (PRun ds) :: fs) (t_todo T) (t_results T)))
        | PRun [] =>
            let v := s_next s in
            Some (mkstate (set_nth t (go (PStore v)) (s_threads s)) (s_locks s) (s_dict s)
                          ((o, k, v) :: s_log s) (s_alias s) (S v))
        | PStore v =>
            let w := match s_dict s o k with Some w => w | None => v end in
            Some (mkstate (set_nth t (go (PRet w)) (s_threads s)) (s_locks s)
                          (upd (s_dict s) o (upd (s_dict s o) k (Some w))) (s_log s) (s_alias s) (s_next s))
        | PRet v =>
            Some (mkstate (set_nth t (mkthread fs (t_todo T) ((o, k, v) :: t_results T)) (s_threads s))
                          (release t k (s_locks s)) (s_dict s) (s_log s) (s_alias s) (s_next s))
        | PAlias (d :: ds) =>
            Some (with_thread s t (mkthread (mkframe o d PWait :: mkframe o k (PAlias ds) :: fs) (t_todo T) (t_results T)))
        | PAlias [] =>
            Some (mkstate (set_nth t (mkthread fs (t_todo T) (t_results T)) (s_threads s)) (s_locks s) (s_dict s)
                          (s_log s) ((o, k, s_next s) :: s_alias s) (S (s_next s)))
        end
    end
  end.

(** A schedule: the thread chosen at each instant (nothing happens when it cannot
    step). *)
Fixpoint run (s : state) (sched : list nat) : state :=
  match sched with
  | [] => s
  | t :: r => run (match step s t with Some s' => s' | None => s end) r
  end.

(** Fresh objects and threads with their requests. *)
Definition start (requests : list (list request)) : state :=
  mkstate (map (fun rs => mkthread [] rs []) requests) (fun _ => None) (fun _ _ => None) [] [] 0.
End Machine.

(** The cached properties of /repo/pydtmc/markov_chain.py 272-1002 and, for each, the
    cached properties its function may read:
     0 __absorbing_states_indices   1 __classes_indices        2 __communicating_classes_indices
     3 __cyclic_classes_indices     4 __cyclic_states_indices  5 __eigenvalues_sorted
     6 __rdl_decomposition          7 __recurrent_classes_indices 8 __recurrent_states_indices
     9 __slem                      10 __states_indices        11 __transient_classes_indices
    12 __transient_states_indices  13 absorbing_states        14 accessibility_matrix
    15 adjacency_matrix            16 communicating_classes   17 communication_matrix
    18 cyclic_classes              19 cyclic_states           20 density
    21 determinant                 22 entropy_rate            23 entropy_rate_normalized
    24 fundamental_matrix          25 implied_timescales      26 incidence_matrix
    27 is_absorbing                28 is_aperiodic            29 is_canonical
    30 is_doubly_stochastic        31 is_ergodic              32 is_irreducible
    33 is_regular                  34 is_reversible           35 is_stochastically_monotone
    36 is_symmetric                37 kemeny_constant         38 lumping_partitions
    39 mixing_rate                 40 period                  41 periods
    42 pi                          43 rank                    44 recurrent_classes
    45 recurrent_states            46 relaxation_rate         47 spectral_gap
    48 topological_entropy         49 transient_classes       50 transient_states *)
Definition mc_reads (k : nat) : list nat :=
  match k with
  | 2 => [1] | 3 => [32; 28; 2] | 4 => [3] | 7 => [1; 11] | 8 => [7] | 9 => [31] | 11 => [1] | 12 => [11]
  | 13 => [0] | 14 => [15] | 16 => [2] | 17 => [2] | 18 => [3] | 19 => [4] | 20 => [15]
  | 22 => [42] | 23 => [22; 15] | 24 => [27; 50; 12] | 25 => [31; 5] | 26 => [10] | 27 => [13; 10; 0]
  | 28 => [32; 41] | 29 => [8; 12] | 31 => [32; 28] | 32 => [16] | 34 => [42] | 37 => [24] | 39 => [9]
  | 40 => [28; 32; 41; 16; 44] | 42 => [32; 44; 7] | 44 => [7] | 45 => [8] | 46 => [9; 47] | 47 => [9] | 48 => [15]
  | 49 => [11] | 50 => [12]
  | _ => []
  end.
