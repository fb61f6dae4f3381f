(** M_TFun: how fit_function calls the transition function.  Model only. *)
From Verif Require Export M_Fitting.
Open Scope nat_scope.
Open Scope res_scope.

(** A Python function of named parameters: the names in the order of its definition, and its value given
    what each name is bound to.  None stands for an exception or a value that is not a finite number.  Indices
    are numbers like the others. *)
Inductive par := XIndex | XValue | YIndex | YValue | OtherPar (k : nat).
Record pyfun := mkpyfun { pf_pars : list par; pf_body : (par -> Qc) -> option Qc }.
Definition par_eqb (p q : par) : bool :=
  match p, q with
  | XIndex, XIndex | XValue, XValue | YIndex, YIndex | YValue, YValue => true
  | OtherPar a, OtherPar b => Nat.eqb a b
  | _, _ => false
  end.
(** A call with positional arguments: the k-th name is bound to the k-th argument *)
Fixpoint bind_pars (pars : list par) (args : list Qc) (p : par) : Qc :=
  match pars, args with
  | q :: qs, x :: xs => if par_eqb q p then x else bind_pars qs xs p
  | _, _ => 0q
  end.
Definition call (f : pyfun) (args : list Qc) : option Qc := pf_body f (bind_pars (pf_pars f) args).
(** validation.py 1031-1060 validate_transition_function for a function: the number of parameters, their
    names, and a trial call *)
Definition valid_par (p : par) : bool := match p with OtherPar _ => false | _ => true end.
Definition validate_transition_function (f : pyfun) : res pyfun :=
  guard Nat.eqb (length (pf_pars f)) 4 else ValueErr ;;
  guard forallb valid_par (pf_pars f) else ValueErr ;;
  guard match call f [1q; 1q; 1q; 1q] with Some _ => true | None => false end else ValueErr ;;
  Ok f.
(** markov_chain.py 2254-2302 with fitting.py 273: f(i, node_i, j, nodes[j]) *)
Definition fit_pyfun (t : quadrature) (states : list string) (f : pyfun) (interval : option (Qc * Qc)) : res chain :=
  f <- validate_transition_function f ;;
  fit_function t states (fun i x j y => call f [Qcn i; x; Qcn j; y]) interval.
