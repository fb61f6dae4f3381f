(** M_ModelArg: validation of arguments that must be models. *)
From Coq Require Import List String Ascii Bool Arith Decimal DecimalString.
From Verif Require Import M_Message.
Import ListNotations.
Local Open Scope string_scope.

(** Python classes: module, name, whether it is made by a class statement (only such classes give their instances an
    attribute __module__), and bases.  Nested classes are left out (__qualname__ is __name__). *)
Inductive cls := Cls (cmodule cname : string) (made : bool) (bases : list cls).
Definition cmodule (c : cls) := let 'Cls m _ _ _ := c in m.
Definition cname (c : cls) := let 'Cls _ n _ _ := c in n.
Definition made (c : cls) := let 'Cls _ _ h _ := c in h.
Definition bases (c : cls) := let 'Cls _ _ _ b := c in b.

(** Python values as far as the validators look at them: an instance has a class and, for a chain, a size.  Attributes
    __module__ and __class__ set on single objects are left out. *)
Inductive value :=
  | VNone
  | VInst (c : cls) (size : nat)
  | VList (l : list value)
  | VClass (c : cls)
  | VFun (fmodule : string).

Definition object_class := Cls "builtins" "object" false [].
Definition type_class := Cls "builtins" "type" false [object_class].
(** value.__class__ *)
Definition class_of (v : value) : cls :=
  match v with
  | VNone => Cls "builtins" "NoneType" false [object_class]
  | VInst c _ => c
  | VList _ => Cls "builtins" "list" false [object_class]
  | VClass _ => Cls "abc" "ABCMeta" true [type_class]
  | VFun _ => Cls "builtins" "function" false [object_class]
  end.
(** value.__module__, None for AttributeError *)
Definition module_of (v : value) : option string :=
  match v with
  | VInst c _ => if made c then Some (cmodule c) else None
  | VClass c => Some (cmodule c)
  | VFun m => Some m
  | _ => None
  end.
(** the class with base_classes.py 21, markov_chain.py 197, hidden_markov_model.py 131 *)
Definition abc_class := Cls "abc" "ABC" true [object_class].
Definition model_class := Cls "pydtmc.base_classes" "Model" true [abc_class].
Definition mc_class := Cls "pydtmc.markov_chain" "MarkovChain" true [model_class].
Definition hmm_class := Cls "pydtmc.hidden_markov_model" "HiddenMarkovModel" true [model_class].

(** the value is returned, or an exception with this message is raised *)
Inductive verdict := Accepted | Rejected (message : string).

Definition show_nat (n : nat) : string := NilZero.string_of_uint (Nat.to_uint n).

(** validation.py 616-624 validate_markov_chain; 411-416 validate_hidden_markov_model has no size *)
Definition validate_class (full : string) (v : value) (size : option nat) : verdict :=
  match v with
  | VNone => Rejected "The ""@arg@"" parameter is null or wrongly typed."
  | _ =>
      match module_of v with
      | None => Rejected ("'" ++ cname (class_of v) ++ "' object has no attribute '__module__'")
      | Some m =>
          if String.eqb (m ++ "." ++ cname (class_of v)) full then
            match size, v with
            | Some n, VInst _ k =>
                if Nat.eqb k n then Accepted
                else Rejected ("The ""@arg@"" parameter must be a Markov chain with size equal to " ++ show_nat n ++ ".")
            | _, _ => Accepted
            end
          else Rejected "The ""@arg@"" parameter is null or wrongly typed."
      end
  end.
Definition validate_markov_chain := validate_class "pydtmc.markov_chain.MarkovChain".
Definition validate_hidden_markov_model (v : value) := validate_class "pydtmc.hidden_markov_model.HiddenMarkovModel" v None.

(** utilities.py 257-274 get_full_name, of a class *)
Definition full_name (c : cls) : string :=
  if String.eqb (cmodule c) "builtins" then cname c else cmodule c ++ "." ++ cname c.

(** validation.py 697-717 validate_model *)
Definition validate_model (v : value) : verdict :=
  match v with
  | VNone => Rejected "The ""@arg@"" parameter is null."
  | _ =>
      let m := match module_of v with Some m => m | None => cmodule (class_of v) end in
      if prefix "pydtmc." m then
        match bases (class_of v) with
        | b :: _ => if String.eqb (full_name b) "pydtmc.base_classes.Model" then Accepted
                    else Rejected "The ""@arg@"" parameter is wrongly typed."
        | [] => Rejected "The ""@arg@"" parameter is wrongly typed."
        end
      else Rejected "The ""@arg@"" parameter is wrongly typed."
  end.

(** validation.py 627-643 validate_markov_chains, 419-435 validate_hidden_markov_models, 720-735 validate_models *)
Definition accepted (r : verdict) : bool := match r with Accepted => true | Rejected _ => false end.
Definition validate_list (f : value -> verdict) (v : value) : verdict :=
  match v with
  | VList l =>
      if Nat.ltb (List.length l) 2 then Rejected "The ""@arg@"" parameter must contain at least 2 elements."
      else if forallb (fun x => accepted (f x)) l then Accepted
      else Rejected "The ""@arg@"" parameter contains invalid elements."
  | _ => Rejected "The ""@arg@"" parameter must be a list."
  end.
Definition validate_models := validate_list validate_model.
Definition validate_markov_chains := validate_list (fun v => validate_markov_chain v None).
Definition validate_hidden_markov_models := validate_list validate_hidden_markov_model.
