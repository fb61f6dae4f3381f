(** P_ModelArg: arguments that must be models (theorems only). *)
From Coq Require Import List String Ascii.
From Verif Require Import M_Message S_Message M_ModelArg S_ModelArg L_ModelArg.
Import ListNotations.
Local Open Scope string_scope.

(** ** C182 a chain is accepted where a chain is expected, and nothing else *)
Theorem C182_instances_partial : forall k,
  validate_markov_chain (VInst mc_class k) None = Accepted /\ validate_markov_chain (VInst mc_class k) (Some k) = Accepted /\
  validate_hidden_markov_model (VInst hmm_class k) = Accepted /\
  validate_model (VInst mc_class k) = Accepted /\ validate_model (VInst hmm_class k) = Accepted /\
  (forall n, n <> k -> validate_markov_chain (VInst mc_class k) (Some n) <> Accepted).
Proof. exact instances_accepted. Qed.
Print Assumptions C182_instances_partial.
Theorem C182_chain_exact_partial : forall v size, free "." (cname (class_of v)) ->
  (validate_markov_chain v size = Accepted <->
   exists c k, v = VInst c k /\ made c = true /\ cmodule c = "pydtmc.markov_chain" /\ cname c = "MarkovChain" /\
     (forall n, size = Some n -> k = n)).
Proof. exact chain_exact. Qed.
Print Assumptions C182_chain_exact_partial.
Theorem C182_others_rejected_partial : forall v size, free "." (cname (class_of v)) ->
  (forall c k, v = VInst c k -> cmodule c = "pydtmc.markov_chain" -> cname c = "MarkovChain" -> c = mc_class) ->
  ~ is_instance v mc_class -> validate_markov_chain v size <> Accepted.
Proof. exact others_rejected. Qed.
Print Assumptions C182_others_rejected_partial.
Theorem C182_model_exact_partial : forall v, validate_model v = Accepted <->
  exists c k b r, v = VInst c k /\ prefix "pydtmc." (cmodule c) = true /\ bases c = b :: r /\
    full_name b = "pydtmc.base_classes.Model".
Proof. exact model_exact. Qed.
Print Assumptions C182_model_exact_partial.
Theorem C182_lists_partial : forall v, 
  (validate_models v = Accepted <-> exists l, v = VList l /\ 2 <= List.length l /\ Forall (fun x => validate_model x = Accepted) l) /\
  (validate_markov_chains v = Accepted <->
   exists l, v = VList l /\ 2 <= List.length l /\ Forall (fun x => validate_markov_chain x None = Accepted) l) /\
  (validate_hidden_markov_models v = Accepted <->
   exists l, v = VList l /\ 2 <= List.length l /\ Forall (fun x => validate_hidden_markov_model x = Accepted) l).
Proof. exact (fun v => conj (list_exact _ v) (conj (list_exact _ v) (list_exact _ v))). Qed.
Print Assumptions C182_lists_partial.
Theorem C182_subclass_refuted : forall k, is_instance (VInst own_class k) mc_class /\
  validate_markov_chain (VInst own_class k) (Some k) <> Accepted /\ validate_model (VInst own_class k) <> Accepted.
Proof. exact subclass_rejected. Qed.
Print Assumptions C182_subclass_refuted.
Theorem C182_message_refuted : exists message shown,
  validate_markov_chain (VInst int_class 0) (Some 2) = Rejected message /\
  create_validation_error message (Some [spaces 12 ++ "other = _validate_markov_chain(other, self.__size)" ++ newline]) = RValidation shown /\
  shown = "'int' object has no attribute '__module__'" /\ contains "other" shown = false.
Proof. exact number_unnamed. Qed.
Print Assumptions C182_message_refuted.
Example C182_example : validate_models (VList [VInst mc_class 3; VInst hmm_class 2]) = Accepted /\
  validate_models (VList [VInst mc_class 3; VFun "pydtmc.markov_chain"]) = Rejected "The ""@arg@"" parameter contains invalid elements." /\
  free "." (cname (class_of (VInst mc_class 3))) /\ validate_markov_chain (VClass mc_class) None <> Accepted /\
  validate_markov_chain (VInst mc_class 3) (Some 12) = Rejected "The ""@arg@"" parameter must be a Markov chain with size equal to 12.".
Proof. repeat split; try (vm_compute; discriminate); vm_compute; reflexivity. Qed.
