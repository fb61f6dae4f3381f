(** L_ModelArg: proofs about arguments that must be models. *)
From Coq Require Import List String Ascii Bool Arith Lia.
From Verif Require Import M_Message S_Message L_Message M_ModelArg S_ModelArg.
Import ListNotations.
Local Open Scope string_scope.

(** names have no dots, so the last dot separates the module *)
Lemma dot_split m n : forall m' n', free "." n -> free "." n' -> m ++ "." ++ n = m' ++ "." ++ n' -> m = m' /\ n = n'.
Proof.
  assert (NF : forall x y, ~ free "." (x ++ "." ++ y)) by (induction x; cbn; intros y [A B]; [congruence|now apply IHx in B]).
  induction m as [|c m IH]; intros m' n' F F' H; destruct m' as [|d m'].
  - cbn in H. injection H as ->. auto.
  - cbn in H. injection H as <- H. subst n. now apply NF in F.
  - cbn in H. injection H as -> H. subst n'. now apply NF in F'.
  - cbn in H. injection H as -> H. destruct (IH m' n' F F' H) as [-> ->]. auto.
Qed.

(** names of classes have no dots *)
Theorem chain_exact v size : free "." (cname (class_of v)) ->
  (validate_markov_chain v size = Accepted <->
   exists c k, v = VInst c k /\ made c = true /\ cmodule c = "pydtmc.markov_chain" /\ cname c = "MarkovChain" /\
     (forall n, size = Some n -> k = n)).
Proof.
  intros F. split.
  - intros H. destruct v as [|c k|l|c|m]; unfold validate_markov_chain, validate_class in H; cbn [module_of class_of cname] in *;
      try discriminate H.
    + destruct (made c) eqn:M; [|discriminate H].
      destruct (String.eqb _ _) eqn:E in H; [|discriminate H]. apply String.eqb_eq in E.
      change "pydtmc.markov_chain.MarkovChain" with ("pydtmc.markov_chain" ++ "." ++ "MarkovChain") in E.
      apply dot_split in E; [|exact F|cbn; repeat split; discriminate]. destruct E as [E1 E2].
      exists c, k. repeat split; auto. intros n ->. destruct (Nat.eqb k n) eqn:Q; [now apply Nat.eqb_eq|discriminate H].
    + destruct (String.eqb _ _) eqn:E in H; [|discriminate H]. apply String.eqb_eq in E.
      change "pydtmc.markov_chain.MarkovChain" with ("pydtmc.markov_chain" ++ "." ++ "MarkovChain") in E.
      apply dot_split in E; [|exact F|cbn; repeat split; discriminate]. destruct E as [_ E]. discriminate E.
    + destruct (String.eqb _ _) eqn:E in H; [|discriminate H]. apply String.eqb_eq in E.
      change "pydtmc.markov_chain.MarkovChain" with ("pydtmc.markov_chain" ++ "." ++ "MarkovChain") in E.
      apply dot_split in E; [|exact F|cbn; repeat split; discriminate]. destruct E as [_ E]. discriminate E.
  - intros (c & k & -> & M & E1 & E2 & N). unfold validate_markov_chain, validate_class. cbn [module_of class_of].
    rewrite M, E1, E2, (proj2 (String.eqb_eq _ _) eq_refl). destruct size as [n|]; [|reflexivity].
    rewrite (N n eq_refl), Nat.eqb_refl. reflexivity.
Qed.

Theorem model_exact v :
  validate_model v = Accepted <->
  exists c k b r, v = VInst c k /\ prefix "pydtmc." (cmodule c) = true /\ bases c = b :: r /\
    full_name b = "pydtmc.base_classes.Model".
Proof.
  split.
  - intros H. destruct v as [|c k|l|c|m]; unfold validate_model in H; cbn [module_of class_of bases cmodule] in H; try discriminate H.
    + assert (E : (match (if made c then Some (cmodule c) else None) with Some m => m | None => cmodule c end) = cmodule c)
        by (destruct (made c); reflexivity).
      rewrite E in H. destruct (prefix "pydtmc." (cmodule c)) eqn:P; [|discriminate H].
      destruct (bases c) as [|b r] eqn:B; [discriminate H|]. destruct (String.eqb _ _) eqn:Q in H; [|discriminate H].
      apply String.eqb_eq in Q. exists c, k, b, r. auto.
    + destruct (prefix "pydtmc." (cmodule c)); discriminate H.
    + destruct (prefix "pydtmc." m); discriminate H.
  - intros (c & k & b & r & -> & P & B & Q). unfold validate_model. cbn [module_of class_of].
    assert (E : (match (if made c then Some (cmodule c) else None) with Some m => m | None => cmodule c end) = cmodule c)
      by (destruct (made c); reflexivity).
    rewrite E, P, B, Q, (proj2 (String.eqb_eq _ _) eq_refl). reflexivity.
Qed.

Lemma accepted_ok r : accepted r = true <-> r = Accepted.
Proof. destruct r; cbn; split; congruence. Qed.
Theorem list_exact f v : validate_list f v = Accepted <->
  exists l, v = VList l /\ (2 <= List.length l)%nat /\ Forall (fun x => f x = Accepted) l.
Proof.
  split.
  - destruct v as [|c k|l|c|m]; cbn [validate_list]; try discriminate. destruct (Nat.ltb _ _) eqn:L; [discriminate|].
    apply Nat.ltb_ge in L. destruct (forallb _ l) eqn:A; [|discriminate]. intros _. exists l. split; [reflexivity|]. split; [exact L|].
    apply Forall_forall. intros x I. apply accepted_ok. exact (proj1 (forallb_forall _ _) A x I).
  - intros (l & -> & L & A). cbn [validate_list]. rewrite (proj2 (Nat.ltb_ge _ _) L).
    rewrite (proj2 (forallb_forall _ _)); [reflexivity|]. intros x I. apply accepted_ok. exact (proj1 (Forall_forall _ _) A x I).
Qed.

Theorem instances_accepted k :
  validate_markov_chain (VInst mc_class k) None = Accepted /\ validate_markov_chain (VInst mc_class k) (Some k) = Accepted /\
  validate_hidden_markov_model (VInst hmm_class k) = Accepted /\
  validate_model (VInst mc_class k) = Accepted /\ validate_model (VInst hmm_class k) = Accepted /\
  (forall n, n <> k -> validate_markov_chain (VInst mc_class k) (Some n) <> Accepted).
Proof.
  repeat split. 
  - apply chain_exact; [cbn; repeat split; discriminate|]. exists mc_class, k. repeat split. intros n H. congruence.
  - intros n N H. apply chain_exact in H; [|cbn; repeat split; discriminate]. destruct H as (c & j & E & _ & _ & _ & Q).
    injection E as <- <-. apply N. symmetry. now apply Q.
Qed.

Theorem others_rejected v size : free "." (cname (class_of v)) ->
  (forall c k, v = VInst c k -> cmodule c = "pydtmc.markov_chain" -> cname c = "MarkovChain" -> c = mc_class) ->
  ~ is_instance v mc_class -> validate_markov_chain v size <> Accepted.
Proof.
  intros F U N H. apply chain_exact in H; [|exact F]. destruct H as (c & k & E & _ & E1 & E2 & _). apply N.
  exists c, k. split; [exact E|]. rewrite (U c k E E1 E2). constructor.
Qed.

(** class LoggedChain(MarkovChain) in a module of the user *)
Definition own_class := Cls "app.chains" "LoggedChain" true [mc_class].
Theorem subclass_rejected k : is_instance (VInst own_class k) mc_class /\
  validate_markov_chain (VInst own_class k) (Some k) <> Accepted /\ validate_model (VInst own_class k) <> Accepted.
Proof.
  split; [exists own_class, k; split; [reflexivity|]; apply (der_base _ mc_class); [now left|constructor]|].
  split; intros H; vm_compute in H; discriminate H.
Qed.

(** mc.merge_with(3, 0.5) *)
Definition int_class := Cls "builtins" "int" false [object_class].
Theorem number_unnamed : exists message shown,
  validate_markov_chain (VInst int_class 0) (Some 2%nat) = Rejected message /\
  create_validation_error message (Some [spaces 12 ++ "other = _validate_markov_chain(other, self.__size)" ++ newline]) = RValidation shown /\
  shown = "'int' object has no attribute '__module__'" /\ contains "other" shown = false.
Proof. eexists _, _. split; [reflexivity|]. split; [vm_compute; reflexivity|]. split; vm_compute; reflexivity. Qed.
