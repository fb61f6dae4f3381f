(** P_Alias: aliases of properties and methods (theorems only).  [c'] is the class after the decorator, [eval] what
    the functions behind its members compute from the data of a chain. *)
From Coq Require Import List String Ascii.
From Verif Require Import Base M_Alias S_Alias L_Alias.
Import ListNotations.
Open Scope string_scope.

(** ** C179 an alias answers like the member *)
Theorem C179_same_partial : forall (D V : Type) (eval : nat -> D -> V) c c',
  aliased c = Ok c' -> NoDup (map fst c) -> forall d xs name a, has_alias c name a ->
  let i := fold_left (act eval c') (map Look xs) (mkinst d []) in
  exists v i', getattr eval c' i name = Ok (v, i') /\ getattr eval c' i a = Ok (v, i).
Proof. exact @alias_same. Qed.
Print Assumptions C179_same_partial.
(** whatever callers have done to returned values, an alias shows the value computed from the chain *)
Theorem C179_fresh_partial : forall (D V : Type) (eval : nat -> D -> V) c c',
  aliased c = Ok c' -> NoDup (map fst c) -> forall d acts name m a, In (name, m) c -> has_alias [(name, m)] name a ->
  let i := fold_left (act eval c') acts (mkinst d []) in getattr eval c' i a = Ok (eval (m_fun m) d, i).
Proof. exact @alias_fresh. Qed.
Print Assumptions C179_fresh_partial.
(** after a modification of the value of pi in place, pi and steady_states differ *)
Theorem C179_modified_refuted : exists c' g, aliased markov_chain_class = Ok c' /\ has_alias markov_chain_class "pi" "steady_states" /\
  let eval := fun (k : nat) (_ : unit) => k in
  let i := act eval c' (mkinst tt []) (Modify "pi" g) in
  exists v w i', getattr eval c' i "pi" = Ok (v, i') /\ getattr eval c' i "steady_states" = Ok (w, i) /\ v <> w.
Proof. exact modified_differs. Qed.
Print Assumptions C179_modified_refuted.
Example C179_example : (exists c', aliased markov_chain_class = Ok c' /\ length c' = length markov_chain_class + 28)%nat /\
  NoDup (map fst markov_chain_class).
Proof. exact (conj markov_chain_aliased markov_chain_names). Qed.

(** which aliases a class may have *)
Theorem C179_accepted_partial : forall c, (exists c', aliased c = Ok c') <->
  unique_aliases c /\ forall name a, has_alias c name a ->
    (proper_name a \/ exists t, a = t ++ String lf "" /\ proper_name t) /\ ~ In a (map fst c).
Proof. exact aliased_iff. Qed.
Print Assumptions C179_accepted_partial.
(** the other members are untouched, and no other names appear *)
Theorem C179_rest_partial : forall c c', aliased c = Ok c' -> NoDup (map fst c) ->
  (forall name m, In (name, m) c -> assoc name c' = Some m) /\
  (forall name m al a, In (name, m) c -> m_aliases m = Some al -> In a al -> assoc a c' = Some (wrapped m)) /\
  (forall x, ~ In x (map fst c) -> ~ In x (all_aliases c) -> assoc x c' = None).
Proof. exact aliased_lookup. Qed.
Print Assumptions C179_rest_partial.
Example C179_example_names : matches_alias "mfpt_to" = true /\ matches_alias "mfpt__to" = false /\ matches_alias "_mfpt" = false /\
  matches_alias "2d" = false /\ matches_alias "to_" = false /\ proper_name "d2_3".
Proof.
  repeat split; try reflexivity.
  - apply (chunks_more "d2" "3").
    + apply word_more; [left; cbn; repeat constructor|]. apply word_one. right. cbn. repeat constructor.
    + apply chunks_one, word_one. right. cbn. repeat constructor.
  - exists "d"%char, "2_3". split; [reflexivity|]. cbn. split; repeat constructor.
Qed.
