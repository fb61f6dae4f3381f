(** S_Graph2: parallel edges of a multigraph. *)
From Verif Require Export M_Graph.
(** The last value given for an attribute by the edges from a to b, in the order in
    which the edges were added. *)
Definition last_given {A} (get : option pyval * option pyval -> option A) (es : list gedge) (a b : nat) : option A :=
  fold_left (fun r e => if Nat.eqb (fst (fst e)) a && Nat.eqb (snd (fst e)) b then match get (snd e) with Some x => Some x | None => r end else r) es None.
(** es has one edge for every pair joined by some edge of the multigraph; its weight
    and its type are the last ones given. *)
Definition merged (edges es : list gedge) : Prop :=
  NoDup (map fst es) /\ (forall p, In p (map fst es) <-> In p (map fst edges)) /\
  forall a b at_, In ((a, b), at_) es -> at_ = (last_given fst edges a b, last_given snd edges a b).
(** Sum of the weights of all the edges from a to b (weights that are finite numbers). *)
Definition total_weight (es : list gedge) (a b : nat) : Qc :=
  lsum (map (fun e => match fst (snd e) with Some v => match as_float v with Fin q => q | _ => 0q end | None => 0q end)
            (filter (fun e => Nat.eqb (fst (fst e)) a && Nat.eqb (snd (fst e)) b) es)).
