(** S_Nnls: what is assumed of scipy.optimize.nnls. *)
From Verif Require Export S_Limit.

(** x solves a x = b, is non-negative, and the columns of a on which x is not zero
    are linearly independent.  scipy's nnls is the active set method of Lawson and
    Hanson, which only ever selects linearly independent columns. *)
Definition basic_solution (n m : nat) (a : mat) (b x : vec) : Prop :=
  length x = m /\ (forall i, i < m -> (0 <= vget x i)%Qc) /\ mvmul a x = b /\
  forall z : nat -> Qc, (forall i, i < m -> vget x i = 0q -> z i = 0q) ->
    (forall r, r < n -> sumn m (fun i => mget a r i * z i)%Qc = 0q) -> forall i, i < m -> z i = 0q.
Definition nnls_basic (nnls : nnls_t) : Prop :=
  forall n m a b, 0 < n -> wf n m a -> length b = n ->
    (exists y, length y = m /\ (forall i, i < m -> (0 <= vget y i)%Qc) /\ mvmul a y = b) ->
    exists x, nnls a b = Ok x /\ basic_solution n m a b x.
