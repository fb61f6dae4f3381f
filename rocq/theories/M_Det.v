(** M_Det: determinant and rank of the transition matrix, regularity of hidden Markov
    models.  Model only. *)
From Verif Require Export M_Hmm Gauss.
Open Scope nat_scope.

(** The row of the largest absolute value in column 0 (LAPACK idamax: the first one). *)
Definition pivot_row (n : nat) (M : mat) : nat := argmax (tab n (fun i => Qcabs (mget M i 0))).
(** One step of LU factorisation with partial pivoting: rows 0 and r are exchanged, then
    multiples of the pivot row are subtracted from the rows below; the remaining block. *)
Definition eliminate (n w : nat) (M : mat) (r : nat) : mat :=
  mk (n - 1) (w - 1) (fun i j =>
    let s := swp 0 r (S i) in (mget M s (S j) - mget M s 0 / mget M r 0 * mget M r (S j))%Qc).
(** numpy.linalg.det: the product of the pivots, with a change of sign for each exchange
    (LAPACK getrf; 0 when a pivot is 0), in exact arithmetic. *)
Fixpoint lu_det (n : nat) (M : mat) : Qc :=
  match n with
  | 0 => 1q
  | S m =>
      let r := pivot_row n M in
      if Qceqb (mget M r 0) 0 then 0q
      else ((if Nat.eqb r 0 then 1q else (- 1q)%Qc) * mget M r 0 * lu_det m (eliminate n n M r))%Qc
  end.
(** numpy.linalg.matrix_rank counts the singular values above a tolerance; in exact
    arithmetic that is the rank, computed here by elimination. *)
Fixpoint matrix_rank (n w : nat) (M : mat) : nat :=
  match w with
  | 0 => 0
  | S w' =>
      let r := pivot_row n M in
      if Qceqb (mget M r 0) 0 then matrix_rank n w' (mk n w' (fun i j => mget M i (S j)))
      else S (matrix_rank (n - 1) w' (eliminate n w M r))
  end.
(** /repo/pydtmc/markov_chain.py 476-485 determinant *)
Definition determinant (p : mat) : Qc := lu_det (nrows p) p.
(** /repo/pydtmc/markov_chain.py 889-898 rank *)
Definition rank (p : mat) : nat := matrix_rank (nrows p) (nrows p) p.
(** /repo/pydtmc/hidden_markov_model.py 225-234 is_regular (size is (states, symbols)) *)
Definition hmm_is_regular (n k : nat) (e : mat) : bool := Nat.eqb (matrix_rank n k e) k.
