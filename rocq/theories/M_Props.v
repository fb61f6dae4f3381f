(** M_Props: model of further cached properties of MarkovChain.  Model only. *)
From Verif Require Export M_Measures.
Open Scope res_scope.

(** markov_chain.py 459-474 density.  [am] is the adjacency matrix with its diagonal set
    to zero; n (n - 1) = 0 cannot occur for a constructed chain, which has at least two
    states (in the model the quotient is then 0). *)
Definition density (p : mat) : Qc :=
  let n := nrows p in
  let am := zmk n (fun i j => if Nat.eqb i j then 0%Z else zget (adjacency_matrix p) i j) in
  let e := zsum n (fun i => zsum n (fun j => zget am i j)) in
  (Q2Qc (inject_Z e) / (Qcn n * (Qcn n - 1)))%Qc.

(** markov_chain.py 666-675 is_doubly_stochastic *)
Definition is_doubly_stochastic (p : mat) : bool :=
  forallb (fun j => isclose (sumn (nrows p) (fun i => mget p i j)) 1) (seq 0 (ncols p)).

(** numpy.allclose(x, numpy.transpose(x)) for a square matrix: every entry is close to
    the mirrored one. *)
Definition allclose_t (x : mat) : bool :=
  forallb (fun i => forallb (fun j => isclose (mget x i j) (mget x j i)) (seq 0 (nrows x))) (seq 0 (nrows x)).

(** markov_chain.py 761-770 is_symmetric *)
Definition is_symmetric (p : mat) : bool := allclose_t p.

(** markov_chain.py 718-735 is_reversible *)
Definition is_reversible (m : mcenv) : res bool :=
  pis <- stationary_distributions (en_p m) (en_comps m) ;;
  if Nat.ltb 1 (length pis) then Ok false
  else
    pi <- pi0 m ;;
    Ok (allclose_t (mk (en_size m) (en_size m) (fun i j => vget pi i * mget (en_p m) i j)%Qc)).

(** markov_chain.py 772-790 kemeny_constant (fm.size = number of entries) *)
Definition kemeny_constant (m : mcenv) : res (option Qc) :=
  fm <- fundamental_matrix m ;;
  match fm with
  | None => Ok None
  | Some fm =>
      if Nat.eqb (nrows fm * ncols fm) 1 then Ok (Some (mget fm 0 0))
      else Ok (Some (sumn (nrows fm) (fun i => mget fm i i)))
  end.

(** markov_chain.py 572-595 incidence_matrix: us = numpy.repeat(indices, n),
    vs = numpy.tile(indices, n), so column [index] belongs to the pair
    (index / n, index mod n).  The transition matrix is not used. *)
Definition incidence_matrix (p : mat) : list (list Z) :=
  let n := nrows p in
  tab n (fun r => tab (n * n) (fun index =>
    let u := index / n in
    let v := index mod n in
    if Nat.eqb u v then 0%Z else if Nat.eqb r u || Nat.eqb r v then 1%Z else 0%Z)).
