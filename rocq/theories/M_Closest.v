(** M_Closest: model of MarkovChain.closest_reversible (generators.py 624-792, markov_chain.py
    1093-1135).  Model only.  The numerical optimiser (scipy.optimize.minimize with method
    SLSQP) is an argument: it receives the quadratic form, the linear form and the matrix of
    the inequality constraints and returns a point, or nothing when it reports no success. *)
From Verif Require Export M_Props M_Generators.
Open Scope res_scope.

(** generators.py 648, 654: the double loop "for r in range(size - 1): for s in range(r + 1, size)" *)
Definition cr_pairs (n : nat) : list (nat * nat) :=
  flat_map (fun r => map (fun s => (r, s)) (seq (S r) (n - S r))) (seq 0 (n - 1)).
(** lines 650-658: dr_zero and ds_zero (comparison of floats with 0.0) *)
Definition cr_both_zero (d : vec) (r s : nat) : bool := Qceqb (vget d r) 0 && Qceqb (vget d s) 0.
(** An assignment bv[r, s] = v to one cell of a square array. *)
Definition put (n : nat) (M : mat) (r s : nat) (v : Qc) : mat :=
  mk n n (fun i j => if Nat.eqb i r && Nat.eqb j s then v else mget M i j).
(** lines 660-681: the basis matrices of one pair of states *)
Definition cr_pair_basis (n : nat) (d : vec) (rs : nat * nat) : list mat :=
  let (r, s) := rs in
  let dr := vget d r in let ds := vget d s in
  if cr_both_zero d r s then
    [ put n (put n (eye n) r r 0q) r s 1q;
      put n (put n (put n (put n (eye n) r r 1q) r s 0q) s s 0q) s r 1q ]
  else
    [ put n (put n (put n (put n (eye n) r r (1 - ds)%Qc) r s ds) s s (1 - dr)%Qc) s r dr ].
(** lines 646-683 *)
Definition cr_basis (n : nat) (d : vec) : list mat := flat_map (cr_pair_basis n d) (cr_pairs n) ++ [eye n].

(** line 641 zeros (and markov_chain.py 1116) *)
Definition cr_zeros (d : vec) : nat := length (filter (fun x => Qceqb x 0) d).
(** line 643 m; both quotients are of even numbers *)
Definition cr_m (n z : nat) : nat := Nat.div ((n - 1) * n) 2 + Nat.div ((z - 1) * z) 2 + 1.

(** numpy.trace *)
Definition trace (M : mat) : Qc := sumn (nrows M) (fun i => mget M i i).
Definition diag (d : vec) : mat := mk (length d) (length d) (fun i j => if Nat.eqb i j then vget d i else 0q).

(** lines 685-719: the matrix z of the i-th basis matrix (D B D^-1 if weighted, else B), the linear form f and the quadratic
    form h.  Cells (i, j) and (j, i) of h are both assigned at step (i, j) of the double loop, so the value that stays is the one
    of the row with the larger index.  [Err] is the LinAlgError of a singular diagonal matrix. *)
Definition cr_z (d : vec) (weighted : bool) : res (mat -> mat) :=
  if weighted then
    match minv (diag d) with
    | None => Err ArithErr
    | Some di => Ok (fun b => mmul (mmul (diag d) b) di)
    end
  else Ok (fun b => b).
Definition cr_f (m : nat) (basis : list mat) (z : mat -> mat) (weighted : bool) (p : mat) : vec :=
  tab m (fun i => let b := nth i basis [] in
    ((- (1 + 1)) * (if weighted then trace (mmul (z b) (transpose p)) else trace (mmul (transpose b) p)))%Qc).
Definition cr_tau (basis : list mat) (z : mat -> mat) (i j : nat) : Qc :=
  ((1 + 1) * trace (mmul (transpose (z (nth i basis []))) (nth j basis [])))%Qc.
Definition cr_h (m : nat) (basis : list mat) (z : mat -> mat) : mat :=
  mk m m (fun i j => cr_tau basis z (Nat.max i j) (Nat.min i j)).

(** lines 721-765: rows 0 .. m-2 of the matrix a are the negated unit vectors; the row m-1 of the filled diagonal is overwritten
    by the first of the rows m-1 .. m+size-2, one for each state i.  In those rows the index k runs over the basis. *)
Definition cr_cells (d : vec) (i : nat) (rs : nat * nat) : list Qc :=
  let (r, s) := rs in
  if cr_both_zero d r s then
    [ (if negb (Nat.eqb r i) then - (1) else 0)%Qc; (if negb (Nat.eqb s i) then - (1) else 0)%Qc ]
  else if Nat.eqb s i then [ (- (1) + vget d r)%Qc ]
  else if Nat.eqb r i then [ (- (1) + vget d s)%Qc ]
  else [ (- (1))%Qc ].
Definition cr_a (n m : nat) (d : vec) : mat :=
  tab (m - 1) (fun k => tab m (fun j => if Nat.eqb k j then - (1) else 0)%Qc)
  ++ tab n (fun i => flat_map (cr_cells d i) (cr_pairs n) ++ [(- (1))%Qc]).

(** lines 626-636: the objective and its gradient, as handed to the optimiser *)
Definition cr_objective (h : mat) (f x : vec) : Qc := (1 / (1 + 1) * vdot x (mvmul h x) + vdot f x)%Qc.
Definition cr_jacobian (h : mat) (f x : vec) : vec := tab (length f) (fun j => (vget (vmul x h) j + vget f j)%Qc).
(** lines 767-773: the constraints handed to the optimiser, sum(x) - 1 = 0 and b - a x >= 0 with b = 0 *)
Definition cr_eq (x : vec) : Qc := (lsum x - 1)%Qc.
Definition cr_ineq (a : mat) (x : vec) : vec := map (fun row => (0 - vdot row x)%Qc) a.

(** lines 781-788: the combination of the basis matrices.  A row whose sum is zero after the assignment of ones would be divided
    by zero; numpy goes on with nan or inf, the model stops with an error value. *)
Definition cr_combine (n m : nat) (basis : list mat) (x : vec) : res mat :=
  let p := mk n n (fun r s => sumn m (fun i => vget x i * mget (nth i basis []) r s)%Qc) in
  guard forallb (fun i => negb (Qceqb (rowsum (fill_any p) i) 0)) (seq 0 n) else ArithErr ;;
  Ok (norm_any p).

(** lines 624-792 mc_closest_reversible; [None] from the optimiser is solution['success'] = False *)
Definition optimiser := mat -> vec -> mat -> option vec.
Definition mc_closest_reversible (slsqp : optimiser) (p : mat) (d : vec) (weighted : bool) : res mat :=
  let n := nrows p in
  let m := cr_m n (cr_zeros d) in
  let basis := cr_basis n d in
  z <- cr_z d weighted ;;
  match slsqp (cr_h m basis z) (cr_f m basis z weighted p) (cr_a n m d) with
  | None => Err ValueErr
  | Some x => cr_combine n m basis x
  end.

(** markov_chain.py 1093-1135 closest_reversible.  The distribution is a vector of finite numbers or is omitted.  MarkovChain is
    called by an instance generator and does not validate (M_Validation); [nx] lists the components of the graph of the new
    chain in the order of networkx (M_Measures). *)
Definition closest_reversible (slsqp : optimiser) (nx : mat -> nxorder) (m : mcenv) (dist : option vec) (weighted : bool) : res chain :=
  let n := en_size m in
  d <- match dist with
       | None => Ok (repeat (1 / Qcn n)%Qc n)
       | Some v => validate_vector v StochasticV (Some n)
       end ;;
  guard negb (weighted && Nat.ltb 0 (cr_zeros d)) else ValueErr ;;
  b <- is_reversible m ;;
  p <- (if b then Ok (en_p m) else mc_closest_reversible slsqp (en_p m) d weighted) ;;
  r <- is_reversible (mkenv p (en_names m) (nx p) true) ;;
  guard r else ValueErr ;;
  Ok (mkchain p (en_names m)).
