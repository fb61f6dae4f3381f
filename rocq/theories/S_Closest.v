(** S_Closest: reversible chains, distances between transition matrices, quadratic programs. *)
From Verif Require Export M_Closest S_Props.

(** A chain that satisfies detailed balance with the weights d. *)
Definition balanced (n : nat) (d : vec) (Q : mat) : Prop :=
  forall i j, i < n -> j < n -> (vget d i * mget Q i j)%Qc = (vget d j * mget Q j i)%Qc.
Definition reversible_for (n : nat) (d : vec) (Q : mat) : Prop := stochastic n Q /\ balanced n d Q.
(** Squared distance of two matrices: Frobenius norm, or its weighted form, in which the cell (i, j) counts d_i / d_j times. *)
Definition cell_weight (weighted : bool) (d : vec) (i j : nat) : Qc := if weighted then (vget d i / vget d j)%Qc else 1q.
Definition dist2 (weighted : bool) (n : nat) (d : vec) (A B : mat) : Qc :=
  sumn n (fun i => sumn n (fun j => (cell_weight weighted d i j * ((mget A i j - mget B i j) * (mget A i j - mget B i j)))%Qc)).
(** Q is the reversible chain (for d) closest to P. *)
Definition closest_for (weighted : bool) (n : nat) (d : vec) (P Q : mat) : Prop :=
  reversible_for n d Q /\ forall Q', reversible_for n d Q' -> (dist2 weighted n d Q P <= dist2 weighted n d Q' P)%Qc.

(** Points that satisfy the constraints handed to the optimiser; exact solutions of the problem handed to it. *)
Definition qp_point (m : nat) (a : mat) (x : vec) : Prop :=
  length x = m /\ cr_eq x = 0q /\ forall v, In v (cr_ineq a x) -> (0 <= v)%Qc.
Definition qp_best (h : mat) (f : vec) (a : mat) (x : vec) : Prop :=
  qp_point (length f) a x /\ forall y, qp_point (length f) a y -> (cr_objective h f x <= cr_objective h f y)%Qc.
(** An optimiser without numerical error: what it returns is a solution. *)
Definition exact_optimiser (slsqp : optimiser) : Prop := forall h f a x, slsqp h f a = Some x -> qp_best h f a x.
(** Weights of the states: not negative, and positive when the weighted norm is used. *)
Definition weights_for (weighted : bool) (n : nat) (d : vec) : Prop :=
  length d = n /\ (forall i, i < n -> (0 <= vget d i)%Qc) /\ (weighted = true -> forall i, i < n -> vget d i <> 0q).
(** The weights used by closest_reversible: the distribution passed to it, accepted when its entries are in [0, 1] and their sum
    is within the tolerance of one, or the uniform distribution. *)
Definition used_distribution (n : nat) (dist : option vec) (d : vec) : Prop :=
  match dist with
  | None => d = uniform n
  | Some v => d = v /\ length v = n /\ (forall i, i < n -> (0 <= vget v i <= 1)%Qc) /\ (Qcabs (sumn n (vget v) - 1) <= atol + rtol)%Qc
  end.
(** A chain that looks the same in both directions of time when it is started from some stationary distribution. *)
Definition some_reversible (n : nat) (Q : mat) : Prop :=
  stochastic n Q /\ exists pi, distribution n pi /\ stationary n Q pi /\ time_reversible n Q pi.
(** The average of a matrix and its transpose. *)
Definition symmetrised (n : nat) (P : mat) : mat := mk n n (fun i j => ((mget P i j + mget P j i) / (1 + 1))%Qc).
