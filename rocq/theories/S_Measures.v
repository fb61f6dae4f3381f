(** S_Measures: independent specifications of the measures. *)
From Verif Require Export S_Period S_Stationary M_Measures.

(** A chain object: stochastic matrix, distinct names, and any behaviour of
    networkx' enumerations. *)
Definition env_ok (n : nat) (m : mcenv) : Prop :=
  2 <= n /\ stochastic n (en_p m) /\ length (en_names m) = n /\ NoDup (en_names m) /\ nx_ok n (en_p m) (en_nx m).

(** Irreducible and of period one. *)
Definition ergodic (n : nat) (P : mat) : Prop :=
  irreducible n (edge P) /\ forall x, x < n -> period_of n (edge P) x 1.

(** Probability of being in j after k steps when the start is drawn from x. *)
Definition step_dist (n : nat) (P : mat) (x : vec) (k j : nat) : Qc :=
  sumn n (fun i => vget x i * kstep n P k i j)%Qc.

(** Expectation of f over the paths of k transitions that start in i. *)
Definition exp_paths (n : nat) (P : mat) (k i : nat) (f : list nat -> Qc) : Qc :=
  lsum (map (fun w => path_prob P i w * f w)%Qc (words n k)).

(** Sum of the rewards of the listed states. *)
Definition path_reward (r : vec) (w : list nat) : Qc := lsum (map (vget r) w).

(** Number of moves from a to b along a path. *)
Fixpoint count_moves (a b : nat) (path : list nat) : nat :=
  match path with
  | x :: ((y :: _) as rest) => (if Nat.eqb x a && Nat.eqb y b then 1 else 0) + count_moves a b rest
  | _ => 0
  end.

(** Expected number of a -> b moves in k steps from the initial distribution x *)
Definition expected_moves (n : nat) (P : mat) (x : vec) (k a b : nat) : Qc :=
  sumn n (fun s => vget x s * exp_paths n P k s (fun w => Qcn (count_moves a b (s :: w))))%Qc.

(** The path w (start excluded) enters the set S for the first time at its end. *)
Fixpoint first_entry (S : list nat) (w : list nat) : bool :=
  match w with
  | [] => false
  | [x] => memn x S
  | x :: rest => negb (memn x S) && first_entry S rest
  end.
(** The path stays outside S. *)
Definition avoids (S : list nat) (w : list nat) : bool := forallb (fun x => negb (memn x S)) w.

(** L1 distance between the distribution after t steps and v *)
Definition l1_after (n : nat) (P : mat) (x v : vec) (t : nat) : Qc :=
  sumn n (fun j => Qcabs (step_dist n P x t j - vget v j)).

(** An exact real diagonalisation P = R D L with L R = I. *)
Definition diagonalises (n : nat) (P : mat) (d : rdl) : Prop :=
  wf n n (rdl_r d) /\ wf n n (rdl_l d) /\
  mmul (rdl_l d) (rdl_r d) = eye n /\ mmul (rdl_r d) (rdl_l d) = eye n /\
  (forall i j, i < n -> j < n -> i <> j -> mget (rdl_d d) i j = 0q) /\ wf n n (rdl_d d) /\
  mmul (mmul (rdl_r d) (rdl_d d)) (rdl_l d) = P.

(** numpy.linalg.lstsq: whenever a x = b is solvable it returns a solution. *)
Definition lstsq_ok (lstsq : lstsq_t) : Prop :=
  forall n m a b, 0 < n -> wf n m a -> length b = n ->
    (exists y, length y = m /\ mvmul a y = b) -> exists x, lstsq a b = Ok x /\ length x = m /\ mvmul a x = b.
(** scipy.optimize.nnls: the result is non-negative and minimises |a x - b| over the
    non-negative vectors; in particular it solves a x = b if some non-negative
    vector does. *)
Definition nnls_ok (nnls : nnls_t) : Prop :=
  forall n m a b, 0 < n -> wf n m a -> length b = n ->
    (exists y, length y = m /\ (forall i, i < m -> (0 <= vget y i)%Qc) /\ mvmul a y = b) ->
    exists x, nnls a b = Ok x /\ length x = m /\ (forall i, i < m -> (0 <= vget x i)%Qc) /\ mvmul a x = b.

(** Correlation of two observation counts at lag t under the distribution pi, and
    expected observation count after t steps. *)
Definition corr_at (n : nat) (P : mat) (pi : vec) (s1 s2 : list nat) (t : nat) : Qc :=
  sumn n (fun i => Qcn (count_occ Nat.eq_dec s1 i) * vget pi i * sumn n (fun j => kstep n P t i j * Qcn (count_occ Nat.eq_dec s2 j)))%Qc.
Definition relax_at (n : nat) (P : mat) (x : vec) (s : list nat) (t : nat) : Qc :=
  sumn n (fun j => step_dist n P x t j * Qcn (count_occ Nat.eq_dec s j))%Qc.

(** No diagonal entry lies strictly between 1 - 2e-5 and 1. *)
Definition gap (n : nat) (P : mat) : Prop := forall k, k < n -> mget P k k = 1q \/ (mget P k k <= 1 - Q2Qc (2 # 100000))%Qc.

(** t is the vector of mean first passage times to T (first-step equations). *)
Definition passage (n : nat) (P : mat) (T : list nat) (t : vec) : Prop :=
  length t = n /\ (forall i, In i T -> vget t i = 0q) /\
  (forall i, i < n -> ~ In i T -> vget t i = (1 + sumn n (fun j => if memn j T then 0 else mget P i j * vget t j))%Qc).

(** the exact committor: boundary values and mean value property for the kernel K *)
Definition committor (n : nat) (K : nat -> nat -> Qc) (zeros ones : list nat) (x : vec) : Prop :=
  length x = n /\ (forall i, In i zeros -> vget x i = 0q) /\ (forall i, In i ones -> vget x i = 1q) /\
  (forall i, i < n -> ~ In i zeros -> ~ In i ones -> vget x i = sumn n (fun j => K i j * vget x j)%Qc).
(** transition probabilities of the time-reversed chain *)
Definition reversed (P : mat) (pi : vec) (i j : nat) : Qc := (vget pi j * mget P j i / vget pi i)%Qc.


(** An exact complex diagonalisation P = R D L, L R = I, each matrix given by its
    real and imaginary parts. *)
Definition cmul_re (a b c d : mat) : mat := msub (mmul a c) (mmul b d).
Definition cmul_im (a b c d : mat) : mat := madd (mmul a d) (mmul b c).
Definition zero_mat (n : nat) : mat := mk n n (fun _ _ => 0q).
Definition cdiagonalises (n : nat) (P Rre Rim Dre Dim Lre Lim : mat) : Prop :=
  (forall i j, i < n -> j < n -> i <> j -> mget Dre i j = 0q /\ mget Dim i j = 0q) /\
  cmul_re Lre Lim Rre Rim = eye n /\ cmul_im Lre Lim Rre Rim = zero_mat n /\
  cmul_re (cmul_re Rre Rim Dre Dim) (cmul_im Rre Rim Dre Dim) Lre Lim = P /\
  cmul_im (cmul_re Rre Rim Dre Dim) (cmul_im Rre Rim Dre Dim) Lre Lim = zero_mat n.
