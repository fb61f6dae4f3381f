(** M_Float: the parts of the library whose answers depend on the rounding of doubles:
    the constructor's check of the row sums, merge_with, to_lazy_chain, to_nth_order,
    is_regular, lump and lumping_partitions, evaluated in binary64 ([rnd], see Fl).
    A matrix is a function of the indices below the size.  Overflow is left out. *)
From Coq Require Import Reals List ZArith Permutation.
From Verif Require Import Fl.
Import ListNotations.
Local Open Scope R_scope.

Definition fmat := nat -> nat -> R.
Definition frow (n : nat) (f : nat -> R) : list R := map f (seq 0 n).

(** numpy.sum (used in validation.py 1080): the terms are added in an order and grouping that depend on the
    memory layout and on the processor.  [fsum l v]: [v] can be the result for the terms [l]. *)
Inductive fsum : list R -> R -> Prop :=
| fs_nil : fsum [] 0
| fs_one x : fsum [x] x
| fs_add l l1 l2 v1 v2 : Permutation l (l1 ++ l2) -> fsum l1 v1 -> fsum l2 v2 -> fsum l (rnd (v1 + v2)).

(** one entry of numpy.dot or matmul (markov_chain.py 714 and 2058, generators.py 870-880): products and sums in any
    order and grouping, each rounded, or a product added without rounding it first (fused multiply-add). *)
Inductive fdot : list (R * R) -> R -> Prop :=
| fd_nil : fdot [] 0
| fd_one a b : fdot [(a, b)] (rnd (a * b))
| fd_add l l1 l2 v1 v2 : Permutation l (l1 ++ l2) -> fdot l1 v1 -> fdot l2 v2 -> fdot l (rnd (v1 + v2))
| fd_fma l a b l' v : Permutation l ((a, b) :: l') -> fdot l' v -> fdot l (rnd (a * b + v)).

(** how a given processor sums and multiplies: one of the possible ways for each list *)
Definition summing (sm : list R -> R) : Prop := forall l, fsum l (sm l).
Definition dotting (dt : list (R * R) -> R) : Prop := forall l, fdot l (dt l).

(** the plain loops: from left to right, every operation rounded *)
Definition seq_sum (l : list R) : R := fold_left (fun acc x => rnd (acc + x)) l 0.
Definition seq_dot (l : list (R * R)) : R := fold_left (fun acc ab => rnd (acc + rnd (fst ab * snd ab))) l 0.

(** numpy.isclose(v, 1.0) with the default tolerances *)
Definition f_close1 (v : R) : Prop :=
  Rabs (rnd (v - 1)) <= rnd (rnd (1 / 100000000) + rnd (rnd (1 / 100000) * 1)).

(** validation.py 1063-1083 validate_transition_matrix, for an array of doubles *)
Definition f_accepts (sm : list R -> R) (n : nat) (p : fmat) : Prop :=
  (2 <= n)%nat /\
  (forall i j, (i < n)%nat -> (j < n)%nat -> is_double (p i j) /\ 0 <= p i j <= 1) /\
  (forall i, (i < n)%nat -> f_close1 (sm (frow n (p i)))).

(** markov_chain.py 1642 merge_with *)
Definition f_merge (gamma : R) (p q : fmat) : fmat :=
  fun i j => rnd (rnd (rnd (1 - gamma) * p i j) + rnd (gamma * q i j)).

(** generators.py 845-853 mc_lazy *)
Definition f_lazy (w : nat -> R) (p : fmat) : fmat :=
  fun i j => rnd (rnd (rnd (1 - w i) * p i j) + (if Nat.eqb i j then rnd (1 * w j) else rnd (0 * w j))).

(** matmul *)
Definition f_mul (dt : list (R * R) -> R) (n : nat) (a b : fmat) : fmat :=
  fun i j => dt (map (fun l => (a i l, b l j)) (seq 0 n)).

(** numpy.linalg.matrix_power for a positive exponent: 3 is a special case, the others by repeated squaring,
    [z] the current square and [r] the product so far *)
Fixpoint f_binpow (dt : list (R * R) -> R) (n : nat) (z : fmat) (r : option fmat) (k : positive) : fmat :=
  let take := match r with None => z | Some r => f_mul dt n r z end in
  match k with
  | xH => take
  | xO k' => f_binpow dt n (f_mul dt n z z) r k'
  | xI k' => f_binpow dt n (f_mul dt n z z) (Some take) k'
  end.
Definition f_power (dt : list (R * R) -> R) (n : nat) (p : fmat) (k : positive) : fmat :=
  match k with
  | 3%positive => f_mul dt n (f_mul dt n p p) p
  | _ => f_binpow dt n p None k
  end.

(** markov_chain.py 2058 to_nth_order *)
Definition f_nth_order (dt : list (R * R) -> R) (n : nat) (p : fmat) (k : positive) : fmat := f_power dt n p k.

(** markov_chain.py 706-712: the exponent, [nz] the number of non-zero diagonal entries *)
Definition regular_exponent (n nz : nat) : Z :=
  if Nat.ltb 0 nz then (2 * Z.of_nat n - Z.of_nat nz - 1)%Z
  else (Z.of_nat n ^ Z.of_nat n - 2 * Z.of_nat n + 2)%Z.
(** markov_chain.py 700-716 is_regular; the exponent is positive for two or more states *)
Definition f_is_regular (dt : list (R * R) -> R) (n nz : nat) (p : fmat) : Prop :=
  forall i j, (i < n)%nat -> (j < n)%nat -> 0 < f_power dt n p (Z.to_pos (regular_exponent n nz)) i j.

(** generators.py 857-880 mc_lump and computations.py 244-266: [blk] maps a state to its block.
    rt.r is the diagonal matrix of the block sizes, its inverse has the rounded reciprocals, and the products
    of these matrices of zeros and ones with it are exact, so [k] and [r.k] are written directly. *)
Definition f_ind (blk : nat -> nat) : fmat := fun j b => if Nat.eqb (blk j) b then 1 else 0.
Definition blk_size (n : nat) (blk : nat -> nat) (b : nat) : nat :=
  length (filter (fun j => Nat.eqb (blk j) b) (seq 0 n)).
Definition f_rk (n : nat) (blk : nat -> nat) : fmat :=
  fun i l => if Nat.eqb (blk l) (blk i) then rnd (/ INR (blk_size n blk (blk i))) else 0.
Definition f_lump_left (dt : list (R * R) -> R) (n : nat) (p : fmat) (blk : nat -> nat) : fmat :=
  f_mul dt n (f_mul dt n (f_rk n blk) p) (f_ind blk).
Definition f_lump_right (dt : list (R * R) -> R) (n : nat) (p : fmat) (blk : nat -> nat) : fmat :=
  f_mul dt n p (f_ind blk).
(** numpy.array_equal(left, right), the condition under which lump succeeds, for [m] blocks *)
Definition f_lumpable (dt : list (R * R) -> R) (n m : nat) (p : fmat) (blk : nat -> nat) : Prop :=
  forall i b, (i < n)%nat -> (b < m)%nat -> f_lump_left dt n p blk i b = f_lump_right dt n p blk i b.
