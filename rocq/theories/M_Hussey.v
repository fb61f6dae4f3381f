(** M_Hussey: model of the Tauchen-Hussey approximation.  Model only.
    Numbers are the standard library's real numbers; numpy's sqrt, exp, pi and powers are the
    mathematical functions.  An array is a function from indices, zero to begin with. *)
From Verif Require Export Base.
From Coq Require Import Reals ZArith Bool.
Close Scope R_scope.
Open Scope nat_scope.
Open Scope res_scope.

Definition upd (f : nat -> R) (i : nat) (x : R) : nat -> R := fun k => if Nat.eqb k i then x else f k.

(** generators.py 484-487: the loop over j, [todo] steps from [j] on; the pair is (p1, p2) *)
Fixpoint hermite (z : R) (todo j : nat) (p1 p2 : R) : R * R :=
  match todo with
  | O => (p1, p2)
  | S t => hermite z t (S j) (z * sqrt (2 / INR j) * p1 - sqrt ((INR j - 1) / INR j) * p2)%R p1
  end.
(** generators.py 475-498: Newton's iteration.  [left] is 100 - iterations.  The answer is the
    last z with the last pp.  Leaving the loop when iterations = 100, converged or not, is the
    error of line 497.  A division by pp = 0 (not a number in numpy) is an error value. *)
Fixpoint newton (size : nat) (left : nat) (z : R) : res (R * R) :=
  match left with
  | O => Err ValueErr
  | S l =>
      let '(p1, p2) := hermite z size 1 (1 / Rpower PI (1 / 4))%R 0%R in
      let pp := (sqrt (2 * INR size) * p2)%R in
      if Req_EM_T pp 0 then Err ArithErr else
      let z' := (z - p1 / pp)%R in
      if Rlt_dec (Rabs (z' - z)) (/ 10 ^ 14) then (if Nat.eqb l 0 then Err ValueErr else Ok (z', pp))
      else newton size l z'
  end.
(** generators.py 462-473: the starting point for the node i.  z is the node found before; a
    division by z = 0 is an error value. *)
Definition guess (size i : nat) (z : R) (nodes : nat -> R) : res R :=
  match i with
  | 0 => let sf := (2 * INR size + 1)%R in Ok (sqrt sf - (185575 / 100000) * Rpower sf (- (16393 / 100000)))%R
  | 1 => if Req_EM_T z 0 then Err ArithErr else Ok (z - (114 / 100 * Rpower (INR size) (426 / 1000)) / z)%R
  | 2 => Ok (186 / 100 * z + 86 / 100 * nodes 0%nat)%R
  | 3 => Ok (191 / 100 * z + 91 / 100 * nodes 1%nat)%R
  | _ => Ok (2 * z + nodes (i - 2)%nat)%R
  end.
(** generators.py 460-506: the loop over the nodes, [todo] of them from i on *)
Fixpoint quadrature (size todo i : nat) (z : R) (nodes weights : nat -> R) : res ((nat -> R) * (nat -> R)) :=
  match todo with
  | O => Ok (nodes, weights)
  | S t =>
      z0 <- guess size i z nodes ;;
      zp <- newton size 100 z0 ;;
      let '(z, pp) := zp in
      let o := size - 1 - i in
      let w := (2 / (pp * pp))%R in
      quadrature size t (S i) z (upd (upd nodes i (- z)%R) o z) (upd (upd weights i w) o w)
  end.
(** scipy.stats.norm.pdf(x, loc, scale) *)
Definition npdf (x loc scale : R) : R := (exp (- (((x - loc) / scale) * ((x - loc) / scale)) / 2) / (sqrt (2 * PI) * scale))%R.
Definition rsum (n : nat) (f : nat -> R) : R := fold_right Rplus 0%R (map f (seq 0 n)).
(** generators.py 438-521: nodes, weights and the matrix, a function of two indices *)
Definition mc_hussey (size : nat) (alpha sigma rho k : R) : res (nat -> nat -> R) :=
  nw <- quadrature size ((size + 1) / 2) 0 0%R (fun _ => 0%R) (fun _ => 0%R) ;;
  let '(nodes, weights) := nw in
  let k_factor := (sqrt 2 * sqrt (2 * (k * k)))%R in
  let w_factor := (sqrt PI * sqrt PI)%R in
  let x i := (nodes i * k_factor + alpha)%R in
  let w i := (weights i / w_factor)%R in
  let raw i j := (w j * npdf (x j) ((1 - rho) * alpha + rho * x i) sigma / npdf (x j) alpha k)%R in
  Ok (fun i j => (raw i j / rsum size (raw i))%R).
(** markov_chain.py 2118-2172 approximation, approximation_type 'tauchen-hussey'.  Without k and
    with rho = 1 or -1 the default is infinite and the matrix is made of nan, which the
    constructor rejects.  The state names and the constructor's checks are left out. *)
Definition approximation_hussey (size : Z) (alpha sigma rho : R) (k : option R) : res (nat -> nat -> R) :=
  guard Z.leb 2 size else ValueErr ;;
  guard (if Rlt_dec 0 sigma then true else false) else ValueErr ;;
  guard (if Rle_dec (-1) rho then if Rle_dec rho 1 then true else false else false) else ValueErr ;;
  k <- match k with
       | Some k => guard (if Rlt_dec 0 k then true else false) else ValueErr ;; Ok k
       | None => if Req_EM_T (1 - rho * rho) 0 then Err ValueErr
                 else let h := (1 / 2 + rho / 4)%R in Ok (h * sigma + (1 - h) * (sigma / sqrt (1 - rho * rho)))%R
       end ;;
  mc_hussey (Z.to_nat size) alpha sigma rho k.
