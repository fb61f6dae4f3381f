(** M_QuadR: the quadratures of fit_function with irrational nodes.  Model only.
    Numbers are the standard library's real numbers; numpy's cos, pi and powers are the mathematical
    functions.  An array is a function from indices. *)
From Coq Require Import Reals ZArith Bool.
From Verif Require Export Base.
Close Scope R_scope.
Open Scope nat_scope.
Open Scope res_scope.

Fixpoint tot (n : nat) (f : nat -> R) : R := match n with O => 0%R | S k => (tot k f + f k)%R end.

(** fitting.py 182-184: t3 has as many entries as t2 = 0, 2, ..., those below size *)
Definition fejer_count (size : nat) : nat := (size + 1) / 2.
Definition fejer_factor (m : nat) : R := match m with O => 1%R | _ => (- (2 / ((2 * INR m - 1) * (2 * INR m + 1))))%R end.
(** lines 186-187 *)
Definition cheb_node (a b : R) (size i : nat) : R := ((b + a) / 2 - (b - a) / 2 * cos (PI / INR size * (INR i + 1 / 2)))%R.
Definition cheb_weight (a b : R) (size i : nat) : R :=
  ((b - a) / INR size * tot (fejer_count size) (fun m => cos (PI / INR size * ((INR i + 1 / 2) * (2 * INR m))) * fejer_factor m))%R.

(** lines 231-239; numpy.fix of a positive number is its integer part *)
Definition nied_node (a b : R) (i : nat) : R := let x := ((INR i + 1) * sqrt 2)%R in (a + (x - IZR (Int_part x)) * (b - a))%R.
Definition nied_weight (a b : R) (size : nat) : R := ((b - a) / INR size * 1)%R.

(** lines 206-209: the loop over j, [todo] steps from [j] on; the pair is (p1, p2) *)
Fixpoint legendre (z : R) (todo j : nat) (p1 p2 : R) : R * R :=
  match todo with
  | O => (p1, p2)
  | S t => legendre z t (S j) (((2 * INR j - 1) * z * p1 - (INR j - 1) * p2) / INR j)%R p1
  end.
(** lines 203-214 for one node: the new z with pp.  A division by zero (not a number in numpy) is an error
    value. *)
Definition legendre_step (size : nat) (z : R) : res (R * R) :=
  let '(p1, p2) := legendre z size 1 1%R 0%R in
  if Req_EM_T (z * z - 1) 0 then Err ArithErr else
  let pp := (INR size * ((z * p1 - p2) / (z * z - 1)))%R in
  if Req_EM_T pp 0 then Err ArithErr else Ok ((z - p1 / pp)%R, pp).
Fixpoint all_ok {A} (l : list (res A)) : res (list A) :=
  match l with [] => Ok [] | x :: r => v <- x ;; vs <- all_ok r ;; Ok (v :: vs) end.
(** lines 199-220: all the nodes together; [left] is 100 - iterations *)
Fixpoint legendre_newton (size left : nat) (zs : list R) : res (list (R * R)) :=
  match left with
  | O => Err ValueErr
  | S l =>
      r <- all_ok (map (legendre_step size) zs) ;;
      if forallb (fun e => if Rle_dec (Rabs (Rabs (fst (fst e) - snd e) - 0)) (1 / 10 ^ 8) then true else false) (combine r zs)
      then (if Nat.eqb l 0 then Err ValueErr else Ok r) else legendre_newton size l (map fst r)
  end.
(** lines 191-229; the entries written last come first *)
Definition gauss_legendre (a b : R) (size : nat) : res ((nat -> R) * (nat -> R)) :=
  let half := (size + 1) / 2 in
  r <- legendre_newton size 100 (map (fun i => cos (PI * ((INR i + 1) - 1 / 4) / (INR size + 1 / 2)))%R (seq 0 half)) ;;
  let xl := (1 / 2 * (b - a))%R in let xm := (1 / 2 * (b + a))%R in
  let z i := fst (nth i r (0, 1)%R) in let pp i := snd (nth i r (0, 1)%R) in
  let w i := (2 * xl / ((1 - z i * z i) * (pp i * pp i)))%R in
  Ok (fun i => if Nat.ltb (size - 1 - i) half then (xm + xl * z (size - 1 - i)%nat)%R else (xm - xl * z i)%R,
      fun i => if Nat.ltb (size - 1 - i) half then w (size - 1 - i)%nat else w i).

(** lines 266-286 with a function that returns a finite number at all nodes *)
Definition fit_raw (x w : nat -> R) (f : nat -> R -> nat -> R -> R) (i j : nat) : R := (f i (x i) j (x j) * w j)%R.
Definition all_zero (size : nat) (g : nat -> R) : bool := forallb (fun j => if Req_EM_T (g j) 0 then true else false) (seq 0 size).
Definition fit_quad (size : nat) (x w : nat -> R) (f : nat -> R -> nat -> R -> R) (i j : nat) : R :=
  let g j := if all_zero size (fit_raw x w f i) then 1%R else fit_raw x w f i j in (g j / tot size g)%R.
