(** M_TauchenR: Tauchen's approximation in real numbers (over rationals with an arbitrary distribution function it is
    in M_Generators).  scipy's norm.cdf is an argument. *)
From Coq Require Import Reals List ZArith.
From Verif Require Import Base.
Local Open Scope res_scope.
Local Open Scope R_scope.

Section Tauchen.
  Variable cdf : R -> R.
  (** generators.py 527-528: numpy.isclose(rho, 1.0) *)
  Definition tr_rho (rho : R) : R :=
    if Rle_dec (Rabs (rho - 1)) (1 / 100000000 + 1 / 100000) then 1 - 1 / 100000000 else rho.
  Section Body.
    Variables (size : nat) (sigma rho k : R).
    (** generators.py 530-541, with rho after line 528 *)
    Definition tr_std : R := sqrt (sigma * sigma / (1 - rho * rho)).
    Definition tr_max : R := tr_std * k.
    Definition tr_x (i : nat) : R := - tr_max + INR i * ((tr_max - - tr_max) / INR (size - 1)).
    Definition tr_step : R := / 2 * ((tr_max - - tr_max) / INR (size - 1)).
    (** generators.py 543-551; the assignments to columns 0 and size-1 come before those of the loop, which skips them *)
    Definition tr_entry (i j : nat) : R :=
      let rx := rho * tr_x i in
      if Nat.eqb j (size - 1) then 1 - cdf ((tr_x (size - 1) - rx - tr_step) / sigma)
      else if Nat.eqb j 0 then cdf ((tr_x 0 - rx + tr_step) / sigma)
      else cdf ((tr_x j - rx + tr_step) / sigma) - cdf ((tr_x j - rx - tr_step) / sigma).
  End Body.
  (** markov_chain.py 2118-2172 approximation, approximation_type 'tauchen'; with rho = -1, line 530 of generators.py
      divides by zero.  alpha is validated and not used.  State names and the constructor's checks are left out. *)
  Definition approximation_tauchen (size : Z) (alpha sigma rho : R) (k : option R) : res (nat -> nat -> R) :=
    guard Z.leb 2 size else ValueErr ;;
    guard (if Rlt_dec 0 sigma then true else false) else ValueErr ;;
    guard (if Rle_dec (-1) rho then if Rle_dec rho 1 then true else false else false) else ValueErr ;;
    k <- match k with
         | None => Ok 3
         | Some k => guard (if Rle_dec 1 k then true else false) else ValueErr ;; Ok k
         end ;;
    let rho := tr_rho rho in
    if Req_EM_T (1 - rho * rho) 0 then Err ArithErr
    else Ok (tr_entry (Z.to_nat size) sigma rho k).
End Tauchen.
