(** M_Adda: approximation of an autoregressive process by Adda and Cooper's method, in real numbers.
    scipy's norm.cdf, norm.ppf and integrate.quad are arguments. *)
From Coq Require Import Reals List ZArith.
From Verif Require Import Base S_Adda.
Local Open Scope res_scope.
Local Open Scope R_scope.

Section Adda.
  (** norm.cdf, norm.ppf inside (0, 1), and the value quad returned for row i and column j *)
  Variables (cdf ppf : R -> R) (iq : nat -> nat -> R).
  Variables (size : nat) (alpha sigma rho : R).

  (** generators.py 420: z_sigma *)
  Definition ac_sigma : R := sigma / sqrt (1 - rho * rho).
  (** generators.py 421: z_sigma_factor *)
  Definition ac_factor : R := INR size / sqrt (2 * PI * (ac_sigma * ac_sigma)).
  (** norm.ppf(k / size); scipy returns minus infinity at 0 and infinity at 1 *)
  Definition ac_ppf (k : nat) : ext :=
    if Nat.eqb k 0 then MInf else if Nat.eqb k size then PInf else Fin (ppf (INR k / INR size)).
  (** generators.py 423: z[k] *)
  Definition ac_z (k : nat) : ext := match ac_ppf k with Fin x => Fin (ac_sigma * x + alpha) | e => e end.
  (** generators.py 389-390: norm.cdf of an end, which may be infinite *)
  Definition ac_cdf (z : ext) (x : R) : R :=
    match z with
    | MInf => 0
    | PInf => 1
    | Fin z => cdf ((z - alpha * (1 - rho) - rho * x) / sigma)
    end.
  (** generators.py 386-393 _adda_cooper_integrand *)
  Definition ac_integrand (zj zj1 : ext) (x : R) : R :=
    exp (- ((x - alpha) * (x - alpha)) / (2 * (ac_sigma * ac_sigma))) * (ac_cdf zj1 x - ac_cdf zj x).
  (** generators.py 427-434: the arguments of the call of quad for row i and column j, and the entry *)
  Definition ac_call (i j : nat) : (R -> R) * ext * ext := (ac_integrand (ac_z j) (ac_z (S j)), ac_z i, ac_z (S i)).
  Definition ac_entry (i j : nat) : R := ac_factor * iq i j.
  (** what is assumed of quad *)
  Definition quad_exact : Prop := forall i j, (i < size)%nat -> (j < size)%nat ->
    let '(f, a, b) := ac_call i j in integral f a b (iq i j).
End Adda.

(** markov_chain.py 2118-2172 approximation, approximation_type 'adda-cooper'.  With rho = 1 or -1, line 420 of
    generators.py divides a Python float by zero.  The state names and the constructor's checks are left out. *)
Definition approximation_adda (iq : nat -> nat -> R) (size : Z) (alpha sigma rho : R) : res (nat -> nat -> R) :=
  guard Z.leb 2 size else ValueErr ;;
  guard (if Rlt_dec 0 sigma then true else false) else ValueErr ;;
  guard (if Rle_dec (-1) rho then if Rle_dec rho 1 then true else false else false) else ValueErr ;;
  if Req_EM_T (1 - rho * rho) 0 then Err ArithErr
  else Ok (ac_entry iq (Z.to_nat size) sigma rho).
