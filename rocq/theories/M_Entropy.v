(** M_Entropy: model of entropy_rate and entropy_rate_normalized.  Model only.
    numpy.log is the logarithm of the standard library's real numbers. *)
From Verif Require Export M_Props M_Simulation.
From Coq Require Import Reals.
Close Scope R_scope.
Open Scope nat_scope.
Open Scope res_scope.

Definition rsum (n : nat) (f : nat -> R) : R := fold_right (fun i a => (f i + a)%R) 0%R (seq 0 n).
(** numpy.isclose(h, 0.0) *)
Definition isclose0R (h : R) : bool := if Rle_dec (Rabs h) (Qc2R atol) then true else false.

(** markov_chain.py 487-510 entropy_rate *)
Definition entropy_rate (m : mcenv) : res (option R) :=
  pis <- stationary_distributions (en_p m) (en_comps m) ;;
  if Nat.ltb 1 (length pis) then Ok None
  else
    pi <- pi0 m ;;
    let h := rsum (en_size m) (fun i => rsum (en_size m) (fun j =>
      if Qcltb 0 (mget (en_p m) i j)
      then (Qc2R (vget pi i) * Qc2R (mget (en_p m) i j) * ln (Qc2R (mget (en_p m) i j)))%R else 0%R)) in
    Ok (Some (if isclose0R h then h else (- h)%R)).

(** markov_chain.py 512-531 entropy_rate_normalized.  [ev] is the largest absolute
    eigenvalue of the adjacency matrix (numpy.linalg.eigvals): an argument.  A division by
    log(1) = 0 is the error value of the model (in numpy: a warning and inf or nan). *)
Definition entropy_rate_normalized (ev : R) (m : mcenv) : res (option R) :=
  h <- entropy_rate m ;;
  match h with
  | None => Ok None
  | Some h =>
      if isclose0R h then Ok (Some 0%R)
      else if Req_EM_T (ln ev) 0%R then Err ArithErr
      else Ok (Some (Rmin 1 (Rmax 0 (h / ln ev))))
  end.
