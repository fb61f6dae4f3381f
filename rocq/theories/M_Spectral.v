(** M_Spectral: model of the properties that are computed from eigenvalues.  Model only.
    numpy.linalg.eigvals(m) is an argument [ev]: a list of complex numbers.  numpy.log is the
    logarithm of the standard library's real numbers. *)
From Verif Require Export M_Entropy Cx.
From Coq Require Import Reals.
Close Scope R_scope.
Open Scope nat_scope.
Open Scope res_scope.

(** numpy.sort of a list of real numbers, in increasing order *)
Fixpoint rinsert (x : R) (l : list R) : list R :=
  match l with
  | [] => [x]
  | y :: r => if Rle_dec x y then x :: y :: r else y :: rinsert x r
  end.
Definition rsort (l : list R) : list R := fold_right rinsert [] l.
(** numpy.isclose(a, b) for finite numbers, with the default tolerances *)
Definition iscloseR (a b : R) : bool := if Rle_dec (Rabs (a - b)) (Qc2R atol + Qc2R rtol * Rabs b) then true else false.

(** computations.py 158-163 eigenvalues_sorted *)
Definition eigenvalues_sorted (ev : list cx) : list R := rsort (map cmod ev).
(** computations.py 340-348 slem.  [-1] on an empty array is an IndexError. *)
Definition slem (ev : list cx) : res (option R) :=
  match filter (fun x => negb (iscloseR x 1)) (eigenvalues_sorted ev) with
  | [] => Err IndexErr
  | x :: r => let value := last r x in Ok (if iscloseR value 0 then None else Some value)
  end.
(** markov_chain.py 342-350 __slem *)
Definition mc_slem (m : mcenv) (ev : list cx) : res (option R) :=
  b <- is_ergodic m ;; if b then slem ev else Ok None.
(** markov_chain.py 946-959 spectral_gap *)
Definition spectral_gap (m : mcenv) (ev : list cx) : res (option R) :=
  s <- mc_slem m ev ;; Ok (match s with None => None | Some s => Some (1 - s)%R end).
(** markov_chain.py 922-935 relaxation_rate.  1 - slem is not 0: slem leaves out what is
    within 1e-5 of 1. *)
Definition relaxation_rate (m : mcenv) (ev : list cx) : res (option R) :=
  s <- mc_slem m ev ;;
  match s with
  | None => Ok None
  | Some _ => g <- spectral_gap m ev ;; Ok (match g with None => None | Some g => Some (1 / g)%R end)
  end.
(** markov_chain.py 802-815 mixing_rate.  log(slem) is not 0 for the same reason. *)
Definition mixing_rate (m : mcenv) (ev : list cx) : res (option R) :=
  s <- mc_slem m ev ;; Ok (match s with None => None | Some s => Some (- (1) / ln s)%R end).

(** A float that may be infinite *)
Inductive flt := Fnum (x : R) | Finf | Fminf.
(** -1.0 / numpy.log(x) for x >= 0, with the warning of a division by zero switched off:
    log(0) is -inf, so the quotient is 0; log(1) is 0.0, so the quotient is -inf *)
Definition timescale (x : R) : flt :=
  if Req_EM_T x 0 then Fnum 0 else if Req_EM_T x 1 then Fminf else Fnum (- (1) / ln x)%R.
(** markov_chain.py 554-571 implied_timescales *)
Definition implied_timescales (m : mcenv) (ev : list cx) : res (option (list flt)) :=
  b <- is_ergodic m ;;
  if negb b then Ok None
  else Ok (Some (Finf :: map timescale (tl (rev (eigenvalues_sorted ev))))).

(** markov_chain.py 970-980 topological_entropy.  [ev]: the eigenvalues of the adjacency
    matrix.  log(0) = -inf is the error value of the model. *)
Definition topological_entropy (ev : list cx) : res R :=
  match eigenvalues_sorted ev with
  | [] => Err IndexErr
  | x :: r => let v := last r x in if Req_EM_T v 0 then Err ArithErr else Ok (ln v)
  end.
(** markov_chain.py 512-531 entropy_rate_normalized, lines 526-528: ev[-1] of the eigenvalues
    of the adjacency matrix *)
Definition entropy_rate_normalized_ev (m : mcenv) (ev : list cx) : res (option R) :=
  match eigenvalues_sorted ev with
  | [] => Err IndexErr
  | x :: r => entropy_rate_normalized (last r x) m
  end.
