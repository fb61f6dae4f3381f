(** M_FloatNorm: rows turned into probabilities by dividing by their sum, in binary64 ([rnd], see Fl).
    The weights are a function of the indices; overflow is left out. *)
From Coq Require Import Reals List ZArith Bool.
From Verif Require Import Fl M_Float.
Import ListNotations.
Local Open Scope R_scope.

(** ~p.any(axis=1) for one row of [k] entries *)
Definition f_blank (k : nat) (f : nat -> R) : bool :=
  forallb (fun x => if Req_EM_T x 0 then true else false) (frow k f).

(** p[where(~p.any(axis=1)), :] = ones: generators.py 75, 78, 178, 183, 563, 787, fitting.py 283 and 327,
    markov_chain.py 2733 *)
Definition f_fill (k : nat) (m : fmat) : fmat := fun i j => if f_blank k (m i) then 1 else m i j.

(** p /= sum(p, axis=1, keepdims=True): generators.py 76, 79, 179, 184, 521, 564, 788, 821, 926 and 1008,
    fitting.py 284 and 328, markov_chain.py 2734; a row whose sum is zero would give nan and is not represented *)
Definition f_normalize (sm : list R -> R) (k : nat) (m : fmat) : fmat :=
  fun i j => rnd (m i j / sm (frow k (m i))).

(** both steps *)
Definition f_shares (sm : list R -> R) (k : nat) (m : fmat) : fmat := f_normalize sm k (f_fill k m).

(** validation.py 249-265 validate_emission_matrix, for an array of doubles with [r] rows and [k] columns *)
Definition f_accepts_emission (sm : list R -> R) (r k : nat) (e : fmat) : Prop :=
  (2 <= k)%nat /\
  (forall i j, (i < r)%nat -> (j < k)%nat -> is_double (e i j) /\ 0 <= e i j <= 1) /\
  (forall i, (i < r)%nat -> f_close1 (sm (frow k (e i)))).

(** fitting.py 321-325: one added to an entry for each pair of zip(sequence[:-1], sequence[1:]), then 0.001 to all
    of them when the parameter asks for it *)
Definition f_bump (m : fmat) (ab : nat * nat) : fmat :=
  fun i j => if andb (Nat.eqb i (fst ab)) (Nat.eqb j (snd ab)) then rnd (m i j + 1) else m i j.
Definition f_tally (pairs : list (nat * nat)) : fmat := fold_left f_bump pairs (fun _ _ => 0).
Definition f_smooth (k : bool) (m : fmat) : fmat :=
  fun i j => if k then rnd (m i j + rnd (1 / 1000)) else m i j.

(** fitting.py 289-330 mc_fit_sequence with fitting_type 'mle', for [n] possible states *)
Definition f_fit (sm : list R -> R) (n : nat) (smooth : bool) (s : list nat) : fmat :=
  f_shares sm n (f_smooth smooth (f_tally (combine (removelast s) (tl s)))).

(** generators.py 61-79 hmm_estimate with handle_nulls: the emissions, for [k] symbols; the transitions are
    those of [f_fit] *)
Definition f_estimate_emission (sm : list R -> R) (k : nat) (states symbols : list nat) : fmat :=
  f_shares sm k (f_tally (combine states symbols)).
