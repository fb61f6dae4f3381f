(** M_FloatPredict: prediction of the most likely walk in binary64 ([rnd], see Fl). *)
From Coq Require Import Reals List.
From Verif Require Import Fl M_Float.
Import ListNotations.
Local Open Scope R_scope.

(** simulations.py 165 numpy.max(d), for a row without nan *)
Definition f_max (n : nat) (d : nat -> R) : R := fold_left Rmax (map d (seq 1 (n - 1))) (d 0%nat).
(** simulations.py 165 numpy.argwhere(d == numpy.max(d)) *)
Definition f_argwhere (n : nat) (d : nat -> R) : list nat := filter (fun j => if Req_EM_T (d j) (f_max n d) then true else false) (seq 0 n).
(** simulations.py 162-171: the states after [cur].  None is the library's None (d_max.size > 1); an empty list of
    indices, for which item() would fail, does not occur. *)
Fixpoint f_predict_loop (n : nat) (p : fmat) (steps : nat) (cur : nat) : option (list nat) :=
  match steps with
  | O => Some []
  | S steps =>
      match f_argwhere n (p cur) with
      | [s] => option_map (cons s) (f_predict_loop n p steps s)
      | _ => None
      end
  end.
(** simulations.py 155-173 mc_predict *)
Definition f_predict (n : nat) (p : fmat) (steps initial : nat) : option (list nat) :=
  option_map (cons initial) (f_predict_loop n p steps initial).
