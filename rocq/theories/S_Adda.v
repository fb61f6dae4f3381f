(** S_Adda: integrals between possibly infinite ends. *)
From Coq Require Import Reals List.
From Verif Require Import Calc.
Local Open Scope R_scope.

(** a real number, minus infinity or plus infinity *)
Inductive ext := MInf | Fin (x : R) | PInf.
Definition tends (F : R -> R) (a : ext) (l : R) : Prop :=
  match a with MInf => to_left F l | Fin x => F x = l | PInf => to_right F l end.
(** [v] is the integral of the continuous function [f] from [a] to [b] (for finite ends it is Riemann's, see
    [integral_riemann] in L_Adda) *)
Definition integral (f : R -> R) (a b : ext) (v : R) : Prop :=
  exists F la lb, deriv F f /\ tends F a la /\ tends F b lb /\ v = lb - la.

(** sum of f 0 ... f (n-1) *)
Definition total (n : nat) (f : nat -> R) : R := fold_right Rplus 0 (map f (seq 0 n)).
