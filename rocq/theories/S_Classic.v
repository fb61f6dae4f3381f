(** S_Classic: textbook formulas for the generated chains. *)
From Coq Require Export Factorial.
From Verif Require Export QcX Base.

(** n! / (k! (n-k)!) *)
Definition choose (n k : nat) : Qc := (Qcn (fact n) / (Qcn (fact k) * Qcn (fact (n - k))))%Qc.
Fixpoint power (x : Qc) (k : nat) : Qc := match k with 0 => 1q | S k => (x * power x k)%Qc end.
(** 1 + g + ... + g^(i-1): the weight of the first i steps of a game where each step up is
    g times as hard as the one before.  It is i when g = 1 and (g^i - 1) / (g - 1) otherwise. *)
Definition ladder (g : Qc) (i : nat) : Qc := sumn i (power g).
(** The product of p(k) / q(k+1) for k < i. *)
Fixpoint ratios (p q : nat -> Qc) (i : nat) : Qc := match i with 0 => 1q | S k => (ratios p q k * (p k / q (S k)))%Qc end.
