(** S_EigPlot: eigenvalues by their definition. *)
From Verif Require Export S_Spectral M_EigPlot.
From Coq Require Import Reals.
Close Scope R_scope.
Open Scope nat_scope.

(** z times some vector other than 0 is A times that vector. *)
Definition eigenvalue (n : nat) (A : cmat) (z : cx) : Prop :=
  exists x : nat -> cx, (exists i, i < n /\ x i <> zeroC) /\ forall i, i < n -> csum n (fun j => A i j * x j)%C = (z * x i)%C.
