(** S_Stationary: specification of the stationary distributions. *)
From Verif Require Export S_Period.

(** v is the invariant distribution carried by the class B. *)
Definition pi_ok (n : nat) (P : mat) (B : list nat) (v : vec) : Prop :=
  distribution n v /\ stationary n P v /\ forall i, i < n -> ((0 < vget v i)%Qc <-> In i B).

(** Rs lists every recurrent class (mutually reachable recurrent states) once. *)
Definition recurrent_listing (n : nat) (E : nat -> nat -> Prop) (Rs : list (list nat)) : Prop :=
  NoDup Rs /\
  (forall B, In B Rs -> B <> [] /\ forall i, In i B -> recurrent n E i /\ forall j, j < n -> (In j B <-> mutual n E i j)) /\
  (forall x, recurrent n E x -> exists B, In B Rs /\ In x B) /\
  (forall B B' x, In B Rs -> In B' Rs -> In x B -> In x B' -> B = B').
