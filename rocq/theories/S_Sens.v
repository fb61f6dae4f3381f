(** S_Sens: how the stationary distribution depends on the transition matrix. *)
From Verif Require Export S_Limit.

(** g is the derivative at 0 of the function that maps t to the probability of s under the
    stationary distributions of P + t E, relative to the value v at t = 0: every
    distribution that is stationary for P + t E, for t close to 0, is taken into account. *)
Definition pi_derivative (n : nat) (P E : mat) (s : nat) (v g : Qc) : Prop :=
  forall eps, (0 < eps)%Qc -> exists del, (0 < del)%Qc /\
    forall t w, t <> 0q -> (Qcabs t < del)%Qc -> distribution n w -> stationary n (madd P (mscale t E)) w ->
      (Qcabs ((vget w s - v) / t - g) < eps)%Qc.
(** Directions along which the rows keep summing to one. *)
Definition row_balanced (n : nat) (E : mat) : Prop :=
  wf n n E /\ forall i, i < n -> sumn n (fun j => mget E i j) = 0q.
(** Mixture of the vectors pis with the weights c. *)
Definition mixture (n : nat) (c : vec) (pis : list vec) : vec :=
  tab n (fun j => sumn (length pis) (fun k => vget c k * vget (nth k pis []) j)%Qc).
