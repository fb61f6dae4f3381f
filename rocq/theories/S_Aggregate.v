(** S_Aggregate: what an aggregated chain is. *)
From Verif Require Export S_Measures.
Open Scope nat_scope.

(** The groups are not empty and every state is in exactly one of them. *)
Definition grouping (n : nat) (G : list (list nat)) : Prop :=
  (forall g, In g G -> g <> [] /\ NoDup g /\ forall x, In x g -> x < n) /\
  (forall i, i < n -> exists a, a < length G /\ forall b, b < length G -> (In i (nth b G []) <-> b = a)).
(** Stationary probability of a group, and of a move from one group to another. *)
Definition mass (pi : vec) (g : list nat) : Qc := lsum (map (vget pi) g).
Definition flow (P : mat) (pi : vec) (g h : list nat) : Qc := lsum (map (fun i => vget pi i * lsum (map (mget P i) h))%Qc g).
(** Q moves between the groups with the conditional probabilities of the stationary chain. *)
Definition aggregated (P : mat) (pi : vec) (G : list (list nat)) (Q : mat) : Prop :=
  wf (length G) (length G) Q /\
  forall a b, a < length G -> b < length G -> mget Q a b = (flow P pi (nth a G []) (nth b G []) / mass pi (nth a G []))%Qc.
(** The average of the chain and its time reversal, restricted to the states in idx. *)
Definition two_way (P : mat) (pi : vec) (idx : list nat) : mat :=
  mk (length idx) (length idx) (fun a b => let i := nth a idx 0%nat in let j := nth b idx 0%nat in
    ((mget P i j + vget pi j * mget P j i / vget pi i) / Q2Qc (2 # 1))%Qc).
(** A sign pattern with both signs; the eigenvector used for each set of two states or more has one. *)
Definition mixed (k : nat) (sg : list bool) : Prop := (exists i, i < k /\ nth i sg true = true) /\ (exists j, j < k /\ nth j sg true = false).
Definition splits (n : nat) (P : mat) (pi : vec) (signs : mat -> list bool) : Prop :=
  forall idx, NoDup idx -> (forall x, In x idx -> x < n) -> 2 <= length idx -> mixed (length idx) (signs (two_way P pi idx)).
Definition equal_moves (n : nat) : mat := mk n n (fun _ _ => 1 / Qcn n)%Qc.
(** Eigenvectors of A with rational entries, and the signs of their entries. *)
Definition eigenvector (n : nat) (A : mat) (lam : Qc) (v : vec) : Prop :=
  length v = n /\ (exists i, i < n /\ vget v i <> 0q) /\ forall i, i < n -> sumn n (fun j => mget A i j * vget v j)%Qc = (lam * vget v i)%Qc.
Definition sign_of (v : vec) : list bool := map (fun x => Qcleb 0 x) v.
