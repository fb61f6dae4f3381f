(** S_HmmRandom: what random matrices with a mask are. *)
From Verif Require Export S_Gen S_Gen2 M_HmmRandom.
Close Scope R_scope.
Open Scope nat_scope.

Definition count_cells2 (rows cols : nat) (c : nat -> nat -> bool) : nat :=
  length (filter (fun ij => c (fst ij) (snd ij)) (list_prod (seq 0 rows) (seq 0 cols))).
(** How many free cells can be made zero when every incomplete row keeps one. *)
Definition capacity (rows cols : nat) (val : nat -> nat -> option Qc) : nat :=
  list_sum (map (fun i => if row_complete cols val i then 0 else free_cells cols val i - 1) (seq 0 rows)).
(** What numpy guarantees about the draws; the uniform draws are taken positive. *)
Definition draws_ok2 (rows cols : nat) (val : nat -> nat -> option Qc) (d : draws) : Prop :=
  (forall i, i < rows -> row_complete cols val i = false -> 0 < free_cells cols val i -> dr_pick d i < free_cells cols val i)
  /\ Permutation (dr_perm d) (seq 0 (capacity rows cols val))
  /\ (forall i j, i < rows -> j < cols -> (0 < dr_value d i j < 1)%Qc).
Definition free_zeros (rows cols : nat) (val : nat -> nat -> option Qc) (M : mat) : nat :=
  count_cells2 rows cols (fun i j => match val i j with None => Qceqb (mget M i j) 0 | Some _ => false end).
Definition follows_mask (rows cols : nat) (val : nat -> nat -> option Qc) (zeros : Z) (M : mat) : Prop :=
  wf rows cols M /\
  (forall i j, i < rows -> j < cols -> (0 <= mget M i j)%Qc) /\
  (forall i, i < rows -> row_complete cols val i = false -> sumn cols (mget M i) = 1q) /\
  (forall i, i < rows -> row_complete cols val i = true -> sumn cols (mget M i) = 1q \/ sumn cols (mget M i) = mask_sum cols val i) /\
  (forall i j x, i < rows -> j < cols -> val i j = Some x -> mget M i j = x) /\
  (zeros <= Z.of_nat (free_zeros rows cols val M))%Z /\
  ((forall i, i < rows -> row_complete cols val i = false) -> Z.of_nat (free_zeros rows cols val M) = zeros).
(** Zeros in the free cells of the rows the mask leaves incomplete. *)
Definition incomplete_zeros (rows cols : nat) (val : nat -> nat -> option Qc) (M : mat) : nat :=
  count_cells2 rows cols (fun i j => negb (row_complete cols val i) && match val i j with None => Qceqb (mget M i j) 0 | Some _ => false end).
