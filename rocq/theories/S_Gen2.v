(** S_Gen2: specification vocabulary that mentions argument types of the API
    (weights, masks, boundary conditions).  No function of the model is used. *)
From Coq Require Import Ascii.
From Verif Require Export S_Gen M_Generators.

(** A number is not tiny when it is zero or larger than numpy's absolute
    tolerance 1e-8. *)
Definition not_tiny (x : Qc) : Prop := x = 0q \/ (atol < x)%Qc.

(** Entry (i, j) of the birth-death chain with birth probabilities p and death
    probabilities q. *)
Definition bd_cell (p q : vec) (i j : nat) : Qc :=
  if Nat.eqb j (i + 1) then vget p i else if Nat.eqb i (j + 1) then vget q i
  else if Nat.eqb i j then (1 - vget p i - vget q i)%Qc else 0q.

(** A distribution function: monotone with values in [0,1]. *)
Definition cdf_like (F : Qc -> Qc) : Prop :=
  (forall x y, x <= y -> F x <= F y)%Qc /\ (forall x, 0 <= F x <= 1)%Qc.

(** Laziness weights: one number for all states, or one per state. *)
Definition weight_at (w : weights) (i : nat) : Qc := match w with WScalar x => x | WVector v => vget v i end.

(** Acceptable weights. *)
Definition weights_ok (n : nat) (w : weights) : Prop :=
  match w with
  | WScalar x => (0 <= x <= 1)%Qc
  | WVector v => length v = n /\ forall i, i < n -> (0 <= vget v i <= 1)%Qc
  end.

(** The fixed entries of a mask; an omitted mask leaves everything free. *)
Definition mval (mask : list (list cell)) (i j : nat) : option Qc :=
  match cget mask i j with CVal x => Some x | _ => None end.
Definition the_mask (n : nat) (mask : option (list (list cell))) : list (list cell) :=
  match mask with None => cmk n (fun _ _ => CNan) | Some m => m end.

(** Blocks: disjoint, within 0..n-1 and covering; empty blocks allowed (the
    argument validator lets them through). *)
Definition blocks_of (n : nat) (parts : list (list nat)) : Prop :=
  NoDup (concat parts) /\ (forall x, In x (concat parts) <-> x < n).

(** The string contains no comma. *)
Definition comma : ascii := ","%char.
Fixpoint comma_free (s : string) : Prop :=
  match s with EmptyString => True | String a s' => a <> comma /\ comma_free s' end.

(** Stick breaking: piece j is the fraction d j of what the pieces before it leave. *)
Fixpoint remaining (d : nat -> Qc) (j : nat) : Qc := match j with 0 => 1q | S k => (remaining d k * (1 - d k))%Qc end.
Definition stick (ds : list Qc) (j : nat) : Qc := (remaining (fun l => nth l ds 0q) j * nth j ds 0q)%Qc.
(** What a mask must be: the right shape, cells that are free or probabilities, no row above one. *)
Definition mask_valid (rows cols : nat) (m : list (list cell)) : Prop :=
  length m = rows /\ (forall r, In r m -> length r = cols) /\
  (forall r c, In r m -> In c r -> c = CNan \/ exists x, c = CVal x /\ (0 <= x <= 1)%Qc) /\
  (forall i, i < rows -> (mask_sum cols (mval m) i <= 1)%Qc).
Definition given_mask_valid (rows cols : nat) (mask : option (list (list cell))) : Prop :=
  match mask with None => True | Some m => mask_valid rows cols m end.
