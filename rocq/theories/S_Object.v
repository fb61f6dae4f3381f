(** S_Object: which histories are harmless, in terms of what the caller writes to. *)
From Verif Require Export M_Object.
From Coq Require Import String List Arith Bool.
Import ListNotations.

(** No zero of the matrix is negative. *)
Definition no_neg0 (p : list (list sfloat)) : Prop := forall r x, In r p -> In x r -> is_neg0 x = false.

Section Harmless.
Variable cached_value computed_value : nat -> mat -> list string -> cell.
Variable derived : nat -> mat -> mat.

(** The origin of what an action writes to, if it writes. *)
Definition written (w : world) (a : action) : option origin :=
  match a with
  | AWriteMat n _ | AWriteRow n _ | AWriteStr n _ => option_map fst (nth_error (w_held w) n)
  | _ => None
  end.

(** Histories in which the caller never writes to anything of a forbidden origin. *)
Fixpoint avoids (forbidden : origin -> Prop) (w : world) (acts : list action) : Prop :=
  match acts with
  | [] => True
  | a :: r => (forall o, written w a = Some o -> ~ forbidden o)
              /\ avoids forbidden (act cached_value computed_value derived w a) r
  end.

Definition a_row (o : origin) : Prop := o = FromRow.
Definition a_name_list (o : origin) : Prop := o = FromStates \/ o = FromArgument.
Definition a_cached (o : origin) : Prop := exists k, o = FromCache k.
End Harmless.

(** What reading the cached result k of object x shows (None if never computed). *)
Definition cached_of (w : world) (x k : nat) : option cell :=
  match nth_error (w_objs w) x with
  | Some o => match find (fun e => Nat.eqb (fst e) k) (o_cache o) with
              | Some (_, l) => nth_error (w_heap w) l
              | None => None
              end
  | None => None
  end.
