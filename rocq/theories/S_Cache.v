(** S_Cache: what may be observed of threads reading cached properties. *)
From Verif Require Export M_Cache.
From Coq Require Export List Arith Bool.
Import ListNotations.

(** The values produced for the property k of the instance o, in a log of
    evaluations. *)
Definition evals (log : list (nat * nat * nat)) (o k : nat) : list nat :=
  map snd (filter (fun e => Nat.eqb (fst (fst e)) o && Nat.eqb (snd (fst e)) k) log).


(** A read of the property k of o has returned v to some thread. *)
Definition completed (s : state) (o k v : nat) : Prop :=
  exists t T, nth_error (s_threads s) t = Some T /\ In (o, k, v) (t_results T).

(** A thread with nothing left to do. *)
Definition finished (T : thread) : Prop := t_stack T = [] /\ t_todo T = [].

(** The properties an instance reads are among those of the source text. *)
Definition mc_plan (plan : nat -> nat -> list nat) : Prop := forall o k d, In d (plan o k) -> In d (mc_reads k).

(** The number of steps actually made under a schedule. *)
Fixpoint effective (plan : nat -> nat -> list nat) (s : state) (sched : list nat) : nat :=
  match sched with
  | [] => 0
  | t :: r => match step plan s t with Some s' => S (effective plan s' r) | None => effective plan s r end
  end.
