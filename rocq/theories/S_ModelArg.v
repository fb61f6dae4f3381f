(** S_ModelArg: instances. *)
From Coq Require Import List String.
From Verif Require Import M_ModelArg.
Import ListNotations.

(** class [c] is [d] or derives from it *)
Inductive derives : cls -> cls -> Prop :=
  | der_self c : derives c c
  | der_base c b d : In b (bases c) -> derives b d -> derives c d.
(** isinstance(v, d) *)
Definition is_instance (v : value) (d : cls) : Prop := exists c k, v = VInst c k /\ derives c d.
(** [a] occurs in [s] *)
Definition contains (a s : string) : bool := match index 0 a s with Some _ => true | None => false end.
