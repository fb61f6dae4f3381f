(** Base: exceptions as values and small list utilities shared by the model.
    (Library file: no definition here models a particular function of /repo.) *)
From Coq Require Export String.
From Coq Require Export Arith ZArith Lia Bool List.
Export ListNotations.
From Coq Require Import Permutation.

(** Python exceptions as values.  [ValueErr]/[TypeErr] are the exceptions raised
    inside the library's validators (they reach the user wrapped in
    ValidationError, pydtmc/utilities.py create_validation_error);
    [ArithErr] stands for ZeroDivisionError and numpy.linalg.LinAlgError;
    [KeyErr]/[IndexErr] for the corresponding built-in exceptions;
    [OtherErr] for exceptions of other classes (_csv.Error);
    [FuelErr] is never raised by Python: it marks exhausted fuel in the model. *)
Inductive exc := ValueErr | TypeErr | ArithErr | KeyErr | IndexErr | OtherErr | FuelErr.

Inductive res (A : Type) := Ok (a : A) | Err (e : exc).
Arguments Ok {A} a.
Arguments Err {A} e.

Definition bind {A B} (x : res A) (f : A -> res B) : res B :=
  match x with Ok a => f a | Err e => Err e end.

Declare Scope res_scope.
Delimit Scope res_scope with res.
Notation "x <- e ;; f" := (bind e (fun x => f))
  (at level 61, e at next level, right associativity) : res_scope.
Notation "'guard' b 'else' e ;; f" := (if b then f else Err e)
  (at level 61, b at next level, e at next level, right associativity) : res_scope.

Definition is_ok {A} (x : res A) : bool := match x with Ok _ => true | Err _ => false end.

(** mapM over a list, left to right, stopping at the first exception. *)
Fixpoint mapM {A B} (f : A -> res B) (l : list A) : res (list B) :=
  match l with
  | [] => Ok []
  | a :: l' =>
      match f a with
      | Err e => Err e
      | Ok b => match mapM f l' with Err e => Err e | Ok bs => Ok (b :: bs) end
      end
  end.

Definition opt_get {A} (d : A) (o : option A) : A := match o with Some a => a | None => d end.

(** Tabulation: the list [f 0; ...; f (n-1)]. *)
Definition tab {A} (n : nat) (f : nat -> A) : list A := map f (seq 0 n).

Lemma tab_length {A} n (f : nat -> A) : length (tab n f) = n.
Proof. unfold tab; rewrite map_length, seq_length; reflexivity. Qed.

Lemma tab_nth {A} n (f : nat -> A) d i : i < n -> nth i (tab n f) d = f i.
Proof.
  intros H; unfold tab.
  rewrite nth_indep with (d' := f 0) by (rewrite map_length, seq_length; exact H).
  rewrite map_nth, seq_nth by exact H; reflexivity.
Qed.

Lemma tab_ext {A} n (f g : nat -> A) :
  (forall i, i < n -> f i = g i) -> tab n f = tab n g.
Proof.
  intros H; unfold tab; apply map_ext_in; intros a Ha.
  apply in_seq in Ha; apply H; lia.
Qed.

Lemma tab_S {A} n (f : nat -> A) : tab (S n) f = tab n f ++ [f n].
Proof. unfold tab. rewrite seq_S, map_app; reflexivity. Qed.

Lemma in_tab {A} n (f : nat -> A) x : In x (tab n f) <-> exists i, i < n /\ x = f i.
Proof.
  unfold tab; rewrite in_map_iff; split.
  - intros (i & <- & Hi); apply in_seq in Hi; exists i; split; [lia|reflexivity].
  - intros (i & Hi & ->); exists i; split; [reflexivity|apply in_seq; lia].
Qed.

Lemma tab_of_nth {A} (l : list A) d : tab (length l) (fun i => nth i l d) = l.
Proof.
  apply nth_ext with (d := d) (d' := d); rewrite tab_length; [reflexivity|].
  intros i Hi; rewrite tab_nth by exact Hi; reflexivity.
Qed.

Lemma mapM_ok_length {A B} (f : A -> res B) l bs :
  mapM f l = Ok bs -> length bs = length l.
Proof.
  revert bs; induction l as [|a l IH]; simpl; intros bs H.
  - inversion H; reflexivity.
  - destruct (f a); [|discriminate]. destruct (mapM f l) eqn:E; [|discriminate].
    inversion H; subst; simpl; f_equal; apply IH; reflexivity.
Qed.

Lemma mapM_ok_iff {A B} (f : A -> res B) l bs :
  mapM f l = Ok bs <-> Forall2 (fun a b => f a = Ok b) l bs.
Proof.
  revert bs; induction l as [|a l IH]; simpl; intros bs.
  - split; intros H; [inversion H; constructor | inversion H; reflexivity].
  - split.
    + destruct (f a) eqn:Ea; [|discriminate].
      destruct (mapM f l) eqn:E; [|discriminate].
      intros H; inversion H; subst; constructor; [exact Ea|]. apply IH; reflexivity.
    + intros H; inversion H as [|? b ? bs' Hb Hbs]; subst. rewrite Hb.
      apply IH in Hbs; rewrite Hbs; reflexivity.
Qed.

(** Boolean membership for nat lists. *)
Definition memn (x : nat) (l : list nat) : bool := existsb (Nat.eqb x) l.

Lemma memn_In x l : memn x l = true <-> In x l.
Proof.
  unfold memn; rewrite existsb_exists; split.
  - intros (y & Hy & He); apply Nat.eqb_eq in He; subst; exact Hy.
  - intros H; exists x; split; [exact H|apply Nat.eqb_refl].
Qed.

Lemma memn_false x l : memn x l = false <-> ~ In x l.
Proof. rewrite <- memn_In; destruct (memn x l); split; congruence. Qed.

(** Index of the first occurrence (Python list.index). *)
Fixpoint index_of {A} (eqb : A -> A -> bool) (x : A) (l : list A) : option nat :=
  match l with
  | [] => None
  | y :: l' => if eqb x y then Some 0
               else match index_of eqb x l' with Some i => Some (S i) | None => None end
  end.

Lemma index_of_Some {A} (eqb : A -> A -> bool) (Heq : forall a b, eqb a b = true <-> a = b) x l i :
  index_of eqb x l = Some i ->
  nth_error l i = Some x /\ (forall k, k < i -> nth_error l k <> Some x).
Proof.
  revert i; induction l as [|y l IH]; simpl; intros i H; [discriminate|].
  destruct (eqb x y) eqn:E.
  - inversion H; subst. apply Heq in E; subst; split; [reflexivity|intros k Hk; lia].
  - destruct (index_of eqb x l) eqn:E'; [|discriminate]. inversion H; subst.
    destruct (IH _ eq_refl) as [H1 H2]; split; [exact H1|].
    intros [|k] Hk; simpl.
    + intros C; inversion C; subst. assert (eqb x x = true) by (apply Heq; reflexivity). congruence.
    + apply H2; lia.
Qed.

Lemma index_of_None {A} (eqb : A -> A -> bool) (Heq : forall a b, eqb a b = true <-> a = b) x l :
  index_of eqb x l = None <-> ~ In x l.
Proof.
  induction l as [|y l IH]; simpl.
  - split; [intros _ []|reflexivity].
  - destruct (eqb x y) eqn:E.
    + apply Heq in E; subst; split; [discriminate|intros H; exfalso; apply H; left; reflexivity].
    + destruct (index_of eqb x l) eqn:E'.
      * split; [discriminate|]. intros H. exfalso.
        assert (Hn : ~ In x l) by (intros C; apply H; right; exact C).
        apply IH in Hn; discriminate.
      * split; [|reflexivity]. intros _ [C|C].
        -- subst. assert (eqb x x = true) by (apply Heq; reflexivity). congruence.
        -- apply IH in C; [exact C|reflexivity].
Qed.

(** NoDup decision for nat lists. *)
Fixpoint nodupb {A} (eqb : A -> A -> bool) (l : list A) : bool :=
  match l with
  | [] => true
  | x :: l' => negb (existsb (eqb x) l') && nodupb eqb l'
  end.

Lemma nodupb_NoDup {A} (eqb : A -> A -> bool) (Heq : forall a b, eqb a b = true <-> a = b) l :
  nodupb eqb l = true <-> NoDup l.
Proof.
  induction l as [|x l IH]; simpl.
  - split; [constructor|reflexivity].
  - rewrite andb_true_iff, negb_true_iff, IH. split.
    + intros [H1 H2]; constructor; [|exact H2]. intros Hin.
      assert (existsb (eqb x) l = true); [|congruence].
      apply existsb_exists; exists x; split; [exact Hin|apply Heq; reflexivity].
    + intros H; inversion H as [|? ? Hn Hd]; subst; split; [|exact Hd].
      destruct (existsb (eqb x) l) eqn:E; [|reflexivity].
      apply existsb_exists in E; destruct E as (y & Hy & Hxy). apply Heq in Hxy; subst; contradiction.
Qed.

Lemma forallb_tab {A} (p : A -> bool) n f :
  forallb p (tab n f) = true <-> (forall i, i < n -> p (f i) = true).
Proof.
  rewrite forallb_forall; split.
  - intros H i Hi; apply H, in_tab; exists i; auto.
  - intros H x Hx; apply in_tab in Hx; destruct Hx as (i & Hi & ->); auto.
Qed.

Lemma nth_error_tab {A} n (f : nat -> A) i : i < n -> nth_error (tab n f) i = Some (f i).
Proof.
  intros H. rewrite nth_error_nth' with (d := f 0) by (rewrite tab_length; exact H).
  rewrite tab_nth by exact H; reflexivity.
Qed.

Lemma map_tab {A B} (g : A -> B) n f : map g (tab n f) = tab n (fun i => g (f i)).
Proof. unfold tab; rewrite map_map; reflexivity. Qed.
