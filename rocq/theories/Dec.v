(** Dec: boolean tests for the specification predicates, proved sound, so that the
    non-vacuity examples can be settled by computation. *)
From Verif Require Import S_Gen.

Definition all2 (n m : nat) (f : nat -> nat -> bool) : bool := forallb (fun i => forallb (f i) (seq 0 m)) (seq 0 n).
Lemma all1_spec n (f : nat -> bool) : forallb f (seq 0 n) = true -> forall i, i < n -> f i = true.
Proof. intros H i Hi. rewrite forallb_forall in H. apply H, in_seq. lia. Qed.
Lemma all2_spec n m f : all2 n m f = true -> forall i j, i < n -> j < m -> f i j = true.
Proof. intros H i j Hi Hj. unfold all2 in H. exact (all1_spec _ _ (all1_spec _ _ H i Hi) j Hj). Qed.

Definition row_stochasticb (n m : nat) (P : mat) : bool :=
  wfb n m P && all2 n m (fun i j => Qcleb 0 (mget P i j))
  && forallb (fun i => Qceqb (sumn m (fun j => mget P i j)) 1) (seq 0 n).
Lemma row_stochasticb_ok n m P : row_stochasticb n m P = true -> row_stochastic n m P.
Proof.
  unfold row_stochasticb. rewrite !andb_true_iff. intros [[H1 H2] H3]. split; [apply wfb_wf; exact H1|split].
  - intros i j Hi Hj. apply Qcleb_le, (all2_spec n m (fun i j => Qcleb 0 (mget P i j)) H2 i j Hi Hj).
  - intros i Hi. apply Qceqb_eq, (all1_spec _ _ H3 i Hi).
Qed.
Definition stochasticb (n : nat) (P : mat) : bool := row_stochasticb n n P.
Lemma stochasticb_ok n P : stochasticb n P = true -> stochastic n P.
Proof. apply row_stochasticb_ok. Qed.

Definition names_okb (n : nat) (l : list string) : bool :=
  Nat.eqb (length l) n && nodupb String.eqb l && forallb nonblank l.
Lemma names_okb_ok n l : names_okb n l = true -> names_ok n l.
Proof.
  unfold names_okb. rewrite !andb_true_iff, Nat.eqb_eq, forallb_forall. intros [[H1 H2] H3].
  repeat split; auto. apply (nodupb_NoDup String.eqb String.eqb_eq), H2.
Qed.
Definition valid_chainb (n : nat) (c : chain) : bool :=
  Nat.leb 2 n && stochasticb n (ch_p c) && names_okb n (ch_states c).
Lemma valid_chainb_ok n c : valid_chainb n c = true -> valid_chain n c.
Proof.
  unfold valid_chainb. rewrite !andb_true_iff, Nat.leb_le. intros [[H1 H2] H3].
  split; [exact H1|split; [apply stochasticb_ok, H2|apply names_okb_ok, H3]].
Qed.

Definition distributionb (n : nat) (v : vec) : bool :=
  Nat.eqb (length v) n && forallb (fun i => Qcleb 0 (vget v i)) (seq 0 n) && Qceqb (sumn n (vget v)) 1.
Lemma distributionb_ok n v : distributionb n v = true -> distribution n v.
Proof.
  unfold distributionb. rewrite !andb_true_iff, Nat.eqb_eq. intros [[H1 H2] H3].
  repeat split; auto; [intros i Hi; apply Qcleb_le, (all1_spec _ _ H2 i Hi)|apply Qceqb_eq, H3].
Qed.

Definition is_ok {A} (r : res A) : bool := match r with Ok _ => true | Err _ => false end.
Lemma is_ok_ex {A} (r : res A) : is_ok r = true -> exists x, r = Ok x.
Proof. destruct r; [eauto|discriminate]. Qed.

(** The call succeeds and the chain has the given matrix and names. *)
Definition shows (r : res chain) (M : list (list Q)) (l : list string) : Prop :=
  match r with Ok c => showm (ch_p c) = M /\ ch_states c = l | Err _ => False end.

Definition wfb (n m : nat) (M : mat) : bool := Nat.eqb (length M) n && forallb (fun r => Nat.eqb (length r) m) M.
Lemma wfb_ok n m M : wfb n m M = true -> wf n m M.
Proof.
  unfold wfb. rewrite andb_true_iff, forallb_forall, Nat.eqb_eq. intros [A B]. split; [exact A|]. intros r Hr. apply Nat.eqb_eq, B, Hr.
Qed.
