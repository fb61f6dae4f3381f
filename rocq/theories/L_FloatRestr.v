(** L_FloatRestr: restricted hidden models in doubles. *)
From Coq Require Import Reals Lra Lia List ZArith Bool Arith.
From Flocq Require Import Core.
From Verif Require Import Fl M_Float S_Float L_Float1 M_FloatNorm S_FloatNorm L_FloatNorm M_FloatRestr.
Import ListNotations.
Local Open Scope R_scope.

Section Restrict.
Variables (sm0 sm : list R -> R) (n k : nat) (p e : fmat) (ss sy : list nat).
Hypothesis S1 : summing sm.
Hypothesis B : INR n <= 1000000000.
Hypothesis Bk : INR k <= 1000000000.
Hypothesis Ap : f_accepts sm0 n p.
Hypothesis Ae : f_accepts_emission sm0 n k e.
Hypothesis Ls : (2 <= length ss < n)%nat.
Hypothesis Ly : (2 <= length sy <= k)%nat.
Hypothesis Is : forall i, In i ss -> (i < n)%nat.
Hypothesis Iy : forall i, In i sy -> (i < k)%nat.
Lemma ix_p i j : (i < length ss)%nat -> (j < length ss)%nat -> is_double (f_ix ss ss p i j) /\ 0 <= f_ix ss ss p i j.
Proof. intros I J. destruct Ap as (_ & D & _). destruct (D (nth i ss 0%nat) (nth j ss 0%nat)) as [X Y]; [apply Is, nth_In, I|apply Is, nth_In, J|]. split; [exact X|]. unfold f_ix. lra. Qed.
Lemma ix_e i j : (i < length ss)%nat -> (j < length sy)%nat -> is_double (f_ix ss sy e i j) /\ 0 <= f_ix ss sy e i j.
Proof. intros I J. destruct Ae as (_ & D & _). destruct (D (nth i ss 0%nat) (nth j sy 0%nat)) as [X Y]; [apply Is, nth_In, I|apply Iy, nth_In, J|]. split; [exact X|]. unfold f_ix. lra. Qed.
Lemma p_def : f_restrict_p sm n ss p = f_shares sm (length ss) (f_ix ss ss p).
Proof. clear Ly. unfold f_restrict_p. rewrite (proj2 (Nat.ltb_lt _ _)) by lia. reflexivity. Qed.
Lemma e_def : f_restrict_e sm n ss sy e = f_shares sm (length sy) (f_ix ss sy e).
Proof. clear Ly. unfold f_restrict_e. rewrite (proj2 (Nat.ltb_lt (length ss) n)) by lia. reflexivity. Qed.
Lemma ls_le : INR (length ss) <= 1000000000.
Proof. clear Ly. assert (H : (length ss <= n)%nat) by lia. apply le_INR in H. lra. Qed.
Lemma ly_le : INR (length sy) <= 1000000000.
Proof. clear Ls. assert (H : (length sy <= k)%nat) by lia. apply le_INR in H. lra. Qed.
Theorem restrict_accepted sm' : summing sm' ->
  f_accepts sm' (length ss) (f_restrict_p sm n ss p) /\ f_accepts_emission sm' (length ss) (length sy) (f_restrict_e sm n ss sy e).
Proof.
  intros S'. rewrite p_def, e_def. split.
  - apply shares_accepted; [exact S1|exact S'|lia|exact ls_le|exact ix_p].
  - apply shares_emission; [exact S1|exact S'|lia|exact ly_le|exact ix_e].
Qed.
Theorem restrict_p_near i j x : (i < length ss)%nat -> (j < length ss)%nat ->
  is_share (length ss) (fun l => p (nth i ss 0%nat) (nth l ss 0%nat)) j x ->
  Rabs (f_restrict_p sm n ss p i j - x) <= 4 * INR (length ss) * uu * x + tiny.
Proof. intros I J H. rewrite p_def. apply shares_accurate; [exact S1|exact ls_le|intros l L; apply ix_p; assumption|exact J|exact H]. Qed.
End Restrict.

Theorem restrict_e_near sm0 sm n k e ss sy : summing sm -> INR k <= 1000000000 -> f_accepts_emission sm0 n k e ->
  (length ss < n \/ length sy < n)%nat -> (2 <= length sy <= k)%nat -> (forall i, In i ss -> (i < n)%nat) -> (forall i, In i sy -> (i < k)%nat) ->
  (forall i j x, (i < length ss)%nat -> (j < length sy)%nat ->
    is_share (length sy) (fun l => e (nth i ss 0%nat) (nth l sy 0%nat)) j x ->
    Rabs (f_restrict_e sm n ss sy e i j - x) <= 4 * INR (length sy) * uu * x + tiny) /\
  forall sm', summing sm' -> f_accepts_emission sm' (length ss) (length sy) (f_restrict_e sm n ss sy e).
Proof.
  intros S1 Bk Ae L Ly Is Iy.
  assert (E : f_restrict_e sm n ss sy e = f_shares sm (length sy) (f_ix ss sy e)).
  { unfold f_restrict_e. destruct (Nat.ltb_spec (length ss) n); [reflexivity|]. destruct (Nat.ltb_spec (length sy) n); [reflexivity|lia]. }
  assert (D : forall i j, (i < length ss)%nat -> (j < length sy)%nat -> is_double (f_ix ss sy e i j) /\ 0 <= f_ix ss sy e i j).
  { intros i j I J. destruct Ae as (_ & D & _). destruct (D (nth i ss 0%nat) (nth j sy 0%nat)) as [X Y]; [apply Is, nth_In, I|apply Iy, nth_In, J|]. split; [exact X|]. unfold f_ix. lra. }
  assert (B : INR (length sy) <= 1000000000) by (assert (H : (length sy <= k)%nat) by lia; apply le_INR in H; lra).
  rewrite E. split.
  - intros i j x I J H. apply shares_accurate; [exact S1|exact B|intros l Q; apply D; assumption|exact J|exact H].
  - intros sm' S'. apply shares_emission; [exact S1|exact S'|lia|exact B|exact D].
Qed.
Theorem restrict_all sm sm' n ss p : (n <= length ss)%nat -> f_accepts sm' n p -> f_accepts sm' n (f_restrict_p sm n ss p) /\ forall i j, f_restrict_p sm n ss p i j = p i j.
Proof. intros L A. unfold f_restrict_p. destruct (Nat.ltb_spec (length ss) n); [lia|]. split; [exact A|reflexivity]. Qed.
