(** L_FloatReg: regularity computed with doubles against regularity of the chain. *)
From Coq Require Import Reals Lra Lia List ZArith.
From Flocq Require Import Core.
From Verif Require Import L_Struct3 L_Simulation L_Entropy.
From Verif Require Import Fl M_Float S_Float L_Float3.
Import ListNotations.
Open Scope nat_scope.

Lemma rsumn_lsumR n (f : nat -> R) : rsumn n f = lsumR (map f (seq 0 n)).
Proof. unfold rsumn. induction (map f (seq 0 n)) as [|a l IH]; cbn; [reflexivity|]. now rewrite IH. Qed.
Lemma steps_kstep n P (p : nat -> nat -> R) : (forall i j, i < n -> j < n -> p i j = Qc2R (mget P i j)) -> forall k i j, i < n -> j < n -> steps n p k i j = Qc2R (kstep n P k i j).
Proof.
  intros H. induction k as [|k IH]; intros i j Hi Hj.
  - cbn [steps]. rewrite L_Gen3.kstep_0. unfold delta. destruct (Nat.eqb i j); [symmetry; apply Qc2R_1|symmetry; apply Qc2R_0].
  - cbn [steps]. rewrite L_Gen3.kstep_S, Qc2R_sumn, rsumn_lsumR. f_equal. apply map_ext_in. intros l Hl. apply in_seq in Hl. rewrite H, IH by lia. now rewrite Qc2R_mul.
Qed.
Lemma pow_big n : 2 <= n -> 2 * n <= Nat.pow n n.
Proof.
  intros H. assert (A : n * n <= Nat.pow n n). { replace (n * n) with (Nat.pow n 2) by (cbn; lia). apply Nat.pow_le_mono_r; lia. } nia.
Qed.
Lemma diag_le P n : nrows P = n -> M_Struct.count_nonzero_diag P <= n.
Proof.
  intros E. unfold M_Struct.count_nonzero_diag. rewrite E.
  assert (G : forall (f : nat -> bool) l, length (filter f l) <= length l) by (intros f l; induction l as [|a l IH]; cbn; [lia|]; destruct (f a); cbn; lia).
  rewrite <- (seq_length n 0) at 2. apply G.
Qed.
Lemma exponents n P : 2 <= n -> nrows P = n -> M_Float.regular_exponent n (M_Struct.count_nonzero_diag P) = Z.of_nat (M_Struct.regular_exponent P) /\ 0 < M_Struct.regular_exponent P.
Proof.
  intros Hn E. pose proof (diag_le P n E) as D. unfold M_Float.regular_exponent, M_Struct.regular_exponent. rewrite E. pose proof (pow_big n Hn) as B.
  destruct (Nat.ltb_spec 0 (M_Struct.count_nonzero_diag P)); [lia|]. rewrite <- Nat2Z.inj_pow. lia.
Qed.
(** When no power of the smallest positive entry can underflow, the answer is the right one. *)
Lemma regular_right dt n P p (e : nat) : 2 <= n -> stochastic n P -> (forall i j, i < n -> j < n -> p i j = Qc2R (mget P i j)) -> dotting dt ->
  (forall i j, i < n -> j < n -> (0 < p i j)%R -> (bpow radix2 (- Z.of_nat e) <= p i j)%R) ->
  (e * M_Struct.regular_exponent P <= 1074) ->
  (f_is_regular dt n (M_Struct.count_nonzero_diag P) p <-> regular n P).
Proof.
  intros Hn St H D G K. pose proof St as (W & Pos & _). destruct (exponents n P Hn (wf_nrows n n P W)) as [E E0].
  rewrite (regular_exact dt n _ p e D).
  - rewrite E, Nat2Z.id, <- (is_regular_spec n P Hn St), (is_regular_full n P) by (try lia; assumption). split.
    + intros A i j Hi Hj. apply (kstep_walk n P _ Pos i j Hi Hj). apply Qc2R_lt_inv. rewrite Qc2R_0, <- (steps_kstep n P p H) by assumption. now apply A.
    + intros A i j Hi Hj. rewrite (steps_kstep n P p H) by assumption. apply Qc2R_pos. apply (kstep_walk n P _ Pos i j Hi Hj). now apply A.
  - intros i j Hi Hj. rewrite H by assumption. apply Qc2R_nonneg, Pos; assumption.
  - exact G.
  - rewrite E. lia.
  - rewrite E. rewrite <- Nat2Z.inj_mul. lia.
Qed.
Definition pReg : mat := qm [[1 # 2; 1 # 2]; [1 # 4; 3 # 4]]%Q.
Lemma quarter_bpow : bpow radix2 (- Z.of_nat 2) = (/ 4)%R.
Proof. reflexivity. Qed.
Lemma pReg_ok : stochastic 2 pReg /\ (forall i j, i < 2 -> j < 2 -> (0 < Qc2R (mget pReg i j))%R -> (bpow radix2 (- Z.of_nat 2) <= Qc2R (mget pReg i j))%R) /\ 2 * M_Struct.regular_exponent pReg <= 1074.
Proof.
  split; [apply Dec.stochasticb_ok; vm_compute; reflexivity|]. split; [|apply Nat.leb_le; vm_compute; reflexivity].
  intros i j Hi Hj _. rewrite quarter_bpow.
  assert (Q : (Q2Qc (1 # 4) <= mget pReg i j)%Qc) by (destruct i as [|[|i]]; [| |lia]; (destruct j as [|[|j]]; [| |lia]); apply Qcleb_le; vm_compute; reflexivity).
  apply Qc2R_le in Q. assert (E4 : Qc2R (Q2Qc (1 # 4)) = (/ 4)%R) by (unfold Qc2R; replace (this (Q2Qc (1 # 4))) with (1 # 4)%Q by reflexivity; unfold Q2R; apply Rmult_1_l). rewrite E4 in Q. exact Q.
Qed.
