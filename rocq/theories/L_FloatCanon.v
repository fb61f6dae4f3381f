(** L_FloatCanon: the canonical form in doubles. *)
From Coq Require Import Reals Lra Lia List ZArith Bool Permutation.
From Flocq Require Import Core.
From Verif Require Import Fl M_Float S_Float L_Float1 L_Float2 L_Float3 L_FloatRed L_FloatMoran M_FloatUrn L_FloatUrn M_FloatCanon S_FloatCanon.
Import ListNotations.
Local Open Scope R_scope.

Lemma map_nth_seq (f : nat -> R) l : map (fun j => f (nth j l 0%nat)) (seq 0 (length l)) = map f l.
Proof.
  induction l as [|a l IH]; [reflexivity|]. simpl. f_equal. rewrite <- seq_shift, map_map. exact IH.
Qed.
Lemma rsumn_reorder n idx f : Permutation idx (seq 0 n) -> rsumn n (fun j => f (nth j idx 0%nat)) = rsumn n f.
Proof.
  intros P. unfold rsumn. pose proof (Permutation_length P) as L. rewrite seq_length in L. rewrite <- L at 1. rewrite map_nth_seq.
  apply rsum_perm, Permutation_map, P.
Qed.
Lemma idx_lt n idx i : Permutation idx (seq 0 n) -> (i < n)%nat -> (nth i idx 0 < n)%nat.
Proof.
  intros P I. pose proof (Permutation_length P) as L. rewrite seq_length in L.
  assert (K : In (nth i idx 0%nat) (seq 0 n)) by (apply (Permutation_in _ P), nth_In; lia). apply in_seq in K. lia.
Qed.
(** the transient states are not in front, so a rearrangement happens; sorted lists that are in front are an initial segment *)
Lemma front tr rc n : Permutation (tr ++ rc) (seq 0 n) -> f_sorted tr rc = true -> forall t, In t tr -> forall r, In r rc -> (t < r)%nat.
Proof.
  intros _ S t T r R. unfold f_sorted in S. rewrite forallb_forall in S. specialize (S t T). rewrite forallb_forall in S.
  apply Nat.ltb_lt, S, R.
Qed.

Theorem canonical_reordered tr rc n p : Permutation (tr ++ rc) (seq 0 n) -> exists pos, reordered n pos p (f_canonical tr rc p).
Proof.
  intros P. unfold f_canonical. destruct (f_sorted tr rc).
  - exists (fun i => i). split; [auto|]. split; auto.
  - exists (fun i => nth i (tr ++ rc) 0%nat). split; [intros; apply idx_lt; assumption|]. split; [|reflexivity].
    intros i j I J E. pose proof (Permutation_length P) as L. rewrite seq_length in L.
    apply (proj1 (NoDup_nth (tr ++ rc) 0%nat)); [|lia|lia|exact E].
    apply (Permutation_NoDup (Permutation_sym P)), seq_NoDup.
Qed.
Lemma nodup_l (l m : list nat) : NoDup (l ++ m) -> NoDup l.
Proof.
  induction l as [|a l IH]; intros H; [constructor|]. simpl in H. inversion H as [|? ? A B]; subst.
  constructor; [intros X; apply A, in_or_app; left; exact X|apply IH, B].
Qed.
(** which old states are in front *)
Lemma in_front tr rc n i : Permutation (tr ++ rc) (seq 0 n) -> f_sorted tr rc = true -> (i < n)%nat -> (In i tr <-> (i < length tr)%nat).
Proof.
  intros P So I. pose proof (front tr rc n P So) as F.
  assert (ND : NoDup (tr ++ rc)) by (apply (Permutation_NoDup (Permutation_sym P)), seq_NoDup).
  assert (NT : NoDup tr) by (apply nodup_l with (m := rc), ND).
  assert (ALL : forall k, (k < n)%nat -> In k tr \/ In k rc).
  { intros k K. apply in_app_or, (Permutation_in _ (Permutation_sym P)), in_seq. lia. }
  assert (LT : forall k, In k tr -> (k < n)%nat).
  { intros k K. assert (Q : In k (seq 0 n)) by (apply (Permutation_in _ P), in_or_app; left; exact K). apply in_seq in Q. lia. }
  split.
  - intros T. assert (Q : incl (seq 0 (S i)) tr).
    { intros k K. apply in_seq in K. destruct (ALL k ltac:(lia)) as [X|X]; [exact X|]. specialize (F i T k X). lia. }
    apply (NoDup_incl_length (seq_NoDup (S i) 0)) in Q. rewrite seq_length in Q. lia.
  - intros L. destruct (ALL i I) as [X|X]; [exact X|].
    assert (Q : incl tr (seq 0 i)).
    { intros k K. apply in_seq. specialize (F k K i X). lia. }
    apply (NoDup_incl_length NT) in Q. rewrite seq_length in Q. lia.
Qed.
Theorem canonical_blocks tr rc n p : Permutation (tr ++ rc) (seq 0 n) -> (forall r t, In r rc -> In t tr -> p r t = 0) ->
  blocks n (length tr) (f_canonical tr rc p).
Proof.
  intros P Z i j [I1 I2] J. unfold f_canonical. pose proof (Permutation_length P) as L. rewrite seq_length, app_length in L.
  destruct (f_sorted tr rc) eqn:S.
  - apply Z.
    + assert (K : In i (tr ++ rc)) by (apply (Permutation_in _ (Permutation_sym P)), in_seq; lia). apply in_app_or in K. destruct K as [K|K]; [|exact K].
      apply (in_front tr rc n i P S I2) in K. lia.
    + apply (in_front tr rc n j P S); lia.
  - apply Z; [rewrite app_nth2 by lia; apply nth_In; lia|rewrite app_nth1 by lia; apply nth_In; lia].
Qed.

(** rows that are not at the edge of the tolerance *)
Lemma row_close9 sm n f : summing sm -> INR n <= 1000000000 -> (forall j, (j < n)%nat -> is_double (f j) /\ 0 <= f j <= 1) ->
  Rabs (rsumn n f - 1) <= 9 / 1000000 -> f_close1 (sm (frow n f)).
Proof.
  intros S Nn D T. destruct (row_bounds sm n f S) as [[F _] [L U]].
  { intros j J. destruct (D j J) as [A B]. split; [exact A|lra]. }
  apply close_in; [exact F|]. set (x := sm _) in *. set (t := rsumn n f) in *. clearbody x t.
  pose proof uu_val as UV. pose proof uu_pos as UP. pose proof (pos_INR n) as Np. apply Rabs_le_inv in T.
  assert (K : 0 <= INR n * uu <= 12 / 100000000).
  { split; [apply Rmult_le_pos; lra|]. apply Rle_trans with (1000000000 * uu); [apply Rmult_le_compat_r; lra|rewrite UV; lra]. }
  pose proof (lo_ge n) as LG. pose proof (hi_le n ltac:(lra)) as HL.
  assert (lo n * t >= (1 - 12 / 100000000) * t) by (apply Rle_ge, Rmult_le_compat_r; lra).
  assert (hi n * t <= (1 + 24 / 100000000) * t) by (apply Rmult_le_compat_r; lra).
  apply Rabs_le. lra.
Qed.
Theorem canonical_accepted sm sm' n tr rc p : summing sm -> summing sm' -> INR n <= 1000000000 -> Permutation (tr ++ rc) (seq 0 n) -> f_accepts sm n p ->
  (forall i, (i < n)%nat -> Rabs (rsumn n (p i) - 1) <= 9 / 1000000) -> f_accepts sm' n (f_canonical tr rc p).
Proof.
  intros S S' B P (N & D & _) T. unfold f_canonical. destruct (f_sorted tr rc).
  - split; [exact N|]. split; [exact D|]. intros i I. apply row_close9; auto.
  - split; [exact N|]. split; [intros i j I J; apply D; apply idx_lt; assumption|].
    intros i I. pose proof (idx_lt n _ i P I) as I'.
    apply (row_close9 sm' n (fun j => p (nth i (tr ++ rc) 0%nat) (nth j (tr ++ rc) 0%nat)) S' B).
    + intros j J. apply D; [exact I'|apply idx_lt; assumption].
    + rewrite (rsumn_reorder n (tr ++ rc) (p (nth i (tr ++ rc) 0%nat)) P). apply T, I'.
Qed.

(** a row at the edge *)
Definition edge : fmat := fun i j =>
  match i, j with
  | 1%nat, 0%nat => 1
  | 1%nat, 1%nat => 180324129077 / 18014398509481984
  | 1%nat, 2%nat => 3 / 36028797018963968
  | _, 0%nat => 1
  | _, _ => 0
  end.
Lemma tolerance : rnd (rnd (1 / 100000000) + rnd (rnd (1 / 100000) * 1)) = 5908861061690644 / 590295810358705651712.
Proof.
  rewrite (rnd_eval (1 / 100000000) 6044629098073146 (-79)); [|lia|simpl; lra|apply Rabs_def1; simpl; lra].
  rewrite Rmult_1_r. rewrite (rnd_id (rnd (1 / 100000))) by apply is_double_rnd.
  rewrite (rnd_eval (1 / 100000) 5902958103587057 (-69)); [|lia|simpl; lra|apply Rabs_def1; simpl; lra].
  rewrite (rnd_eval _ 5908861061690644 (-69)); [simpl; lra|lia|simpl; lra|apply Rabs_def1; simpl; lra].
Qed.
Lemma dy (m : Z) (e : Z) x : (Z.abs m < 2 ^ 53)%Z -> (-1074 <= e)%Z -> x = IZR m * bpow radix2 e -> is_double x.
Proof.
  intros M E ->. apply generic_format_FLT. apply (FLT_spec radix2 (-1074) 53 _ (Float radix2 m e)); [reflexivity|exact M|exact E].
Qed.
Lemma edge_kept : seq_sum [1; 180324129077 / 18014398509481984; 3 / 36028797018963968] = 1 + 45081032269 / 4503599627370496.
Proof.
  unfold seq_sum. cbn [fold_left]. rewrite Rplus_0_l, rnd_1.
  rewrite (rnd_eval (1 + 180324129077 / 18014398509481984) 4503644708402765 (-52)); [|lia|simpl; lra|apply Rabs_def1; simpl; lra].
  rewrite (rnd_eval _ 4503644708402765 (-52)); [simpl; lra|lia|simpl; lra|apply Rabs_def1; simpl; lra].
Qed.
Lemma edge_moved : seq_sum [180324129077 / 18014398509481984; 3 / 36028797018963968; 1] = 1 + 45081032270 / 4503599627370496.
Proof.
  unfold seq_sum. cbn [fold_left]. rewrite Rplus_0_l.
  rewrite (rnd_id (180324129077 / 18014398509481984)) by (apply (dy 180324129077 (-54)); [reflexivity|lia|simpl; lra]).
  rewrite (rnd_id (180324129077 / 18014398509481984 + 3 / 36028797018963968)) by (apply (dy 360648258157 (-55)); [reflexivity|lia|simpl; lra]).
  rewrite (rnd_eval _ 4503644708402766 (-52)); [simpl; lra|lia|simpl; lra|apply Rabs_def1; simpl; lra].
Qed.
Lemma unit_close : f_close1 (seq_sum [1; 0; 0]).
Proof.
  unfold seq_sum. cbn [fold_left]. rewrite Rplus_0_l, !Rplus_0_r, !rnd_1. apply close_in; [apply is_double_1|].
  replace (1 - 1) with 0 by ring. rewrite Rabs_R0. lra.
Qed.
Lemma edge_accepted : f_accepts seq_sum 3 edge.
Proof.
  split; [lia|]. split.
  - intros i j I J. destruct i as [|[|[|i]]]; [| | |lia]; (destruct j as [|[|[|j]]]; [| | |lia]); cbn [edge];
      (split; [|lra]); try exact is_double_1; try exact is_double_0.
    + apply (dy 180324129077 (-54)); [reflexivity|lia|simpl; lra].
    + apply (dy 3 (-55)); [reflexivity|lia|simpl; lra].
  - intros i I. destruct i as [|[|[|i]]]; [| | |lia].
    + exact unit_close.
    + change (frow 3 (edge 1%nat)) with [1; 180324129077 / 18014398509481984; 3 / 36028797018963968]. rewrite edge_kept.
      unfold f_close1. rewrite tolerance. replace (1 + 45081032269 / 4503599627370496 - 1) with (45081032269 / 4503599627370496) by ring.
      rewrite rnd_id by (apply (dy 45081032269 (-52)); [reflexivity|lia|simpl; lra]). rewrite Rabs_pos_eq; lra.
    + exact unit_close.
Qed.
Theorem canonical_rejected : f_accepts seq_sum 3 edge /\ Permutation ([1; 2] ++ [0])%nat (seq 0 3) /\
  (forall r t, In r [0%nat] -> In t [1; 2]%nat -> edge r t = 0) /\ 0 < edge 1%nat 0%nat /\ 0 < edge 2%nat 0%nat /\
  ~ f_accepts seq_sum 3 (f_canonical [1; 2]%nat [0%nat] edge).
Proof.
  split; [exact edge_accepted|]. split.
  { apply (Permutation_sym (Permutation_cons_append [1; 2]%nat 0%nat)). }
  split. { intros r t [<-|[]] [<-|[<-|[]]]; reflexivity. }
  split; [cbn [edge]; lra|]. split; [cbn [edge]; lra|].
  intros (_ & _ & C). specialize (C 0%nat ltac:(lia)).
  change (frow 3 (f_canonical [1; 2]%nat [0%nat] edge 0%nat)) with [180324129077 / 18014398509481984; 3 / 36028797018963968; 1] in C.
  rewrite edge_moved in C. unfold f_close1 in C. rewrite tolerance in C.
  replace (1 + 45081032270 / 4503599627370496 - 1) with (45081032270 / 4503599627370496) in C by ring.
  rewrite rnd_id in C by (apply (dy 45081032270 (-52)); [reflexivity|lia|simpl; lra]). rewrite Rabs_pos_eq in C; lra.
Qed.
