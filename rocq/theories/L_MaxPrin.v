(** L_MaxPrin: a maximum principle for substochastic matrices with a boundary, and
    the linear systems of the absorption, committor and passage time measures. *)
From Verif Require Export L_Measures2.
Open Scope res_scope.

Lemma argmin_exists n (f : nat -> Qc) : 0 < n -> exists k, k < n /\ forall i, i < n -> (f k <= f i)%Qc.
Proof.
  intros H. destruct (argmax_exists n (fun i => - f i)%Qc H) as (k & Hk & M). exists k. split; [exact Hk|].
  intros i Hi. specialize (M i Hi). cbv beta in M. qclra.
Qed.

Section MAXP.
Variables (n : nat) (P : nat -> nat -> Qc) (inn : nat -> bool).
Hypothesis Pos : forall i j, i < n -> j < n -> (0 <= P i j)%Qc.
Hypothesis Sub : forall i, i < n -> (sumn n (P i) <= 1)%Qc.
Hypothesis Out : forall i, i < n -> exists b, inn b = false /\ reach n (fun i j => (0 < P i j)%Qc) i b.

Lemma maxp (x : nat -> Qc) : (forall i, i < n -> inn i = false -> (0 <= x i)%Qc) ->
  (forall i, i < n -> inn i = true -> (sumn n (fun j => P i j * x j) <= x i)%Qc) ->
  forall i, i < n -> (0 <= x i)%Qc.
Proof.
  intros Bd Super i Hi. destruct (argmin_exists n x ltac:(lia)) as (m & Hm & Min).
  apply Qcle_trans with (x m); [|apply Min; exact Hi].
  destruct (Qclt_le_dec (x m) 0q) as [Neg|]; [exfalso|assumption].
  assert (Prop1 : forall k a b, walk n (fun i j => (0 < P i j)%Qc) k a b -> x a = x m -> x b = x m).
  { intros k a b W. induction W as [a Ha|k a c b Ha Hc He W IH]; intros Ea; [exact Ea|]. apply IH.
    assert (Ia : inn a = true).
    { destruct (inn a) eqn:E; [reflexivity|]. specialize (Bd a Ha E). rewrite Ea in Bd. exfalso. qclra. }
    pose proof (Super a Ha Ia) as S1. rewrite Ea in S1.
    pose proof (Min c Hc) as Mc. destruct (Qcle_lt_or_eq _ _ Mc) as [Lt|E]; [exfalso|symmetry; exact E].
    assert (S2 : (sumn n (fun j => P a j * x m) < sumn n (fun j => P a j * x j))%Qc).
    { apply (sumn_lt n _ _ c Hc).
      - pose proof (Qc_mul_pos (P a c) (x c - x m)%Qc He ltac:(qclra)). qcnra.
      - intros j Hj. pose proof (Qc_mul_nonneg (P a j) (x j - x m)%Qc (Pos a j Ha Hj) ltac:(pose proof (Min j Hj); qclra)). qcnra. }
    rewrite sumn_mul_r in S2. pose proof (Sub a Ha) as Sa. change (sumn n (fun j => P a j)) with (sumn n (P a)) in S2.
    pose proof (Qc_mul_nonneg (1 - sumn n (P a))%Qc (- x m)%Qc ltac:(qclra) ltac:(qclra)) as S3.
    replace ((1 - sumn n (P a)) * (- x m))%Qc with (sumn n (P a) * x m - x m)%Qc in S3 by ring. qclra. }
  destruct (Out m Hm) as (b & Hb & k & W). pose proof (walk_bounds _ _ _ _ _ W) as [_ Hbn].
  specialize (Bd b Hbn Hb). rewrite (Prop1 k m b W eq_refl) in Bd. qclra.
Qed.
Lemma maxp_zero (x : nat -> Qc) : (forall i, i < n -> inn i = false -> x i = 0q) ->
  (forall i, i < n -> inn i = true -> sumn n (fun j => P i j * x j)%Qc = x i) ->
  forall i, i < n -> x i = 0q.
Proof.
  intros Bd Harm i Hi.
  pose proof (maxp x ltac:(intros k Hk E; rewrite (Bd k Hk E); apply Qcle_refl) ltac:(intros k Hk E; rewrite (Harm k Hk E); apply Qcle_refl) i Hi) as H1.
  pose proof (maxp (fun i => - x i)%Qc) as H2.
  specialize (H2 ltac:(intros k Hk E; cbv beta; rewrite (Bd k Hk E); discriminate)).
  specialize (H2 ltac:(intros k Hk E; cbv beta; rewrite (sumn_ext n _ (fun j => (-(1)) * (P k j * x j))%Qc) by (intros; ring); rewrite sumn_mul_l, (Harm k Hk E); qclra) i Hi).
  cbv beta in H2. qclra.
Qed.
End MAXP.

(** Rows of the form delta on the boundary and delta - P inside: nonsingular *)
Lemma boundary_nonsingular n (P : nat -> nat -> Qc) inn A : 0 < n ->
  (forall i j, i < n -> j < n -> (0 <= P i j)%Qc) -> (forall i, i < n -> (sumn n (P i) <= 1)%Qc) ->
  (forall i, i < n -> exists b, inn b = false /\ reach n (fun i j => (0 < P i j)%Qc) i b) ->
  (forall i, i < n -> exists c, c <> 0q /\ forall j, j < n -> mget A i j = (c * (delta i j - (if inn i then P i j else 0)))%Qc) -> nonsingular n A.
Proof.
  intros Hn Pos Sub Out HA z Hz j Hj. apply (maxp_zero n P inn Pos Sub Out z); [| |exact Hj]; intros i Hi E;
    destruct (HA i Hi) as (c & Hc & HA'); specialize (Hz i Hi);
    rewrite (sumn_ext n _ (fun j => c * (delta i j * z j - (if inn i then P i j else 0) * z j))%Qc) in Hz by (intros; rewrite HA' by assumption; ring);
    rewrite sumn_mul_l in Hz; destruct (Qc_integral _ _ Hz) as [|Hz']; try contradiction;
    rewrite sumn_minus, sumn_delta_l in Hz' by exact Hi; rewrite E in Hz'.
  - rewrite (sumn_0 n (fun j => 0 * z j)%Qc) in Hz' by (intros; ring). qclra.
  - qclra.
Qed.

(** A block of states from which the outside can be reached *)
Section BLOCK.
Variables (n : nat) (P : mat) (T : list nat).
Hypothesis St : stochastic n P.
Hypothesis ND : NoDup T.
Hypothesis Lt : forall x, In x T -> x < n.
Hypothesis Out : forall i, In i T -> exists b, ~ In b T /\ reach n (edge P) i b.
Let k := length T.
Definition ext (x : nat -> Qc) (i : nat) : Qc := match index_of Nat.eqb i T with Some a => x a | None => 0q end.
Lemma ext_nth x a : a < k -> ext x (nth a T 0) = x a.
Proof. intros H. unfold ext. rewrite index_of_nat_nth by assumption. reflexivity. Qed.
Lemma ext_out x i : ~ In i T -> ext x i = 0q.
Proof. intros H. unfold ext. apply (index_of_None Nat.eqb Nat_eqb_iff) in H. rewrite H. reflexivity. Qed.
Lemma ext_sum x i : sumn n (fun j => mget P i j * ext x j)%Qc = sumn k (fun b => mget P i (nth b T 0%nat) * x b)%Qc.
Proof.
  rewrite <- (sumn_block n T (fun j => mget P i j * ext x j)%Qc ND Lt).
  - apply sumn_ext. intros b Hb. rewrite ext_nth by exact Hb. reflexivity.
  - intros j _ Hj. rewrite ext_out by exact Hj. ring.
Qed.
Lemma block_out : forall i, i < n -> exists b, memn b T = false /\ reach n (fun i j => (0 < mget P i j)%Qc) i b.
Proof.
  intros i Hi. destruct (memn i T) eqn:E.
  - apply memn_In in E. destruct (Out i E) as (b & Hb & R). exists b. split; [apply memn_false; exact Hb|exact R].
  - exists i. split; [exact E|apply reach_refl; exact Hi].
Qed.
Lemma block_nonneg x : (forall a, a < k -> (sumn k (fun b => mget P (nth a T 0%nat) (nth b T 0%nat) * x b) <= x a)%Qc) -> forall a, a < k -> (0 <= x a)%Qc.
Proof.
  intros H a Ha. rewrite <- (ext_nth x a Ha).
  apply (maxp n (mget P) (fun i => memn i T)).
  - apply St.
  - intros i Hi. rewrite (st_row n P i St Hi). apply Qcle_refl.
  - exact block_out.
  - intros i _ E. apply memn_false in E. rewrite ext_out by exact E. apply Qcle_refl.
  - intros i _ E. apply memn_In in E. destruct (index_of_nat_in i T E) as (b & _ & Hb & <-). rewrite ext_sum, ext_nth by exact Hb. apply H; exact Hb.
  - apply Lt, nth_In, Ha.
Qed.
Lemma block_zero x : (forall a, a < k -> sumn k (fun b => mget P (nth a T 0%nat) (nth b T 0%nat) * x b)%Qc = x a) -> forall a, a < k -> x a = 0q.
Proof.
  intros H a Ha. pose proof (block_nonneg x ltac:(intros b Hb; rewrite (H b Hb); apply Qcle_refl) a Ha) as H1.
  pose proof (block_nonneg (fun b => - x b)%Qc) as H2. cbv beta in H2.
  specialize (H2 ltac:(intros b Hb; rewrite (sumn_ext k _ (fun c => (-(1)) * (mget P (nth b T 0%nat) (nth c T 0%nat) * x c))%Qc) by (intros; ring); rewrite sumn_mul_l, (H b Hb); qclra) a Ha).
  qclra.
Qed.
Definition imq : mat := msub (eye k) (mix P T T).
Lemma imq_wf : 0 < k -> wf k k imq.
Proof. intros H. apply wf_msub; [exact H|apply wf_eye]. Qed.
Lemma imq_get a b : a < k -> b < k -> mget imq a b = (delta a b - mget P (nth a T 0%nat) (nth b T 0%nat))%Qc.
Proof. intros Ha Hb. unfold imq. rewrite (mget_msub k k) by (auto; apply wf_eye). rewrite mget_eye, mget_mix by assumption. reflexivity. Qed.
Lemma imq_row x a : a < k -> sumn k (fun b => mget imq a b * x b)%Qc = (x a - sumn k (fun b => mget P (nth a T 0%nat) (nth b T 0%nat) * x b))%Qc.
Proof.
  intros Ha. rewrite (sumn_ext k _ (fun b => delta a b * x b - mget P (nth a T 0%nat) (nth b T 0%nat) * x b)%Qc).
  - rewrite sumn_minus, sumn_delta_l by exact Ha. reflexivity.
  - intros b Hb. rewrite imq_get by assumption. ring.
Qed.
Lemma imq_nonsingular : nonsingular k imq.
Proof.
  intros z Hz. apply (block_zero z). intros a Ha. specialize (Hz a Ha). rewrite imq_row in Hz by exact Ha. qclra.
Qed.
Lemma imq_inv : 0 < k -> exists N, minv imq = Some N /\ wf k k N /\
  (forall a b, a < k -> b < k -> mget N a b = (delta a b + sumn k (fun c => mget P (nth a T 0%nat) (nth c T 0%nat) * mget N c b))%Qc) /\
  (forall a b, a < k -> b < k -> (0 <= mget N a b)%Qc).
Proof.
  intros H0. destruct (minv_complete k imq H0 (imq_wf H0) imq_nonsingular) as (N & E). exists N. split; [exact E|].
  destruct (minv_spec k imq N H0 (imq_wf H0) E) as (WN & _ & E1 & _). split; [exact WN|].
  assert (Eq : forall a b, a < k -> b < k -> mget N a b = (delta a b + sumn k (fun c => mget P (nth a T 0%nat) (nth c T 0%nat) * mget N c b))%Qc).
  { intros a b Ha Hb. assert (G : mget (mmul imq N) a b = delta a b) by (rewrite E1; apply mget_eye; assumption).
    rewrite (mget_mmul k k k) in G by (auto using imq_wf). rewrite (imq_row (fun c => mget N c b) a Ha) in G. rewrite <- G. ring. }
  split; [exact Eq|]. intros a b Ha Hb. apply (block_nonneg (fun a => mget N a b)); [|exact Ha].
  intros c Hc. rewrite (Eq c b Hc Hb). pose proof (delta_nonneg c b). qclra.
Qed.
End BLOCK.

Lemma nth_rep {A} (x d : A) k i : i < k -> nth i (repeat x k) d = x.
Proof. revert i. induction k as [|k IH]; intros [|i] H; cbn; try lia; [reflexivity|]. apply IH. lia. Qed.

(** C49 *)
Lemma sorted_nd l : StronglySorted lt l -> NoDup l.
Proof. intros H. induction H as [|x l Hl IH Hx]; constructor; [|exact IH]. intros C. rewrite Forall_forall in Hx. specialize (Hx x C). lia. Qed.
Lemma transient_out n P comps i : wf n n P -> scc_enum n (edge P) comps -> In i (transient_states_indices P comps) ->
  exists b, ~ In b (transient_states_indices P comps) /\ reach n (edge P) i b.
Proof.
  intros W HE Hi. assert (Hin : i < n) by (apply (transient_state_in n P comps i W HE) in Hi; apply Hi).
  destruct (some_recurrent n P comps i W Hin HE) as (x & Hx & R). exists x. split; [|exact R].
  intros C. apply (transient_state_in n P comps x W HE) in C. apply (recurrent_state_in n P comps x W HE) in Hx.
  destruct C as (_ & y & Y1 & Y2). apply Y2. apply Hx; exact Y1.
Qed.
Lemma fundamental_spec n m : env_ok n m -> is_absorbing (en_p m) = Ok true ->
  let T := transient_states_indices (en_p m) (en_comps m) in T <> [] ->
  exists N, fundamental_matrix m = Ok (Some N) /\ wf (length T) (length T) N /\
  (forall a b, a < length T -> b < length T -> mget N a b = (delta a b + sumn (length T) (fun c => mget (en_p m) (nth a T 0%nat) (nth c T 0%nat) * mget N c b))%Qc) /\
  (forall a b, a < length T -> b < length T -> (0 <= mget N a b)%Qc).
Proof.
  intros (Hn & St & _ & _ & HO) HA T HT. pose proof (proj1 St) as W. destruct HO as [HE _].
  assert (H0 : 0 < length T) by (destruct T; [congruence|simpl; lia]).
  destruct (imq_inv n (en_p m) T St (sorted_nd _ (T_sorted n _ _ HE))
    ltac:(intros x Hx; apply (transient_state_in n _ _ x W HE) in Hx; apply Hx)
    ltac:(intros i Hi; apply (transient_out n _ _ i W HE Hi)) H0) as (N & E & R).
  exists N. split; [|exact R]. unfold fundamental_matrix. rewrite HA. cbn [bind negb orb]. fold T.
  destruct (Nat.eqb_spec (length T) 0); [lia|]. unfold imq in E. rewrite E. reflexivity.
Qed.
Lemma absorbing_exact n P i : stochastic n P -> gap n P -> In i (absorbing_indices P) <-> i < n /\ mget P i i = 1q.
Proof.
  intros St G. rewrite (absorbing_in n) by apply St. split.
  - intros [Hi H]. split; [exact Hi|]. destruct (G i Hi) as [E|E]; [exact E|]. rewrite isclose_one_gap in H by exact E. discriminate.
  - intros [Hi E]. split; [exact Hi|]. rewrite E. apply isclose_refl.
Qed.
Lemma absorbing_nd P : NoDup (absorbing_indices P).
Proof. apply NoDup_filter, seq_NoDup. Qed.
Lemma absorption_spec n m : env_ok n m -> gap n (en_p m) ->
  (forall i, i < n -> exists a, a < n /\ mget (en_p m) a a = 1q /\ reach n (edge (en_p m)) i a) ->
  (exists i, i < n /\ mget (en_p m) i i <> 1q) ->
  exists T A N ap t, StronglySorted lt T /\ StronglySorted lt A /\
    (forall x, In x T <-> x < n /\ mget (en_p m) x x <> 1q) /\ (forall x, In x A <-> x < n /\ mget (en_p m) x x = 1q) /\
    fundamental_matrix m = Ok (Some N) /\ absorption_probabilities m = Ok (Some ap) /\ mean_absorption_times m = Ok (Some t) /\
    wf (length T) (length T) N /\ wf (length A) (length T) ap /\ length t = length T /\
    (forall k l, k < length T -> l < length T -> (0 <= mget N k l)%Qc /\
       mget N k l = (delta k l + sumn (length T) (fun c => mget (en_p m) (nth k T 0%nat) (nth c T 0%nat) * mget N c l))%Qc) /\
    (forall a k, a < length A -> k < length T -> (0 <= mget ap a k)%Qc /\
       mget ap a k = (mget (en_p m) (nth k T 0%nat) (nth a A 0%nat) + sumn (length T) (fun l => mget (en_p m) (nth k T 0%nat) (nth l T 0%nat) * mget ap a l))%Qc) /\
    (forall k, k < length T -> sumn (length A) (fun a => mget ap a k) = 1q) /\
    (forall k, k < length T -> (1 <= vget t k)%Qc /\
       vget t k = (1 + sumn (length T) (fun l => mget (en_p m) (nth k T 0%nat) (nth l T 0%nat) * vget t l))%Qc).
Proof.
  intros HEnv G HAb (i0 & Hi0 & Ni0). pose proof HEnv as (Hn & St & _ & _ & HO). pose proof (proj1 St) as W. pose proof (proj1 HO) as HE.
  set (P := en_p m) in *. set (T := transient_states_indices P (en_comps m)). set (A := absorbing_indices P).
  assert (HA : is_absorbing P = Ok true).
  { destruct (absorbing_exact_spec n P ltac:(lia) St G) as (b & Eb & Hb). rewrite Eb. f_equal. apply Hb. exact HAb. }
  assert (InA : forall x, In x A <-> x < n /\ mget P x x = 1q) by (intros; apply absorbing_exact; assumption).
  assert (InT : forall x, In x T <-> x < n /\ mget P x x <> 1q).
  { intros x. unfold T. rewrite (transient_state_in n) by assumption. split; intros [Hx H]; split; auto.
    - intros E. destruct H as (y & R1 & R2). apply R2.
      destruct (Nat.eq_dec x y) as [<-|Ne]; [exact R1|]. exfalso.
      destruct (reach_out _ _ _ _ R1 Ne) as (k & Hk & Nk & He). unfold edge in He. rewrite (row_one n P x St Hx E k Hk Nk) in He. apply (Qclt_irr 0q He).
    - destruct (HAb x Hx) as (a & Ha & Ea & R). exists a. split; [exact R|]. intros R'.
      destruct (Nat.eq_dec a x) as [->|Ne]; [contradiction|].
      destruct (reach_out _ _ _ _ R' Ne) as (k & Hk & Nk & He). unfold edge in He. rewrite (row_one n P a St Ha Ea k Hk Nk) in He. apply (Qclt_irr 0q He). }
  assert (ST : StronglySorted lt T) by apply (T_sorted n P _ HE).
  assert (NT := sorted_nd _ ST).
  assert (LT : forall x, In x T -> x < n) by (intros x Hx; apply InT in Hx; apply Hx).
  assert (LA : forall x, In x A -> x < n) by (intros x Hx; apply InA in Hx; apply Hx).
  assert (OT : forall i, In i T -> exists b, ~ In b T /\ reach n (edge P) i b) by (intros i Hi; apply (transient_out n _ _ i W HE Hi)).
  assert (T0 : T <> []). { intros E. assert (C : In i0 T) by (apply InT; auto). rewrite E in C. destruct C. }
  assert (H0 : 0 < length T) by (destruct T; [congruence|simpl; lia]).
  assert (SA : StronglySorted lt A).
  { apply sorted_lt; [apply absorbing_nd|]. unfold A, absorbing_indices. rewrite (wf_nrows _ _ _ W). apply StronglySorted_Sorted.
    clear. generalize 0. induction n as [|k IH]; intros s; [constructor|]. cbn [seq filter]. destruct (isclose _ _); [constructor|]; try apply IH.
    apply Forall_forall. intros x Hx. apply filter_In in Hx. destruct Hx as [Hx _]. apply in_seq in Hx. lia. }
  destruct (fundamental_spec n m HEnv HA T0) as (N & EN & WN & EqN & PosN). fold P in EqN. fold T in WN, EqN, PosN.
  set (kT := length T) in *. set (kA := length A).
  set (R := mix P T A). assert (WR : wf kT kA R) by apply wf_mix.
  assert (WNR : wf kT kA (mmul N R)) by (apply (wf_mmul kT kT kA); assumption).
  exists T, A, N, (transpose (mmul N R)), (mvmul N (repeat 1q (nrows N))). fold kT kA.
  split; [exact ST|]. split; [exact SA|]. split; [exact InT|]. split; [exact InA|]. split; [exact EN|].
  assert (Tl : Nat.eqb (length T) 0 = false) by (apply Nat.eqb_neq; lia).
  split. { unfold absorption_probabilities. fold P. rewrite HA. cbn [bind negb orb]. fold T. rewrite Tl. rewrite EN. reflexivity. }
  split. { unfold mean_absorption_times. fold P. rewrite HA. cbn [bind negb orb]. fold T. rewrite Tl. rewrite EN. reflexivity. }
  split; [exact WN|]. split; [apply wf_transpose; assumption|]. split; [apply (length_mvmul kT kT); exact WN|].
  split. { intros k l Hk Hl. split; [apply PosN; assumption|apply EqN; assumption]. }
  assert (Get : forall a k, a < kA -> k < kT -> mget (transpose (mmul N R)) a k = sumn kT (fun c => mget N k c * mget P (nth c T 0%nat) (nth a A 0%nat))%Qc).
  { intros a k Ha Hk. rewrite (mget_transpose kT kA) by assumption. rewrite (mget_mmul kT kT kA) by assumption. apply sumn_ext. intros c Hc. unfold R. rewrite mget_mix by assumption. reflexivity. }
  assert (EqAp : forall a k, a < kA -> k < kT -> mget (transpose (mmul N R)) a k = (mget P (nth k T 0%nat) (nth a A 0%nat) + sumn kT (fun l => mget P (nth k T 0%nat) (nth l T 0%nat) * mget (transpose (mmul N R)) a l))%Qc).
  { intros a k Ha Hk. rewrite Get by assumption.
    rewrite (sumn_ext kT _ (fun c => delta k c * mget P (nth c T 0%nat) (nth a A 0%nat) + sumn kT (fun l => mget P (nth k T 0%nat) (nth l T 0%nat) * (mget N l c * mget P (nth c T 0%nat) (nth a A 0%nat))))%Qc).
    2:{ intros c Hc. rewrite EqN by assumption. rewrite Qcmult_plus_distr_l. f_equal. rewrite <- sumn_mul_r. apply sumn_ext. intros; ring. }
    rewrite sumn_plus, sumn_delta_l by exact Hk. f_equal. rewrite sumn_swap. apply sumn_ext. intros l Hl. rewrite sumn_mul_l. rewrite Get by assumption. reflexivity. }
  split.
  { intros a k Ha Hk. split; [|apply EqAp; assumption]. rewrite Get by assumption. apply sumn_nonneg. intros c Hc.
    apply Qc_mul_nonneg; [apply PosN; assumption|]. apply St; [apply LT, nth_In; assumption|apply LA, nth_In; assumption]. }
  split.
  { intros k Hk. assert (Z : (sumn kA (fun a => mget (transpose (mmul N R)) a k) - 1)%Qc = 0q); [|revert Z; generalize (sumn kA (fun a => mget (transpose (mmul N R)) a k)); intros z Z; replace z with (z - 1 + 1)%Qc by ring; rewrite Z; ring].
    apply (block_zero n P T St NT LT OT (fun k => sumn kA (fun a => mget (transpose (mmul N R)) a k) - 1)%Qc); [|exact Hk].
    intros c Hc. fold kT.
    assert (Row : (sumn kA (fun a => mget P (nth c T 0%nat) (nth a A 0%nat)) + sumn kT (fun l => mget P (nth c T 0%nat) (nth l T 0%nat)))%Qc = 1q).
    { pose proof (st_row n P (nth c T 0) St (LT _ (nth_In _ 0 Hc))) as E1. rewrite <- E1.
      unfold kA, kT. rewrite (sumn_nth_lsum A (mget P (nth c T 0))), (sumn_nth_lsum T (mget P (nth c T 0))).
      rewrite (lsum_map_indicator n _ A (absorbing_nd P) LA), (lsum_map_indicator n _ T NT LT). rewrite <- sumn_plus. apply sumn_ext. intros j Hj.
      destruct (Qc_eq_dec (mget P j j) 1q) as [E|E].
      - assert (In j A) by (apply InA; auto). assert (~ In j T) by (intros C; apply InT in C; apply (proj2 C E)).
        rewrite (proj2 (memn_In j A)) by assumption. rewrite (proj2 (memn_false j T)) by assumption. ring.
      - assert (In j T) by (apply InT; auto). assert (~ In j A) by (intros C; apply InA in C; apply (E (proj2 C))).
        rewrite (proj2 (memn_In j T)) by assumption. rewrite (proj2 (memn_false j A)) by assumption. ring. }
    rewrite (sumn_ext kA (fun a => mget (transpose (mmul N R)) a c) (fun a => mget P (nth c T 0%nat) (nth a A 0%nat) + sumn kT (fun l => mget P (nth c T 0%nat) (nth l T 0%nat) * mget (transpose (mmul N R)) a l))%Qc) by (intros; apply EqAp; assumption).
    rewrite sumn_plus. rewrite (sumn_swap kA kT). 
    rewrite (sumn_ext kT (fun b => mget P (nth c T 0%nat) (nth b T 0%nat) * (sumn kA (fun a => mget (transpose (mmul N R)) a b) - 1))%Qc (fun b => sumn kA (fun a => mget P (nth c T 0%nat) (nth b T 0%nat) * mget (transpose (mmul N R)) a b) - mget P (nth c T 0%nat) (nth b T 0%nat))%Qc).
    2:{ intros b Hb. rewrite sumn_mul_l. ring. }
    rewrite sumn_minus. rewrite <- Row. ring. }
  assert (Gt : forall k, k < kT -> vget (mvmul N (repeat 1q (nrows N))) k = sumn kT (fun c => mget N k c)).
  { intros k Hk. rewrite (vget_mvmul kT kT) by assumption. apply sumn_ext. intros c Hc. rewrite (wf_nrows _ _ _ WN). unfold vget. rewrite nth_rep by exact Hc. ring. }
  assert (Eqt : forall k, k < kT -> vget (mvmul N (repeat 1q (nrows N))) k = (1 + sumn kT (fun l => mget P (nth k T 0%nat) (nth l T 0%nat) * vget (mvmul N (repeat 1q (nrows N))) l))%Qc).
  { intros k Hk. rewrite Gt by exact Hk. rewrite (sumn_ext kT _ (fun c => delta k c + sumn kT (fun l => mget P (nth k T 0%nat) (nth l T 0%nat) * mget N l c))%Qc) by (intros; apply EqN; assumption).
    rewrite sumn_plus, sumn_delta by exact Hk. f_equal. rewrite sumn_swap. apply sumn_ext. intros l Hl. rewrite sumn_mul_l, Gt by exact Hl. reflexivity. }
  intros k Hk. split; [|apply Eqt; exact Hk]. rewrite Eqt by exact Hk.
  pose proof (sumn_nonneg kT (fun l => mget P (nth k T 0%nat) (nth l T 0%nat) * vget (mvmul N (repeat 1q (nrows N))) l)%Qc) as H.
  assert (H' : (0 <= sumn kT (fun l => mget P (nth k T 0%nat) (nth l T 0%nat) * vget (mvmul N (repeat 1q (nrows N))) l))%Qc); [|qclra].
  apply H. intros l Hl. apply Qc_mul_nonneg; [apply St; apply LT, nth_In; assumption|]. rewrite Gt by exact Hl. apply sumn_nonneg. intros; apply PosN; assumption.
Qed.
