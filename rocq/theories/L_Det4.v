(** L_Det4: determinant and rank of chains, regularity of hidden Markov models. *)
From Verif Require Import S_Det S_Gen S_Struct M_Struct M_Generators L_Det L_Det2 L_Det3 L_StructR S_Fitting L_Fitting Dec.
Open Scope nat_scope.

Lemma determinant_laplace n p : wf n n p -> determinant p = laplace n (mget p).
Proof. intros H. unfold determinant. rewrite (wf_nrows _ _ _ H). apply lu_laplace. Qed.
Lemma determinant_power n c k c' : valid_chain n c -> to_nth_order c k = Ok c' -> determinant (ch_p c') = Qcpower (determinant (ch_p c)) (Z.to_nat k).
Proof.
  intros (Hn & HS & _) H. unfold to_nth_order in H. destruct (Z.leb 2 k); [|discriminate]. injection H as <-. cbn [ch_p]. destruct HS as (HW & _).
  rewrite (determinant_laplace n) by (apply wf_mpow; [lia|exact HW]). rewrite (determinant_laplace n _ HW). apply laplace_mpow; [lia|exact HW].
Qed.
Lemma determinant_bound n P : stochastic n P -> (- 1q <= determinant P /\ determinant P <= 1q)%Qc.
Proof.
  intros (HW & HP & HS). rewrite (determinant_laplace n _ HW). apply Qcabs_le. eapply Qcle_trans; [apply laplace_bound|]. rewrite prodn_1; [apply Qcle_refl|]. intros i Hi. rewrite <- (HS i Hi). apply sumn_ext. intros j Hj. apply Qcabs_eq_nonneg. apply HP; assumption.
Qed.
Lemma determinant_canonical n c comps : valid_chain n c -> scc_enum n (edge (ch_p c)) comps -> determinant (ch_p (to_canonical_form c comps)) = determinant (ch_p c).
Proof.
  intros HV HE. destruct (to_canonical_spec n c comps HV HE) as ((_ & (HW' & _) & _) & s & k & HP & _ & _ & HM & _). destruct HV as (_ & (HW & _) & _). rewrite (determinant_laplace n _ HW'), (determinant_laplace n _ HW).
  assert (HL : length s = n) by (rewrite <- (Permutation_length HP); apply seq_length). assert (HD : NoDup s) by (apply (Permutation_NoDup HP), seq_NoDup).
  rewrite <- (laplace_relabel n (mget (ch_p c)) (fun i => nth i s 0)).
  - apply laplace_ext. exact HM.
  - intros i Hi. assert (HI : In (nth i s 0) (seq 0 n)) by (apply (Permutation_in _ (Permutation_sym HP)), nth_In; lia). apply in_seq in HI. lia.
  - intros i j Hi Hj E. apply (proj1 (NoDup_nth s 0) HD); lia.
Qed.
Lemma rank_is n p : wf n n p -> is_rank n n (mget p) (rank p).
Proof. intros H. unfold rank. rewrite (wf_nrows _ _ _ H). apply rank_spec. exact H. Qed.
Lemma rank_eq n w p r : wf n w p -> (matrix_rank n w p = r <-> is_rank n w (mget p) r).
Proof. intros H. split; [intros <-; apply rank_spec; exact H|]. intros HR. apply (rank_unique n w (mget p)); [apply rank_spec; exact H|exact HR]. Qed.
Lemma rank_full n P : 0 < n -> stochastic n P -> (rank P = n <-> loses_nothing n n (mget P)).
Proof.
  intros Hn (HW & HP & HS). unfold rank. rewrite (wf_nrows _ _ _ HW). rewrite (rank_eq n n P n HW). apply full_rank_loses; assumption.
Qed.
Lemma determinant_full n P : 0 < n -> stochastic n P -> (determinant P <> 0q <-> loses_nothing n n (mget P)).
Proof.
  intros Hn (HW & HP & HS). rewrite (determinant_laplace n _ HW), <- square_full_rank. apply full_rank_loses; assumption.
Qed.
Lemma rank_one_same n P : 0 < n -> stochastic n P -> (rank P = 1 <-> forall i k j, i < n -> k < n -> j < n -> mget P i j = mget P k j).
Proof. intros Hn (HW & HP & HS). unfold rank. rewrite (wf_nrows _ _ _ HW). rewrite (rank_eq n n P 1 HW). apply rank_one; assumption. Qed.
(** ** Products *)
Lemma rank_product n w A B r r' : is_rank n w B r -> is_rank n w (fun i j => sumn n (fun k => A i k * B k j)%Qc) r' -> r' <= r.
Proof.
  intros (l & D1 & L1 & B1 & I1 & S1) (l' & D2 & L2 & B2 & I2 & _). rewrite <- L1, <- L2. set (C := fun i j => if Nat.ltb i n then B i j else sumn n (fun k => A (i - n)%nat k * B k j)%Qc).
  rewrite <- (map_length (fun i => n + i) l'). apply (steinitz w C).
  - intros x Hx i Hi. apply in_map_iff in Hi. destruct Hi as (k & <- & Hk). apply (I2 (fun i => x (n + i))); [|exact Hk]. intros j Hj. rewrite <- (Hx j Hj), map_map. apply lsum_map_ext. intros m Hm. unfold C. destruct (Nat.ltb_spec (n + m) n); [lia|]. replace (n + m - n) with m by lia. reflexivity.
  - apply FinFun.Injective_map_NoDup; [intros a b; lia|exact D2].
  - intros i Hi. apply in_map_iff in Hi. destruct Hi as (k & <- & Hk).
    assert (G : forall m, m <= n -> exists y : nat -> Qc, forall j, j < w -> sumn m (fun k' => A k k' * B k' j)%Qc = lsum (map (fun k => y k * B k j)%Qc l)).
    { induction m as [|m IH]; intros Hm; [exists (fun _ => 0q); intros j Hj; symmetry; apply lsum_map_0; intros; ring|]. destruct (IH ltac:(lia)) as (y & Hy). destruct (S1 m ltac:(lia)) as (z & Hz). exists (fun a => y a + A k m * z a)%Qc. intros j Hj. cbn [sumn]. rewrite Hy, Hz by exact Hj. rewrite <- (lsum_map_mul_l (fun a => z a * B a j)%Qc), <- lsum_map_plus. apply lsum_map_ext. intros a Ha. ring. }
    destruct (G n ltac:(lia)) as (y & Hy). exists y. intros j Hj. unfold C at 1. destruct (Nat.ltb_spec (n + k) n); [lia|]. replace (n + k - n) with k by lia. rewrite Hy by exact Hj. apply lsum_map_ext. intros a Ha. unfold C. destruct (Nat.ltb_spec a n); [reflexivity|]. specialize (B1 a Ha). lia.
Qed.
Lemma rank_power_S n P k : 0 < n -> wf n n P -> rank (mpow P (S k)) <= rank (mpow P k).
Proof.
  intros Hn HW. pose proof (wf_mpow n P k Hn HW) as W1. pose proof (wf_mpow n P (S k) Hn HW) as W2. apply (rank_product n n (mget P) (mget (mpow P k))); [apply rank_is; exact W1|].
  destruct (rank_is n _ W2) as (l & D & L & B & I & S'). assert (EM : forall i j, i < n -> j < n -> mget (mpow P (S k)) i j = sumn n (fun m => mget P i m * mget (mpow P k) m j)%Qc) by (intros i j Hi Hj; rewrite (mpow_S_l n) by assumption; apply (mget_mmul n n n); assumption).
  exists l. split; [exact D|]. split; [exact L|]. split; [exact B|]. split.
  - intros x Hx. apply I. intros j Hj. rewrite <- (Hx j Hj). apply lsum_map_ext. intros i Hi. rewrite EM by auto. reflexivity.
  - intros i Hi. destruct (S' i Hi) as (y & Hy). exists y. intros j Hj. rewrite <- EM by assumption. rewrite Hy by exact Hj. apply lsum_map_ext. intros m Hm. rewrite EM by auto. reflexivity.
Qed.
Lemma rank_nth_order n c k c' : valid_chain n c -> to_nth_order c k = Ok c' -> rank (ch_p c') <= rank (ch_p c).
Proof.
  intros (Hn & (HW & _) & _) H. unfold to_nth_order in H. destruct (Z.leb_spec 2 k) as [Hk|]; [|discriminate]. injection H as <-. cbn [ch_p]. assert (HN : 1 <= Z.to_nat k) by lia.
  induction (Z.to_nat k) as [|m IH]; [lia|]. destruct m as [|m]; [rewrite (mpow_1 n) by (try exact HW; lia); apply le_n|]. eapply Nat.le_trans; [apply (rank_power_S n); [lia|exact HW]|]. apply IH. lia.
Qed.
(** ** Hidden Markov models *)
Lemma regular_square n e : 0 < n -> row_stochastic n n e -> (hmm_is_regular n n e = true <-> loses_nothing n n (mget e)).
Proof. intros Hn (HW & HP & HS). unfold hmm_is_regular. rewrite Nat.eqb_eq, (rank_eq n n e n HW). apply full_rank_loses; assumption. Qed.
Lemma regular_wide n k e : n < k -> wf n k e -> hmm_is_regular n k e = false.
Proof. intros H HW. unfold hmm_is_regular. apply Nat.eqb_neq. pose proof (rank_le_rows n k (mget e) _ (rank_spec k n e HW)). lia. Qed.
Lemma tall_loses n k e : 0 < n -> k < n -> row_stochastic n k e -> ~ loses_nothing n k (mget e).
Proof. intros Hn H (HW & HP & HS) C. apply full_rank_loses in C; [|exact Hn|exact HS]. pose proof (rank_le_columns n k (mget e) _ C). lia. Qed.
Definition e_wide : mat := qm [[1 # 2; 1 # 2; 0]; [0; 1 # 2; 1 # 2]]%Q.
Definition e_tall : mat := qm [[1; 0]; [0; 1]; [1 # 2; 1 # 2]]%Q.
Lemma wide_example : row_stochastic 2 3 e_wide /\ loses_nothing 2 3 (mget e_wide) /\ hmm_is_regular 2 3 e_wide = false.
Proof.
  assert (HR : row_stochastic 2 3 e_wide) by (apply row_stochasticb_ok; vm_compute; reflexivity). split; [exact HR|]. split; [|apply regular_wide; [lia|apply HR]].
  apply full_rank_loses; [lia|apply HR|]. apply rank_eq; [apply HR|]. vm_compute. reflexivity.
Qed.
Lemma tall_example : row_stochastic 3 2 e_tall /\ ~ loses_nothing 3 2 (mget e_tall) /\ hmm_is_regular 3 2 e_tall = true.
Proof.
  assert (HR : row_stochastic 3 2 e_tall) by (apply row_stochasticb_ok; vm_compute; reflexivity). split; [exact HR|]. split; [apply tall_loses; [lia|lia|exact HR]|vm_compute; reflexivity].
Qed.
