(** L_KL4: the statements about the divergence, and examples. *)
From Verif Require Export L_KL3.
From Coq Require Import Reals Qreals Lra.
Close Scope Q_scope. Close Scope R_scope.
Open Scope nat_scope.

Lemma kl_rate_spec n P pi phi q L : stochastic n P -> long_run n P pi -> (forall v, In v phi -> length v = n) -> grouping n (map members phi) ->
  calc_q P pi phi = Some q -> lifted n pi (map members phi) q L ->
  stochastic n L /\ forall k, path_divergence n P L pi (S k) = (INR k * kl_divergence P pi phi q)%R.
Proof.
  intros St (Dp & Sp & Pp) Len GG CQ Lf. split; [|exact (kl_paths n P pi phi q St Dp Sp Pp Len GG CQ L Lf)].
  apply (lifted_stochastic n pi phi Len GG Pp q L Lf). exact (agg_st n P pi phi q St Pp Len GG CQ).
Qed.
Lemma kl_sign_spec n P pi phi q L : stochastic n P -> long_run n P pi -> (forall v, In v phi -> length v = n) -> grouping n (map members phi) ->
  calc_q P pi phi = Some q -> lifted n pi (map members phi) q L ->
  (0 <= kl_divergence P pi phi q)%R /\ (kl_divergence P pi phi q = 0%R <-> P = L).
Proof.
  intros St (Dp & Sp & Pp) Len GG CQ Lf. split; [exact (kl_nonneg n P pi phi q St Dp Sp Pp Len GG CQ)|].
  rewrite (kl_zero n P pi phi q St Dp Sp Pp Len GG CQ L Lf). split.
  - intros H. rewrite <- (mk_mget n n P (proj1 St)), <- (mk_mget n n L (proj1 Lf)). apply mk_ext. exact H.
  - intros ->. reflexivity.
Qed.
Lemma kl_optimal_spec n P pi phi q r : stochastic n P -> long_run n P pi -> (forall v, In v phi -> length v = n) -> grouping n (map members phi) ->
  calc_q P pi phi = Some q -> stochastic (length phi) r ->
  (forall a b i j, a < length phi -> b < length phi -> In i (members (nth a phi [])) -> In j (members (nth b phi [])) -> (0 < mget P i j)%Qc -> (0 < mget r a b)%Qc) ->
  (kl_divergence P pi phi q <= kl_divergence P pi phi r)%R.
Proof.
  intros St (Dp & Sp & Pp) Len GG CQ Sr Sup. apply (kl_best n P pi phi q St Dp Sp Pp Len GG CQ r Sr).
  intros i j Hi Hj Hp. apply (Sup (gof phi i) (gof phi j) i j); [apply (gof_lt n phi GG); exact Hi|apply (gof_lt n phi GG); exact Hj|apply (gof_in n phi GG); exact Hi|apply (gof_in n phi GG); exact Hj|exact Hp].
Qed.

(** ** Examples: the states 1 and 3 of cAgg move alike *)
Definition phiA : groups := [[true; false; true]; [false; true; false]].
Definition phiB : groups := [[true; false; false]; [false; true; true]].
Definition qA : mat := qm [[5 # 6; 1 # 6]; [1 # 3; 2 # 3]]%Q.
Definition qB : mat := qm [[5 # 12; 7 # 12]; [7 # 24; 17 # 24]]%Q.
Definition LB : mat := qm [[5 # 12; 7 # 24; 7 # 24]; [7 # 24; 17 # 48; 17 # 48]; [7 # 24; 17 # 48; 17 # 48]]%Q.
Lemma kl_qA : calc_q (ch_p cAgg) piAgg phiA = Some qA.
Proof. apply some_eq. vm_compute. reflexivity. Qed.
Lemma kl_qB : calc_q (ch_p cAgg) piAgg phiB = Some qB.
Proof. apply some_eq. vm_compute. reflexivity. Qed.
Lemma kl_lens : (forall v, In v phiA -> length v = 3) /\ (forall v, In v phiB -> length v = 3).
Proof. split; intros v [<-|[<-|[]]]; reflexivity. Qed.
Lemma kl_long : stochastic 3 (ch_p cAgg) /\ long_run 3 (ch_p cAgg) piAgg.
Proof.
  split; [exact (proj1 (proj2 (proj1 cAgg_ok)))|]. split; [|split; [|exact (proj2 piAgg_ok)]].
  - split; [reflexivity|]. split; [intros i Hi; apply Qclt_le_weak, (proj2 piAgg_ok); exact Hi|apply Qceqb_eq; vm_compute; reflexivity].
  - split; [reflexivity|]. intros j Hj. destruct j as [|[|[|]]]; try lia; apply Qceqb_eq; vm_compute; reflexivity.
Qed.
Lemma kl_groups : grouping 3 (map members phiA) /\ grouping 3 (map members phiB).
Proof.
  split; [|exact grouping_ex]. change (map members phiA) with [[0; 2]; [1]]. split.
  - intros g [<-|[<-|[]]]; (split; [discriminate|]); split; try (repeat constructor; cbn; intuition lia); cbn; intros x Hx; lia.
  - intros i Hi. destruct i as [|[|[|]]]; try lia; [exists 0|exists 1|exists 0]; (split; [cbn; lia|]); intros b Hb; cbn in Hb; destruct b as [|[|]]; try lia; cbn; lia.
Qed.
Lemma kl_liftA : lifted 3 piAgg (map members phiA) qA (ch_p cAgg).
Proof.
  split; [apply wfb_wf; reflexivity|]. change (map members phiA) with [[0; 2]; [1]]. intros a b i j Ha Hb Hi Hj. cbn in Ha, Hb.
  destruct a as [|[|]]; try lia; destruct b as [|[|]]; try lia; cbn in Hi, Hj; intuition subst; apply Qceqb_eq; vm_compute; reflexivity.
Qed.
Lemma kl_liftB : lifted 3 piAgg (map members phiB) qB LB.
Proof.
  split; [apply wfb_wf; reflexivity|]. change (map members phiB) with [[0]; [1; 2]]. intros a b i j Ha Hb Hi Hj. cbn in Ha, Hb.
  destruct a as [|[|]]; try lia; destruct b as [|[|]]; try lia; cbn in Hi, Hj; intuition subst; apply Qceqb_eq; vm_compute; reflexivity.
Qed.
Lemma kl_values : kl_divergence (ch_p cAgg) piAgg phiA qA = 0%R /\ (0 < kl_divergence (ch_p cAgg) piAgg phiB qB)%R.
Proof.
  destruct kl_long as (St & Lr). split.
  - apply (kl_sign_spec 3 (ch_p cAgg) piAgg phiA qA (ch_p cAgg)); [exact St|exact Lr|exact (proj1 kl_lens)|exact (proj1 kl_groups)|exact kl_qA|exact kl_liftA|reflexivity].
  - destruct (kl_sign_spec 3 (ch_p cAgg) piAgg phiB qB LB St Lr (proj2 kl_lens) (proj2 kl_groups) kl_qB kl_liftB) as (H0 & H1).
    destruct H0 as [H0|H0]; [exact H0|]. exfalso. symmetry in H0. apply H1 in H0. apply (f_equal (fun m => mget m 0 1)) in H0.
    apply Qceqb_eq in H0. vm_compute in H0. discriminate.
Qed.
Definition rB : mat := qm [[1 # 2; 1 # 2]; [1 # 2; 1 # 2]]%Q.
Lemma kl_rB : stochastic 2 rB /\ forall a b, a < 2 -> b < 2 -> (0 < mget rB a b)%Qc.
Proof.
  split; [apply stochasticb_ok; vm_compute; reflexivity|]. intros a b Ha Hb. destruct a as [|[|]]; try lia; destruct b as [|[|]]; try lia; reflexivity.
Qed.
