(** L_Measures1: proofs about the iterative measures. *)
From Verif Require Export S_Measures L_Stationary.
Open Scope res_scope.

Lemma st_row n P i : stochastic n P -> i < n -> sumn n (mget P i) = 1q.
Proof. intros St Hi. exact (proj2 (proj2 St) i Hi). Qed.
Lemma exp_paths_S n P k i f :
  exp_paths n P (S k) i f = sumn n (fun x => mget P i x * exp_paths n P k x (fun w => f (x :: w)))%Qc.
Proof.
  unfold exp_paths. cbn [words]. rewrite lsum_flat_map, <- lsum_tab. unfold tab.
  apply lsum_map_ext. intros x _. rewrite map_map, <- lsum_map_mul_l. apply lsum_map_ext. intros w _. cbn [path_prob]. ring.
Qed.
Lemma exp_paths_0 n P i f : exp_paths n P 0 i f = f [].
Proof. unfold exp_paths. simpl. ring. Qed.
Lemma exp_paths_ext n P k i f g : (forall w, In w (words n k) -> f w = g w) -> exp_paths n P k i f = exp_paths n P k i g.
Proof. intros H. apply lsum_map_ext. intros w Hw. rewrite H by exact Hw. reflexivity. Qed.
Lemma exp_paths_plus n P k i f g : exp_paths n P k i (fun w => f w + g w)%Qc = (exp_paths n P k i f + exp_paths n P k i g)%Qc.
Proof. unfold exp_paths. rewrite <- lsum_map_plus. apply lsum_map_ext. intros; ring. Qed.
Lemma exp_paths_mul n P k i c f : exp_paths n P k i (fun w => c * f w)%Qc = (c * exp_paths n P k i f)%Qc.
Proof. unfold exp_paths. rewrite <- lsum_map_mul_l. apply lsum_map_ext. intros; ring. Qed.
Lemma exp_paths_const n P k c : stochastic n P -> forall i, i < n -> exp_paths n P k i (fun _ => c) = c.
Proof.
  intros (_ & _ & Sum). induction k as [|k IH]; intros i Hi; [apply exp_paths_0|].
  rewrite exp_paths_S. rewrite (sumn_ext n _ (fun x => mget P i x * c)%Qc).
  2:{ intros x Hx. rewrite IH by exact Hx. reflexivity. }
  rewrite sumn_mul_r. change (sumn n (fun x => mget P i x)) with (sumn n (mget P i)). 
  rewrite (Sum i Hi : sumn n (mget P i) = 1q). ring.
Qed.
Lemma prob_exp n P k i c : prob_paths n P k i c = exp_paths n P k i (fun w => if c w then 1q else 0q).
Proof. unfold prob_paths, exp_paths. apply lsum_map_ext. intros w _. destruct (c w); ring. Qed.

Lemma kstep_S_r n P k : forall i j, i < n -> j < n -> kstep n P (S k) i j = sumn n (fun x => kstep n P k i x * mget P x j)%Qc.
Proof.
  induction k as [|k IH]; intros i j Hi Hj.
  - rewrite kstep_S. rewrite (sumn_ext n _ (fun x => mget P i x * delta x j)%Qc) by (intros; rewrite kstep_0; reflexivity).
    rewrite sumn_delta_r by exact Hj. rewrite (sumn_ext n (fun x => kstep n P 0 i x * mget P x j)%Qc (fun x => delta i x * mget P x j)%Qc) by (intros; rewrite kstep_0; reflexivity).
    rewrite sumn_delta_l by exact Hi. reflexivity.
  - rewrite kstep_S. rewrite (sumn_ext n _ (fun x => sumn n (fun y => mget P i x * (kstep n P k x y * mget P y j)))%Qc).
    2:{ intros x Hx. rewrite IH by assumption. rewrite sumn_mul_l. reflexivity. }
    rewrite sumn_swap. apply sumn_ext. intros y Hy. rewrite kstep_S, <- sumn_mul_r. apply sumn_ext. intros; ring.
Qed.
Lemma kstep_sum n P k : stochastic n P -> forall i, i < n -> sumn n (fun j => kstep n P k i j) = 1q.
Proof.
  intros (_ & _ & Sum). induction k as [|k IH]; intros i Hi.
  - rewrite (sumn_ext n _ (fun j => delta i j)) by (intros; apply kstep_0). apply sumn_delta; exact Hi.
  - rewrite (sumn_ext n _ (fun j => sumn n (fun x => mget P i x * kstep n P k x j)%Qc)) by (intros; apply kstep_S).
    rewrite sumn_swap. rewrite (sumn_ext n _ (fun x => mget P i x)).
    + apply Sum; exact Hi.
    + intros x Hx. rewrite sumn_mul_l. rewrite IH by exact Hx. ring.
Qed.
Lemma step_dist_0 n P x j : j < n -> step_dist n P x 0 j = vget x j.
Proof.
  intros Hj. unfold step_dist. rewrite (sumn_ext n _ (fun i => vget x i * delta i j)%Qc) by (intros; rewrite kstep_0; reflexivity).
  apply sumn_delta_r; exact Hj.
Qed.
Lemma step_dist_S n P x k j : j < n -> step_dist n P x (S k) j = sumn n (fun i => step_dist n P x k i * mget P i j)%Qc.
Proof.
  intros Hj. unfold step_dist. rewrite (sumn_ext n _ (fun i => sumn n (fun y => vget x i * kstep n P k i y * mget P y j))%Qc).
  2:{ intros i Hi. rewrite kstep_S_r by assumption. rewrite <- sumn_mul_l. apply sumn_ext; intros; ring. }
  rewrite sumn_swap. apply sumn_ext. intros y Hy. rewrite <- sumn_mul_r. reflexivity.
Qed.
Lemma step_dist_sum n P x k : stochastic n P -> sumn n (vget x) = 1q -> sumn n (fun j => step_dist n P x k j) = 1q.
Proof.
  intros St Hx. unfold step_dist. rewrite sumn_swap. rewrite <- Hx. apply sumn_ext. intros i Hi.
  rewrite sumn_mul_l, kstep_sum by assumption. ring.
Qed.
Lemma step_dist_nonneg n P x k j : stochastic n P -> distribution n x -> j < n -> (0 <= step_dist n P x k j)%Qc.
Proof.
  intros (_ & Pos & _) (_ & X & _) Hj. apply sumn_nonneg. intros i Hi. apply Qc_mul_nonneg; [apply X; exact Hi|].
  apply kstep_nonneg; assumption.
Qed.
(** step_dist from any starting vector equal to it after k steps *)
Lemma vmul_step n P v x k : 0 < n -> wf n n P -> (forall j, j < n -> vget v j = step_dist n P x k j) ->
  forall j, j < n -> vget (vmul v P) j = step_dist n P x (S k) j.
Proof.
  intros Hn W H j Hj. rewrite (vget_vmul n n) by assumption. rewrite step_dist_S by exact Hj. apply sumn_ext.
  intros i Hi. rewrite H by exact Hi. reflexivity.
Qed.

(** C43 *)
Lemma redist_list_spec n P x : 0 < n -> stochastic n P -> distribution n x -> forall steps k v,
  length v = n -> (forall j, j < n -> vget v j = step_dist n P x k j) ->
  length (redist_list P steps v) = S steps /\
  forall t, t <= steps -> length (nth t (redist_list P steps v) []) = n /\ forall j, j < n -> vget (nth t (redist_list P steps v) []) j = step_dist n P x (k + t) j.
Proof.
  intros Hn St D. pose proof (proj1 St) as W. induction steps as [|s IH]; intros k v Lv Hv.
  - split; [reflexivity|]. intros t Ht. assert (t = 0) by lia. subst t. cbn [redist_list nth]. rewrite Nat.add_0_r. split; assumption.
  - cbn [redist_list].
    assert (L' : length (redist_step P v) = n) by (unfold redist_step; rewrite map_length; apply (length_vmul n n); assumption).
    assert (E1 : lsum (vmul v P) = 1q).
    { rewrite lsum_nth, (length_vmul n n) by assumption. rewrite <- (step_dist_sum n P x (S k) St (proj2 (proj2 D))).
      apply sumn_ext. intros j Hj. exact (vmul_step n P v x k Hn W Hv j Hj). }
    assert (H' : forall j, j < n -> vget (redist_step P v) j = step_dist n P x (S k) j).
    { intros j Hj. unfold redist_step. rewrite E1. rewrite <- (vmul_step n P v x k Hn W Hv j Hj). unfold vget at 1.
      rewrite (nth_indep _ 0q (0 / 1)%Qc) by (rewrite map_length, (length_vmul n n) by assumption; exact Hj).
      rewrite (map_nth (fun x => x / 1)%Qc). unfold vget. field. discriminate. }
    destruct (IH (S k) _ L' H') as [I1 I2]. split; [simpl; lia|].
    intros [|t] Ht; cbn [nth].
    + rewrite Nat.add_0_r. split; assumption.
    + destruct (I2 t ltac:(lia)) as [A B]. split; [exact A|]. intros j Hj. rewrite B by exact Hj. f_equal. lia.
Qed.
Lemma redistribute_spec n P steps x : 0 < n -> stochastic n P -> distribution n x -> 1 <= steps ->
  exists l, redistribute_all P steps x = Ok l /\ length l = steps + 1 /\ redistribute_last P steps x = Ok (nth steps l []) /\
    forall k, k <= steps -> distribution n (nth k l []) /\ forall j, j < n -> vget (nth k l []) j = step_dist n P x k j.
Proof.
  intros Hn St D Hs. unfold redistribute_all, redistribute_last.
  destruct (Nat.leb_spec 1 steps); [|lia]. exists (redist_list P steps x). split; [reflexivity|].
  destruct (redist_list_spec n P x Hn St D steps 0 x (proj1 D) ltac:(intros; rewrite step_dist_0; auto)) as [L V].
  split; [lia|]. split.
  - f_equal. clear -L. revert L. generalize (redist_list P steps x). intros l L. revert steps L. induction l as [|a l IH]; intros steps L; [discriminate|]. destruct l as [|b l]; [injection L as <-; reflexivity|]. destruct steps as [|s]; [discriminate|]. change (last (a :: b :: l) []) with (last (b :: l) []). cbn [nth]. apply IH. simpl in *. lia.
  - intros k Hk. destruct (V k Hk) as [V1 V2]. split; [|exact V2]. split; [exact V1|]. split.
    + intros i Hi. rewrite V2 by exact Hi. apply step_dist_nonneg; assumption.
    + rewrite (sumn_ext n _ (fun j => step_dist n P x k j)) by exact V2. apply step_dist_sum; [exact St|apply D].
Qed.

(** C44 *)
Definition er_spec (n : nat) (P : mat) (r : vec) (k i : nat) : Qc := exp_paths n P k i (fun w => path_reward r (i :: w)).
Lemma er_spec_S n P r k i : stochastic n P -> i < n -> er_spec n P r (S k) i = (vget r i + sumn n (fun x => mget P i x * er_spec n P r k x))%Qc.
Proof.
  intros St Hi. unfold er_spec at 1. rewrite exp_paths_S.
  rewrite (sumn_ext n _ (fun x => mget P i x * vget r i + mget P i x * er_spec n P r k x)%Qc).
  - rewrite sumn_plus, sumn_mul_r. pose proof (proj2 (proj2 St) i Hi) as E.
    change (sumn n (fun x => mget P i x)) with (sumn n (mget P i)) in *. rewrite E. ring.
  - intros x Hx. rewrite (exp_paths_ext n P k x _ (fun w => vget r i + path_reward r (x :: w))%Qc) by (intros; reflexivity).
    rewrite exp_paths_plus, (exp_paths_const n P k (vget r i) St x Hx). unfold er_spec. ring.
Qed.
Lemma er_loop_spec n P r : stochastic n P -> length r = n -> forall steps k er,
  length er = n -> (forall i, i < n -> vget er i = er_spec n P r k i) ->
  length (expected_rewards_loop P steps r er) = n /\ forall i, i < n -> vget (expected_rewards_loop P steps r er) i = er_spec n P r (k + steps) i.
Proof.
  intros St Lr. induction steps as [|s IH]; intros k er Le He.
  - rewrite Nat.add_0_r. split; assumption.
  - cbn [expected_rewards_loop]. replace (k + S s) with (S k + s) by lia. apply IH.
    + rewrite tab_length. exact Lr.
    + intros i Hi. rewrite vget_tab by lia. rewrite (vget_mvmul n n) by (auto; apply St). rewrite er_spec_S by assumption.
      f_equal. apply sumn_ext. intros x Hx. rewrite He by exact Hx. reflexivity.
Qed.
Lemma expected_rewards_spec n P steps r : 0 < n -> stochastic n P -> length r = n -> 1 <= steps ->
  exists er, expected_rewards P steps r = Ok er /\ length er = n /\
    forall i, i < n -> vget er i = exp_paths n P steps i (fun w => path_reward r (i :: w)).
Proof.
  intros Hn St Lr Hs. unfold expected_rewards. destruct (Nat.ltb_spec 0 steps); [|lia].
  rewrite (wf_nrows _ _ _ (proj1 St)), Lr, Nat.eqb_refl. eexists. split; [reflexivity|].
  apply (er_loop_spec n P r St Lr steps 0 r Lr). intros i Hi. unfold er_spec. rewrite exp_paths_0. unfold path_reward. simpl. ring.
Qed.
Lemma expected_rewards_kstep n P steps r i : 0 < n -> stochastic n P -> length r = n -> i < n ->
  exp_paths n P steps i (fun w => path_reward r (i :: w)) = sumn (steps + 1) (fun t => sumn n (fun j => kstep n P t i j * vget r j)%Qc).
Proof.
  intros Hn St Lr. change (i < n -> er_spec n P r steps i = sumn (steps + 1) (fun t => sumn n (fun j => kstep n P t i j * vget r j)%Qc)).
  revert i. induction steps as [|s IH]; intros i Hi.
  - unfold er_spec. rewrite exp_paths_0. cbn [sumn Nat.add]. unfold path_reward. simpl map. cbn [lsum fold_right].
    rewrite (sumn_ext n _ (fun j => delta i j * vget r j)%Qc) by (intros; rewrite kstep_0; reflexivity). rewrite sumn_delta_l by exact Hi. ring.
  - rewrite er_spec_S by assumption. replace (S s + 1) with (S (s + 1)) by lia. rewrite sumn_S_front. f_equal.
    + rewrite (sumn_ext n _ (fun j => delta i j * vget r j)%Qc) by (intros; rewrite kstep_0; reflexivity). rewrite sumn_delta_l by exact Hi. reflexivity.
    + rewrite (sumn_ext n _ (fun x => sumn (s + 1) (fun t => sumn n (fun j => mget P i x * (kstep n P t x j * vget r j))))%Qc).
      2:{ intros x Hx. rewrite IH by exact Hx. rewrite <- sumn_mul_l. apply sumn_ext. intros t _. rewrite <- sumn_mul_l. reflexivity. }
      rewrite sumn_swap. apply sumn_ext. intros t _. rewrite sumn_swap. apply sumn_ext. intros j _. rewrite kstep_S, <- sumn_mul_r. apply sumn_ext. intros; ring.
Qed.

(** C45 *)
Definition moves (n : nat) (P : mat) (a b k s : nat) : Qc := exp_paths n P k s (fun w => Qcn (count_moves a b (s :: w))).
Lemma moves_S n P a b k s : stochastic n P -> s < n -> b < n ->
  moves n P a b (S k) s = (delta s a * mget P a b + sumn n (fun y => mget P s y * moves n P a b k y))%Qc.
Proof.
  intros St Hs Hb. unfold moves at 1. rewrite exp_paths_S.
  rewrite (sumn_ext n _ (fun y => (delta s a * mget P s y) * delta y b + mget P s y * moves n P a b k y)%Qc).
  - rewrite sumn_plus. f_equal. rewrite (sumn_delta_r n b (fun y => delta s a * mget P s y)%Qc Hb).
    destruct (Nat.eq_dec s a) as [->|N]; [reflexivity|]. rewrite delta_neq by exact N. ring.
  - intros y Hy. rewrite (exp_paths_ext n P k y _ (fun w => delta s a * delta y b + Qcn (count_moves a b (y :: w)))%Qc).
    + rewrite exp_paths_plus, (exp_paths_const n P k _ St y Hy). unfold moves. ring.
    + intros w _. cbn [count_moves]. rewrite Qcn_add. f_equal. unfold delta. destruct (Nat.eqb s a), (Nat.eqb y b); reflexivity.
Qed.
Lemma moves_kstep n P a b k : stochastic n P -> a < n -> b < n -> forall s, s < n ->
  moves n P a b k s = sumn k (fun t => kstep n P t s a * mget P a b)%Qc.
Proof.
  intros St Ha Hb. induction k as [|k IH]; intros s Hs.
  - unfold moves. rewrite exp_paths_0. reflexivity.
  - rewrite moves_S by assumption. rewrite sumn_S_front, kstep_0. f_equal.
    rewrite (sumn_ext n _ (fun y => sumn k (fun t => mget P s y * (kstep n P t y a * mget P a b)))%Qc).
    2:{ intros y Hy. rewrite IH by exact Hy. rewrite <- sumn_mul_l. reflexivity. }
    rewrite sumn_swap. apply sumn_ext. intros t _. rewrite kstep_S, <- sumn_mul_r. apply sumn_ext; intros; ring.
Qed.
Lemma expected_moves_dist n P x k a b : stochastic n P -> a < n -> b < n ->
  expected_moves n P x k a b = (sumn k (fun t => step_dist n P x t a) * mget P a b)%Qc.
Proof.
  intros St Ha Hb. unfold expected_moves. rewrite (sumn_ext n _ (fun s => sumn k (fun t => vget x s * (kstep n P t s a * mget P a b)))%Qc).
  2:{ intros s Hs. change (exp_paths n P k s _) with (moves n P a b k s). rewrite moves_kstep by assumption. rewrite <- sumn_mul_l. reflexivity. }
  rewrite sumn_swap, <- sumn_mul_r. apply sumn_ext. intros t _. unfold step_dist. rewrite <- sumn_mul_r. apply sumn_ext. intros; ring.
Qed.
Lemma expected_moves_total n P x k : stochastic n P -> sumn n (vget x) = 1q ->
  sumn n (fun a => sumn n (fun b => expected_moves n P x k a b)) = Qcn k.
Proof.
  intros St Hx. rewrite (sumn_ext n _ (fun a => sumn k (fun t => step_dist n P x t a))).
  - rewrite sumn_swap. rewrite (sumn_ext k _ (fun _ => 1q)) by (intros; apply step_dist_sum; assumption).
    rewrite sumn_const_n. ring.
  - intros a Ha. rewrite (sumn_ext n _ (fun b => sumn k (fun t => step_dist n P x t a) * mget P a b)%Qc) by (intros; apply expected_moves_dist; assumption).
    rewrite sumn_mul_l. rewrite (st_row n P a St Ha). ring.
Qed.
Lemma expected_transitions_small n P dec d steps x : 2 <= n -> stochastic n P -> length x = n -> dec = Ok d -> 1 <= steps <= 2 ->
  exists et, expected_transitions P dec steps x = Ok et /\ wf n n et /\
    forall a b, a < n -> b < n -> mget et a b = expected_moves n P x steps a b.
Proof.
  intros Hn St Lx -> Hs. pose proof (proj1 St) as W. unfold expected_transitions.
  destruct (Nat.ltb_spec 0 steps); [|lia]. rewrite (wf_nrows _ _ _ W), Lx, Nat.eqb_refl. cbn [bind].
  destruct (Nat.leb_spec steps n); [|lia]. eexists. split; [reflexivity|]. split; [apply wf_mk|].
  intros a b Ha Hb. rewrite mget_mk by assumption. rewrite expected_moves_dist by assumption. f_equal.
  assert (Cs : steps = 1 \/ steps = 2) by lia. destruct Cs as [-> | ->]; cbn [et_loop Nat.sub sumn].
  - rewrite step_dist_0 by exact Ha. ring.
  - rewrite Lx, vget_tab by exact Ha. rewrite step_dist_0 by exact Ha.
    rewrite (vmul_step n P x x 0 ltac:(lia) W ltac:(intros; rewrite step_dist_0; auto) a Ha). ring.
Qed.

(** Exact diagonalisation *)
Section RDL.
Variables (n : nat) (P : mat) (d : rdl).
Hypothesis Hn : 0 < n.
Hypothesis D : diagonalises n P d.
Let R := rdl_r d.
Let L := rdl_l d.
Let q k := mget (rdl_d d) k k.
Lemma rdl_wf : wf n n P.
Proof. destruct D as (WR & WL & _ & _ & _ & WD & <-). apply (wf_mmul n n n); auto. apply (wf_mmul n n n); auto. Qed.
Lemma rdl_RL i j : i < n -> j < n -> sumn n (fun k => mget R i k * mget L k j)%Qc = delta i j.
Proof.
  intros Hi Hj. destruct D as (WR & WL & _ & E & _). rewrite <- (mget_eye n i j Hi Hj), <- E.
  rewrite (mget_mmul n n n) by assumption. reflexivity.
Qed.
Lemma rdl_PR i k : i < n -> k < n -> sumn n (fun x => mget P i x * mget R x k)%Qc = (mget R i k * q k)%Qc.
Proof.
  intros Hi Hk. destruct D as (WR & WL & E1 & E2 & Off & WD & E).
  assert (E' : mmul P R = mmul R (rdl_d d)).
  { rewrite <- E. rewrite (mmul_assoc n n n n) by (auto; apply (wf_mmul n n n); auto). fold R L in E1 |- *. rewrite E1.
    rewrite (mmul_eye_r n n) by (auto; apply (wf_mmul n n n); auto). reflexivity. }
  assert (G : mget (mmul P R) i k = mget (mmul R (rdl_d d)) i k) by (rewrite E'; reflexivity).
  rewrite !(mget_mmul n n n) in G by (auto; apply rdl_wf). rewrite G.
  rewrite (sumn_single n _ k Hk); [reflexivity|]. intros x Hx Hne. rewrite Off by assumption. ring.
Qed.
Lemma rdl_kstep t : forall i j, i < n -> j < n -> sumn n (fun k => mget R i k * qpow (q k) t * mget L k j)%Qc = kstep n P t i j.
Proof.
  induction t as [|t IH]; intros i j Hi Hj.
  - rewrite kstep_0, <- (rdl_RL i j Hi Hj). apply sumn_ext. intros; cbn [qpow]; ring.
  - rewrite kstep_S. rewrite (sumn_ext n (fun x => mget P i x * kstep n P t x j)%Qc (fun x => sumn n (fun k => (mget P i x * mget R x k) * (qpow (q k) t * mget L k j)))%Qc).
    2:{ intros x Hx. rewrite <- IH by assumption. rewrite <- sumn_mul_l. apply sumn_ext; intros; ring. }
    rewrite sumn_swap. apply sumn_ext. intros k Hk. rewrite sumn_mul_r, rdl_PR by assumption. cbn [qpow]. ring.
Qed.
Lemma rdl_mid (g : nat -> Qc) i j : i < n -> j < n ->
  mget (mmul (mmul R (mk n n (fun i j => if Nat.eqb i j then g i else 0q))) L) i j = sumn n (fun k => mget R i k * g k * mget L k j)%Qc.
Proof.
  intros Hi Hj. destruct D as (WR & WL & _). assert (WG := wf_mk n n (fun i j => if Nat.eqb i j then g i else 0q)).
  rewrite (mget_mmul n n n) by (auto; apply (wf_mmul n n n); auto). apply sumn_ext. intros k Hk. f_equal.
  rewrite (mget_mmul n n n) by auto. rewrite (sumn_single n _ k Hk).
  - rewrite mget_mk by assumption. rewrite Nat.eqb_refl. reflexivity.
  - intros x Hx Hne. rewrite mget_mk by assumption. destruct (Nat.eqb_spec x k); [contradiction|]. ring.
Qed.
Lemma rdl_wf_mid (g : nat -> nat -> Qc) : wf n n (mmul (mmul R (mk n n g)) L).
Proof. destruct D as (WR & WL & _). apply (wf_mmul n n n); auto. apply (wf_mmul n n n); auto. apply wf_mk. Qed.
End RDL.
Lemma geom x k : x <> 1q -> ((1 - qpow x k) / (1 - x))%Qc = sumn k (fun t => qpow x t).
Proof.
  intros H. assert (N : (1 - x)%Qc <> 0q) by (intros C; apply H; qclra).
  apply (Qc_mul_cancel_r _ _ _ N). rewrite Qc_div_mul by exact N. induction k as [|k IH]; cbn [sumn qpow]; [ring|].
  rewrite Qcmult_plus_distr_l, <- IH. ring.
Qed.
Lemma qpow_1 k : qpow 1q k = 1q.
Proof. induction k as [|k IH]; [reflexivity|]. cbn [qpow]. rewrite IH. ring. Qed.
Lemma expected_transitions_large n P d steps x : 0 < n -> stochastic n P -> length x = n -> n < steps -> diagonalises n P d ->
  exists et, expected_transitions P (Ok d) steps x = Ok et /\ wf n n et /\
    forall a b, a < n -> b < n -> mget et a b = expected_moves n P x steps a b.
Proof.
  intros Hn St Lx Hs D. pose proof (proj1 St) as W. unfold expected_transitions.
  destruct (Nat.ltb_spec 0 steps); [|lia]. rewrite (wf_nrows _ _ _ W), Lx, Nat.eqb_refl. cbn [bind].
  destruct (Nat.leb_spec steps n); [lia|]. eexists. split; [reflexivity|]. split; [apply wf_mk|].
  intros a b Ha Hb. rewrite mget_mk by assumption. rewrite expected_moves_dist by assumption. f_equal.
  rewrite (vget_vmul n n) by (auto; apply (rdl_wf_mid n P d Hn D)).
  unfold step_dist. rewrite sumn_swap. apply sumn_ext. intros i Hi. rewrite sumn_mul_l. f_equal.
  rewrite (rdl_mid n P d Hn D) by assumption.
  rewrite (sumn_ext steps _ (fun t => sumn n (fun k => mget (rdl_r d) i k * qpow (mget (rdl_d d) k k) t * mget (rdl_l d) k a)%Qc)).
  2:{ intros t _. symmetry. apply (rdl_kstep n P d Hn D); assumption. }
  rewrite sumn_swap. apply sumn_ext. intros k Hk. rewrite sumn_mul_r, sumn_mul_l. f_equal. f_equal.
  destruct (Qceqb_spec (mget (rdl_d d) k k) 1) as [E|E].
  - rewrite E. rewrite (sumn_ext steps _ (fun _ => 1q)) by (intros; apply qpow_1). rewrite sumn_const_n. ring.
  - apply geom. exact E.
Qed.
