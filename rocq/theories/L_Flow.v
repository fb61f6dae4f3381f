(** L_Flow: proofs about plot_flow. *)
From Verif Require Import M_Flow S_Measures S_Flow L_Measures1 L_Ergodic L_Gen3 Dec.
From Coq Require Import Sorting.Sorted.
Open Scope nat_scope.
Open Scope res_scope.

Lemma sorted_same : forall l l', StronglySorted lt l -> StronglySorted lt l' -> (forall x, In x l <-> In x l') -> l = l'.
Proof.
  induction l as [|a l IH]; intros [|b l'] S1 S2 H.
  - reflexivity.
  - exfalso. apply (proj2 (H b)). now left.
  - exfalso. apply (proj1 (H a)). now left.
  - inversion S1 as [|? ? S1' F1]; inversion S2 as [|? ? S2' F2]; subst. rewrite Forall_forall in F1, F2.
    assert (E : a = b).
    { destruct (proj1 (H a) (or_introl eq_refl)) as [E|E]; [auto|]. destruct (proj2 (H b) (or_introl eq_refl)) as [E'|E']; [auto|].
      specialize (F1 _ E'). specialize (F2 _ E). lia. }
    subst b. f_equal. apply IH; try assumption. intros x. split; intros I.
    + destruct (proj1 (H x) (or_intror I)) as [E|E]; [|exact E]. subst. specialize (F1 _ I). lia.
    + destruct (proj2 (H x) (or_intror I)) as [E|E]; [|exact E]. subst. specialize (F2 _ I). lia.
Qed.
Lemma seq_sorted m a : StronglySorted lt (seq a m).
Proof. revert a; induction m as [|m IH]; intros a; cbn; constructor; [apply IH|]. apply Forall_forall. intros x I. apply in_seq in I. lia. Qed.
Lemma filter_sorted (f : nat -> bool) l : StronglySorted lt l -> StronglySorted lt (filter f l).
Proof.
  induction l as [|a l IH]; cbn; intros H; [constructor|]. inversion H as [|? ? H1 H2]; subst.
  destruct (f a); [constructor; auto|auto]. rewrite Forall_forall in *. intros x I. apply filter_In in I. apply H2, I.
Qed.
Lemma map_sorted (g : nat -> nat) l : (forall x y, x < y -> g x < g y) -> StronglySorted lt l -> StronglySorted lt (map g l).
Proof.
  intros G. induction l as [|a l IH]; cbn; intros H; [constructor|]. inversion H as [|? ? H1 H2]; subst.
  constructor; auto. rewrite Forall_forall in *. intros x I. apply in_map_iff in I. destruct I as [y [<- I]]. auto.
Qed.
Lemma indices_filter steps I : 1 <= I -> filter (fun i => memn i (flow_indices steps I)) (seq 0 (steps * I + 1)) = flow_indices steps I.
Proof.
  intros HI. apply sorted_same.
  - apply filter_sorted, seq_sorted.
  - unfold flow_indices. apply map_sorted; [intros; nia|]. apply seq_sorted.
  - intros x. rewrite filter_In, memn_In. split; [intros [_ H]; exact H|]. intros H. split; [|exact H].
    unfold flow_indices in H. apply in_map_iff in H. destruct H as [c [<- H]]. apply in_seq in H. apply in_seq. nia.
Qed.
Lemma select_nth (f : nat -> bool) (l : list vec) a : map snd (filter (fun e => f (fst e)) (combine (seq a (length l)) l)) = map (fun i => nth (i - a) l []) (filter f (seq a (length l))).
Proof.
  revert a. induction l as [|v l IH]; intros a; cbn [length seq combine filter map]; [reflexivity|]. cbn [fst].
  assert (E : map (fun i => nth (i - S a) l []) (filter f (seq (S a) (length l))) = map (fun i => nth (i - a) (v :: l) []) (filter f (seq (S a) (length l)))).
  { apply map_ext_in. intros i Hi. apply filter_In in Hi. destruct Hi as [Hi _]. apply in_seq in Hi. replace (i - a) with (S (i - S a)) by lia. reflexivity. }
  destruct (f a); cbn [map snd].
  - rewrite Nat.sub_diag. cbn [nth]. f_equal. rewrite IH. exact E.
  - rewrite IH. exact E.
Qed.
Lemma last_indices steps I : last (flow_indices steps I) 0 = steps * I.
Proof. unfold flow_indices. rewrite seq_S, map_app. cbn [map]. apply last_last. Qed.
(** The columns are the distributions after 0, I, 2 I, ... steps. *)
Lemma distributions_spec n P steps I x : 0 < n -> stochastic n P -> distribution n x -> 1 <= steps -> 1 <= I ->
  exists ds, flow_distributions P steps I x = Ok ds /\ length ds = S steps /\
  forall t, t <= steps -> distribution n (nth t ds []) /\ forall j, j < n -> vget (nth t ds []) j = step_dist n P x (t * I) j.
Proof.
  intros Hn St D Hs HI. assert (H1 : 1 <= steps * I) by nia.
  destruct (redistribute_spec n P (steps * I) x Hn St D H1) as [l [E1 [L1 [_ H]]]].
  exists (map (fun i => nth i l []) (flow_indices steps I)). split; [|split].
  - unfold flow_distributions. cbv zeta. rewrite last_indices, E1. cbn [bind]. f_equal.
    rewrite (select_nth (fun i => memn i (flow_indices steps I)) l 0). rewrite L1, indices_filter by exact HI.
    apply map_ext. intros i. now rewrite Nat.sub_0_r.
  - unfold flow_indices. now rewrite !map_length, seq_length.
  - intros t Ht. assert (E : nth t (map (fun i => nth i l []) (flow_indices steps I)) [] = nth (t * I) l []).
    { rewrite (nth_indep _ [] (nth 0 l [])) by (unfold flow_indices; rewrite !map_length, seq_length; lia).
      rewrite (map_nth (fun i => nth i l [])). f_equal. unfold flow_indices. transitivity (nth t (map (fun c => c * I) (seq 0 (S steps))) (0 * I)); [reflexivity|]. rewrite (map_nth (fun c => c * I)). rewrite seq_nth by lia. reflexivity. }
    rewrite E. apply H. nia.
Qed.

(** ** Bars *)
Lemma sumn_last n g : 1 <= n -> (sumn (n - 1) g + g (n - 1)%nat)%Qc = sumn n g.
Proof. intros H. destruct n as [|n]; [lia|]. replace (S n - 1) with n by lia. reflexivity. Qed.
Lemma vget_cumulate v i : i < length v -> vget (cumulate v) i = sumn (S i) (vget v).
Proof. intros H. unfold cumulate. now rewrite vget_tab. Qed.
Lemma vget_map (f : Qc -> Qc) v i : i < length v -> vget (map f v) i = f (vget v i).
Proof. intros H. unfold vget. rewrite (nth_indep _ 0q (f 0q)) by now rewrite map_length. apply map_nth. Qed.
Lemma clip_id x : (0 <= x)%Qc -> (x <= 1)%Qc -> clip01 x = x.
Proof.
  intros H1 H2. unfold clip01, Qcmin. destruct (Qcleb_spec x 1) as [L|L]; [|exfalso; qclra].
  unfold Qcmax. destruct (Qcleb_spec 0 x) as [L'|L']; [reflexivity|exfalso; qclra].
Qed.
(** What a column must look like: nine tenths of the height are shared in proportion to the
    probabilities, the rest is gaps of equal size. *)
Definition bottom_of (n : nat) (y : nat -> Qc) (i : nat) : Qc := (Q2Qc (9 # 10) * sumn i y + Qcn i * flow_gap n)%Qc.
Lemma gap_pos n : 2 <= n -> (0 < flow_gap n)%Qc.
Proof.
  intros H. unfold flow_gap. apply Qc_div_pos; [reflexivity|]. replace n with (S (n - 1)) by lia. rewrite Qcn_S.
  replace (Qcn (n - 1) + 1 - 1)%Qc with (Qcn (n - 1)) by ring. apply Qcn_pos. lia.
Qed.
Lemma gap_total n : 2 <= n -> (Qcn (n - 1) * flow_gap n)%Qc = Q2Qc (1 # 10).
Proof.
  intros H. unfold flow_gap. replace (Qcn n - 1)%Qc with (Qcn (n - 1)) by (replace n with (S (n - 1)) at 2 by lia; rewrite Qcn_S; ring).
  assert (Hp : (0 < Qcn (n - 1))%Qc) by (apply Qcn_pos; lia). field. intro E. rewrite E in Hp. discriminate Hp.
Qed.
Section Bars.
Variables (n : nat) (v : vec).
Hypothesis Hn : 2 <= n.
Hypothesis Dv : distribution n v.
Let d := map (fun y => y * Q2Qc (9 # 10))%Qc v.
Lemma len_v : length v = n. Proof. exact (proj1 Dv). Qed.
Lemma len_d : length d = n. Proof. unfold d. rewrite map_length. exact len_v. Qed.
Lemma vget_d i : i < n -> vget d i = (vget v i * Q2Qc (9 # 10))%Qc.
Proof. intros H. unfold d. rewrite vget_map by (rewrite len_v; exact H). reflexivity. Qed.
Lemma v_nonneg i : i < n -> (0 <= vget v i)%Qc.
Proof. intros H. apply (proj1 (proj2 Dv)), H. Qed.
Lemma v_sum : sumn n (vget v) = 1q.
Proof. exact (proj2 (proj2 Dv)). Qed.
Lemma partial_nonneg i : i <= n -> (0 <= sumn i (vget v))%Qc.
Proof. intros H. apply sumn_nonneg. intros j Hj. apply v_nonneg. lia. Qed.
Lemma partial_le i : i <= n -> (sumn i (vget v) <= 1)%Qc.
Proof.
  intros H. rewrite <- v_sum. replace n with (i + (n - i)) by lia. rewrite sumn_split.
  assert (0 <= sumn (n - i) (fun j => vget v (i + j)%nat))%Qc by (apply sumn_nonneg; intros j Hj; apply v_nonneg; lia). qclra.
Qed.
Lemma cum_d i : i < n -> vget (cumulate (map (fun y => y + flow_gap (length d))%Qc d)) i = (Q2Qc (9 # 10) * sumn (S i) (vget v) + Qcn (S i) * flow_gap n)%Qc.
Proof.
  intros Hi. rewrite vget_cumulate by (rewrite map_length, len_d; exact Hi).
  rewrite (sumn_ext (S i) _ (fun j => Q2Qc (9 # 10) * vget v j + flow_gap n)%Qc).
  - rewrite sumn_plus, sumn_mul_l, sumn_const_n. reflexivity.
  - intros j Hj. rewrite vget_map by (rewrite len_d; lia). rewrite vget_d by lia. rewrite len_d. ring.
Qed.
Lemma gaps_le i : i < n -> (Qcn i * flow_gap n <= Q2Qc (1 # 10))%Qc.
Proof.
  intros H. rewrite <- (gap_total n Hn). apply Qcmult_le_compat_r; [apply Qcn_le; lia|]. apply Qclt_le_weak, gap_pos, Hn.
Qed.
Lemma gaps_nonneg i : (0 <= Qcn i * flow_gap n)%Qc.
Proof. apply Qc_mul_nonneg; [apply Qcn_nonneg|apply Qclt_le_weak, gap_pos, Hn]. Qed.
Lemma bottoms_spec i : i < n -> vget (bar_bottoms d) i = bottom_of n (vget v) i.
Proof.
  intros Hi. unfold bar_bottoms. rewrite vget_tab by (rewrite len_d; exact Hi). rewrite cum_d by exact Hi. rewrite vget_d by exact Hi.
  assert (E : (Q2Qc (9 # 10) * sumn (S i) (vget v) + Qcn (S i) * flow_gap n - vget v i * Q2Qc (9 # 10) - flow_gap (length d))%Qc = bottom_of n (vget v) i).
  { rewrite len_d. unfold bottom_of. cbn [sumn]. rewrite Qcn_S. ring. }
  rewrite E. unfold bottom_of. pose proof (partial_nonneg i ltac:(lia)). pose proof (partial_le i ltac:(lia)). pose proof (gaps_le i Hi). pose proof (gaps_nonneg i).
  apply clip_id; qclra.
Qed.
Lemma tops_spec i : i < n -> vget (bar_tops d) i = (bottom_of n (vget v) i + Q2Qc (9 # 10) * vget v i)%Qc.
Proof.
  intros Hi. unfold bar_tops. rewrite vget_tab by (rewrite len_d; exact Hi). rewrite cum_d by exact Hi.
  assert (E : (Q2Qc (9 # 10) * sumn (S i) (vget v) + Qcn (S i) * flow_gap n - flow_gap (length d))%Qc = (Q2Qc (9 # 10) * sumn (S i) (vget v) + Qcn i * flow_gap n)%Qc).
  { rewrite len_d. rewrite Qcn_S. ring. }
  rewrite E. pose proof (partial_nonneg (S i) Hi). pose proof (partial_le (S i) Hi). pose proof (gaps_le i Hi). pose proof (gaps_nonneg i).
  rewrite clip_id by qclra. unfold bottom_of. cbn [sumn]. ring.
Qed.
End Bars.

(** ** Flows *)
Definition stripe0 := mkstripe 0 0 0 0.
Lemma rows_spec n q d bb B : wf n n q -> forall m a bj, a + m <= n ->
  (forall z, z < n -> vget bj z = (B z + sumn a (fun i => mget q i z * vget d i))%Qc) ->
  length (flow_rows q d bb bj (seq a m)) = m /\
  forall i, i < m -> length (nth i (flow_rows q d bb bj (seq a m)) []) = n /\
  forall z, z < n -> nth z (nth i (flow_rows q d bb bj (seq a m)) []) stripe0 =
    mkstripe (sumn z (mget q (a + i)) * vget d (a + i) + vget bb (a + i))%Qc (sumn (S z) (mget q (a + i)) * vget d (a + i) + vget bb (a + i))%Qc
      (B z + sumn (a + i) (fun k => mget q k z * vget d k))%Qc (B z + sumn (S (a + i)) (fun k => mget q k z * vget d k))%Qc.
Proof.
  intros W. induction m as [|m IH]; intros a bj Ha HB; cbn [seq flow_rows]; [split; [reflexivity|]; intros; lia|]. cbv zeta.
  assert (L : length (mrow q a) = n) by (apply (wf_mrow n n); [exact W|lia]). rewrite L.
  assert (C : forall z, z < n -> vget (cumulate (mrow q a)) z = sumn (S z) (mget q a)) by (intros z Hz; rewrite vget_cumulate by lia; reflexivity).
  match goal with |- context [flow_rows q d bb ?b (seq (S a) m)] => set (bj' := b) end.
  assert (HB' : forall z, z < n -> vget bj' z = (B z + sumn (S a) (fun i => mget q i z * vget d i))%Qc).
  { intros z Hz. unfold bj'. rewrite !vget_tab by exact Hz. rewrite C, HB by exact Hz. rewrite <- mget_mrow. cbn [sumn]. ring. }
  destruct (IH (S a) bj' ltac:(lia) HB') as [L' H']. cbn [length]. split; [now rewrite L'|].
  intros [|i] Hi; cbn [nth].
  - rewrite tab_length. split; [reflexivity|]. intros z Hz. rewrite tab_nth by exact Hz. rewrite !vget_tab by exact Hz. rewrite C, HB by exact Hz. rewrite <- mget_mrow. rewrite Nat.add_0_r.
    f_equal; cbn [sumn]; ring.
  - destruct (H' i ltac:(lia)) as [L2 H2]. split; [exact L2|]. intros z Hz. rewrite (H2 z Hz). replace (S a + i) with (a + S i) by lia. reflexivity.
Qed.
Lemma columns_nth p I : forall ds, length (flow_columns p I ds) = length ds - 1 /\
  forall t, S t < length ds -> nth t (flow_columns p I ds) [] = flow_column p I (nth t ds []) (nth (S t) ds []).
Proof.
  induction ds as [|d ds [L H]]; [split; [reflexivity|]; cbn; lia|]. destruct ds as [|d' ds]; [split; [reflexivity|]; cbn; lia|].
  change (flow_columns p I (d :: d' :: ds)) with (flow_column p I d d' :: flow_columns p I (d' :: ds)). split; [cbn [length] in *; lia|].
  intros [|t] Ht; [reflexivity|]. cbn [nth] in *. rewrite H by (cbn [length] in *; lia). reflexivity.
Qed.
Lemma step_dist_add n P x a b j : j < n -> step_dist n P x (a + b) j = sumn n (fun i => step_dist n P x a i * kstep n P b i j)%Qc.
Proof.
  intros Hj. unfold step_dist.
  rewrite (sumn_ext n _ (fun s => sumn n (fun i => vget x s * kstep n P a s i * kstep n P b i j))%Qc).
  - rewrite sumn_swap. apply sumn_ext. intros i Hi. now rewrite sumn_mul_r.
  - intros s Hs. destruct (kstep_add n P a b s j) as [E|E]; [|contradiction]. rewrite E, <- sumn_mul_l. apply sumn_ext. intros; ring.
Qed.
Lemma plot_flow_inv n P steps I x : 2 <= n -> stochastic n P -> distribution n x -> 1 <= steps -> 1 <= I ->
  exists ds, length ds = S steps /\ (forall t, t <= steps -> distribution n (nth t ds []) /\ forall j, j < n -> vget (nth t ds []) j = step_dist n P x (t * I) j) /\
  let es := map (map (fun y => y * Q2Qc (9 # 10))%Qc) ds in
  plot_flow P steps I x = Ok (mkdiagram (map (fun d => combine (bar_bottoms d) (bar_tops d)) es) (flow_columns P I es)
        (Qcn (length es) / Q2Qc 40)%Qc ((- Q2Qc (1 # 2))%Qc, (Qcn steps - Q2Qc (1 # 2))%Qc)).
Proof.
  intros Hn St D Hs HI. destruct (distributions_spec n P steps I x ltac:(lia) St D Hs HI) as [ds [E [L H]]].
  exists ds. split; [exact L|]. split; [exact H|]. cbv zeta. unfold plot_flow. destruct (Nat.leb_spec 1 steps); [|lia]. destruct (Nat.leb_spec 1 I); [|lia].
  cbn [andb]. rewrite E. reflexivity.
Qed.
Lemma nth_scaled t (ds : list vec) : nth t (map (map (fun y => y * Q2Qc (9 # 10))%Qc) ds) [] = map (fun y => y * Q2Qc (9 # 10))%Qc (nth t ds []).
Proof. change (@nil Qc) with (map (fun y => y * Q2Qc (9 # 10))%Qc []) at 1. apply map_nth. Qed.
Section Drawn.
Variables (n : nat) (P : mat) (steps I : nat) (x : vec) (ds : list vec) (w : Qc) (xl : Qc * Qc).
Hypothesis Hn : 2 <= n.
Hypothesis St : stochastic n P.
Hypothesis L : length ds = S steps.
Hypothesis H : forall t, t <= steps -> distribution n (nth t ds []) /\ forall j, j < n -> vget (nth t ds []) j = step_dist n P x (t * I) j.
Let es : list vec := map (map (fun y => y * Q2Qc (9 # 10))%Qc : vec -> vec) ds.
Let f := mkdiagram (map (fun d => combine (bar_bottoms d) (bar_tops d)) es) (flow_columns P I es) w xl.
Lemma column_at t : t <= steps -> nth t (fd_bars f) [] = combine (bar_bottoms (nth t es [])) (bar_tops (nth t es [])) /\ length (nth t es []) = n.
Proof.
  intros Ht. split.
  - unfold f. cbn [fd_bars]. set (F := fun d => combine (bar_bottoms d) (bar_tops d)). transitivity (nth t (map F es) (F [])).
    + apply nth_indep. rewrite map_length. assert (L' : length es = S steps) by (unfold es; rewrite map_length; exact L). exact (eq_ind_r (fun k => t < k) (proj2 (Nat.lt_succ_r t steps) Ht) L').
    + exact (map_nth F es [] t).
  - unfold es. rewrite nth_scaled, map_length. apply (proj1 (H t Ht)).
Qed.
Lemma bar_at t i : t <= steps -> i < n -> bar f t i = (bottom_of n (step_dist n P x (t * I)) i, bottom_of n (step_dist n P x (t * I)) i + Q2Qc (9 # 10) * step_dist n P x (t * I) i)%Qc.
Proof.
  intros Ht Hi. destruct (column_at t Ht) as [E El]. destruct (H t Ht) as [D V]. unfold bar. rewrite E.
  rewrite combine_nth by (unfold bar_bottoms, bar_tops; now rewrite !tab_length). change (nth i (bar_bottoms (nth t es [])) 0q) with (vget (bar_bottoms (nth t es [])) i). change (nth i (bar_tops (nth t es [])) 0q) with (vget (bar_tops (nth t es [])) i).
  unfold es. rewrite nth_scaled. rewrite (bottoms_spec n), (tops_spec n) by assumption. rewrite V by exact Hi.
  assert (Eb : bottom_of n (vget (nth t ds [])) i = bottom_of n (step_dist n P x (t * I)) i).
  { unfold bottom_of. f_equal. f_equal. apply sumn_ext. intros j Hj. apply V. lia. }
  now rewrite Eb.
Qed.
Lemma bars_ok : bars_drawn n steps (fun t i => step_dist n P x (t * I) i) f.
Proof.
  split; [unfold f; cbn [fd_bars]; unfold es; rewrite !map_length; exact L|]. intros t Ht. destruct (column_at t Ht) as [E El]. destruct (H t Ht) as [D V].
  assert (S1 : sumn n (step_dist n P x (t * I)) = 1q).
  { rewrite <- (proj2 (proj2 D)). apply sumn_ext. intros j Hj. symmetry. apply V, Hj. }
  assert (Nn : forall i, i <= n -> (0 <= sumn i (step_dist n P x (t * I)))%Qc).
  { intros i Hi. apply sumn_nonneg. intros j Hj. rewrite <- V by lia. apply (proj1 (proj2 D)). lia. }
  assert (Le : forall i, i <= n -> (sumn i (step_dist n P x (t * I)) <= 1)%Qc).
  { intros i Hi. rewrite <- S1. replace n with (i + (n - i)) at 2 by lia. rewrite sumn_split.
    assert (0 <= sumn (n - i) (fun j => step_dist n P x (t * I) (i + j)%nat))%Qc by (apply sumn_nonneg; intros j Hj; rewrite <- V by lia; apply (proj1 (proj2 D)); lia). qclra. }
  split; [rewrite E, combine_length; unfold bar_bottoms, bar_tops; rewrite !tab_length, El; apply Nat.min_id|].
  split; [rewrite bar_at by lia; cbn [fst]; unfold bottom_of; cbn [sumn]; rewrite Qcn_0; ring|].
  split.
  - rewrite bar_at by lia. cbn [snd]. unfold bottom_of. rewrite gap_total by exact Hn.
    assert (S2 : (sumn (n - 1) (step_dist n P x (t * I)) + step_dist n P x (t * I) (n - 1) = 1)%Qc) by (rewrite <- S1; apply sumn_last; lia).
    replace (step_dist n P x (t * I) (n - 1)) with (1 - sumn (n - 1) (step_dist n P x (t * I)))%Qc by (rewrite <- S2; ring).
    transitivity (Q2Qc (9 # 10) + Q2Qc (1 # 10))%Qc; [ring|]. apply Qceqb_eq; vm_compute; reflexivity.
  - intros i Hi. rewrite bar_at by assumption. cbn [fst snd]. split; [ring|].
    pose proof (Nn i ltac:(lia)). pose proof (Nn (S i) ltac:(lia)) as N2. pose proof (Le (S i) ltac:(lia)) as L2. pose proof (gaps_le n Hn i Hi). pose proof (gaps_nonneg n Hn i). cbn [sumn] in N2, L2.
    split; [unfold bottom_of; qclra|]. split; [unfold bottom_of; qclra|]. intros Hi'. rewrite bar_at by assumption. cbn [fst]. unfold bottom_of. cbn [sumn]. rewrite Qcn_S. fold (flow_gap n). ring.
Qed.

Lemma stripe_at t i j : t < steps -> i < n -> j < n ->
  let y := step_dist n P x (t * I) in let y' := step_dist n P x (S t * I) in let q := kstep n P I in
  length (nth t (fd_flows f) []) = n /\ length (nth i (nth t (fd_flows f) []) []) = n /\
  stripe_of f t i j = mkstripe (sumn j (q i) * (y i * Q2Qc (9 # 10)) + bottom_of n y i)%Qc (sumn (S j) (q i) * (y i * Q2Qc (9 # 10)) + bottom_of n y i)%Qc
    (bottom_of n y' j + sumn i (fun k => q k j * (y k * Q2Qc (9 # 10))))%Qc (bottom_of n y' j + sumn (S i) (fun k => q k j * (y k * Q2Qc (9 # 10))))%Qc.
Proof.
  intros Ht Hi Hj. cbv zeta. destruct (H t ltac:(lia)) as [D V]. destruct (H (S t) ltac:(lia)) as [D' V'].
  assert (W : wf n n P) by (exact (proj1 St)).
  assert (Q : forall a b, a < n -> b < n -> mget (mpow P I) a b = kstep n P I a b) by (intros a b Ha Hb; apply mpow_kstep; [lia|exact W|exact Ha|exact Hb]).
  assert (Wq : wf n n (mpow P I)) by (apply wf_mpow; [lia|exact W]).
  assert (L' : length es = S steps) by (unfold es; rewrite map_length; exact L).
  assert (E : nth t (fd_flows f) [] = flow_rows (mpow P I) (nth t es []) (bar_bottoms (nth t es [])) (bar_bottoms (nth (S t) es [])) (seq 0 n)).
  { unfold f. cbn [fd_flows]. rewrite (proj2 (columns_nth P I es) t) by (rewrite L'; lia). unfold flow_column. rewrite (proj2 (column_at t ltac:(lia))). reflexivity. }
  assert (B : forall s, s <= steps -> forall a, a < n -> vget (bar_bottoms (nth s es [])) a = bottom_of n (step_dist n P x (s * I)) a).
  { intros s Hs a Ha. destruct (H s Hs) as [Ds Vs]. unfold es. rewrite nth_scaled, (bottoms_spec n) by assumption. unfold bottom_of. f_equal. f_equal. apply sumn_ext. intros b Hb. apply Vs. lia. }
  assert (Y : forall a, a < n -> vget (nth t es []) a = (step_dist n P x (t * I) a * Q2Qc (9 # 10))%Qc).
  { intros a Ha. unfold es. rewrite nth_scaled. rewrite (vget_d n) by assumption. now rewrite V. }
  destruct (rows_spec n (mpow P I) (nth t es []) (bar_bottoms (nth t es [])) (fun z => vget (bar_bottoms (nth (S t) es [])) z) Wq n 0 (bar_bottoms (nth (S t) es []))) as [L1 H1]; [lia|intros z Hz; cbn [sumn]; ring|].
  destruct (H1 i Hi) as [L2 H2]. unfold stripe_of. rewrite E. split; [exact L1|]. split; [exact L2|]. fold stripe0. rewrite (H2 j Hj). cbn [Nat.add].
  rewrite Y, !B by lia.
  assert (A1 : forall m, m <= n -> sumn m (mget (mpow P I) i) = sumn m (kstep n P I i)) by (intros m Hm; apply sumn_ext; intros b Hb; apply Q; lia).
  assert (A2 : forall m, m <= n -> sumn m (fun k => mget (mpow P I) k j * vget (nth t es []) k)%Qc = sumn m (fun k => kstep n P I k j * (step_dist n P x (t * I) k * Q2Qc (9 # 10)))%Qc).
  { intros m Hm. apply sumn_ext. intros b Hb. rewrite Q, Y by lia. reflexivity. }
  rewrite !A1, !A2 by lia. reflexivity.
Qed.
Lemma flows_ok : 1 <= steps -> flows_drawn n steps (fun t i j => step_dist n P x (t * I) i * kstep n P I i j)%Qc f.
Proof.
  intros Hs. assert (L' : length es = S steps) by (unfold es; rewrite map_length; exact L).
  split; [unfold f; cbn [fd_flows]; rewrite (proj1 (columns_nth P I es)), L'; lia|]. intros t Ht.
  split; [apply (stripe_at t 0 0); lia|]. split.
  - intros i Hi. split; [apply (stripe_at t i 0); lia|].
    destruct (stripe_at t i 0 Ht Hi ltac:(lia)) as [_ [_ E1]]. destruct (stripe_at t i (n - 1) Ht Hi ltac:(lia)) as [_ [_ E2]].
    destruct (stripe_at t 0 i Ht ltac:(lia) Hi) as [_ [_ E3]]. destruct (stripe_at t (n - 1) i Ht ltac:(lia) Hi) as [_ [_ E4]].
    rewrite E1, E2, E3, E4. cbn [fl_l0 fl_l1 fl_r0 fl_r1]. rewrite !bar_at by lia. cbn [fst snd].
    replace (S (n - 1)) with n by lia. assert (Ks : sumn n (kstep n P I i) = 1q) by exact (kstep_sum n P I St i Hi). rewrite Ks.
    split; [cbn [sumn]; ring|]. split; [ring|]. split; [cbn [sumn]; ring|].
    f_equal. rewrite (sumn_ext n _ (fun k => Q2Qc (9 # 10) * (step_dist n P x (t * I) k * kstep n P I k i))%Qc) by (intros; ring).
    rewrite sumn_mul_l. f_equal. replace (S t * I) with (t * I + I) by lia. symmetry. apply step_dist_add, Hi.
  - intros i j Hi Hj. destruct (stripe_at t i j Ht Hi Hj) as [_ [_ E]]. rewrite E. cbn [fl_l0 fl_l1 fl_r0 fl_r1].
    split; [cbn [sumn]; ring|]. split; [cbn [sumn]; ring|]. split; intros Hx.
    + destruct (stripe_at t i (S j) Ht Hi Hx) as [_ [_ E']]. rewrite E'. reflexivity.
    + destruct (stripe_at t (S i) j Ht Hx Hj) as [_ [_ E']]. rewrite E'. reflexivity.
Qed.
End Drawn.
Lemma flow_drawn n P steps I x : 2 <= n -> stochastic n P -> distribution n x -> 1 <= steps -> 1 <= I ->
  exists f, plot_flow P steps I x = Ok f /\ bars_drawn n steps (fun t i => step_dist n P x (t * I) i) f /\
    flows_drawn n steps (fun t i j => step_dist n P x (t * I) i * kstep n P I i j)%Qc f.
Proof.
  intros Hn St D Hs HI. destruct (plot_flow_inv n P steps I x Hn St D Hs HI) as [ds [L [H E]]]. cbv zeta in E.
  eexists. split; [exact E|]. split; [apply bars_ok; assumption|apply flows_ok; assumption].
Qed.
Lemma flow_limits n P steps I x f : 2 <= n -> stochastic n P -> distribution n x -> plot_flow P steps I x = Ok f ->
  1 <= steps /\ fd_xlim f = ((- Q2Qc (1 # 2))%Qc, (Qcn steps - Q2Qc (1 # 2))%Qc) /\ fd_halfwidth f = ((Qcn steps + 1) / Q2Qc 40)%Qc.
Proof.
  intros Hn St D E. assert (G : 1 <= steps /\ 1 <= I).
  { unfold plot_flow in E. destruct (Nat.leb_spec 1 steps); destruct (Nat.leb_spec 1 I); cbn in E; try discriminate. auto. }
  destruct G as [G1 G2]. destruct (plot_flow_inv n P steps I x Hn St D G1 G2) as [ds [L [_ E']]]. cbv zeta in E'. rewrite E in E'. injection E' as ->. split; [exact G1|]. split; [reflexivity|]. cbn [fd_halfwidth].
  rewrite map_length. replace (Qcn (length ds)) with (Qcn (S steps)) by (f_equal; symmetry; exact L). now rewrite Qcn_S.
Qed.
(** The last column is outside the visible range, or neighbouring columns overlap. *)
Lemma flow_hidden n P steps I x f : 2 <= n -> stochastic n P -> distribution n x -> plot_flow P steps I x = Ok f ->
  (steps < 20 /\ (snd (fd_xlim f) <= bar_left f steps)%Qc) \/ (20 <= steps /\ forall c, (bar_left f (S c) < bar_right f c)%Qc /\ (flow_to f c < flow_from f c)%Qc).
Proof.
  intros Hn St D E. destruct (flow_limits n P steps I x f Hn St D E) as [Hs [X W]].
  unfold bar_left, bar_right, flow_to, flow_from. rewrite X, W. cbn [snd].
  assert (E40 : ((Qcn steps + 1) / Q2Qc 40 = (Qcn steps + 1) * Q2Qc (1 # 40))%Qc) by (unfold Qcdiv; f_equal).
  rewrite E40. destruct (lt_dec steps 20) as [Hl|Hl]; [left|right].
  - split; [exact Hl|]. assert (Q : (Qcn steps <= Qcn 19)%Qc) by (apply Qcn_le; lia). change (Qcn 19) with (Q2Qc 19) in Q. qclra.
  - split; [lia|]. intros c. assert (Q : (Qcn 20 <= Qcn steps)%Qc) by (apply Qcn_le; lia). change (Qcn 20) with (Q2Qc 20) in Q. rewrite Qcn_S. split; qclra.
Qed.
Lemma flow_shown n P steps I x f : 2 <= n -> stochastic n P -> distribution n x -> plot_flow P steps I x = Ok f -> steps < 19 ->
  forall c, c < steps -> (fst (fd_xlim f) < bar_left f c)%Qc /\ (bar_right f c < snd (fd_xlim f))%Qc /\ (bar_right f c < bar_left f (S c))%Qc.
Proof.
  intros Hn St D E Hl c Hc. destruct (flow_limits n P steps I x f Hn St D E) as [Hs [X W]].
  unfold bar_left, bar_right. rewrite X, W. cbn [fst snd].
  assert (E40 : ((Qcn steps + 1) / Q2Qc 40 = (Qcn steps + 1) * Q2Qc (1 # 40))%Qc) by (unfold Qcdiv; f_equal).
  rewrite E40. assert (Q : (Qcn steps <= Qcn 18)%Qc) by (apply Qcn_le; lia). change (Qcn 18) with (Q2Qc 18) in Q.
  assert (Q1 : (Qcn c + 1 <= Qcn steps)%Qc) by (rewrite <- Qcn_S; apply Qcn_le; lia). pose proof (Qcn_nonneg c). rewrite Qcn_S. repeat split; qclra.
Qed.
