(** L_HitT: hitting times. *)
From Verif Require Export L_HitP.
Open Scope nat_scope.

Lemma NoDup_same_length (l l' : list nat) : NoDup l -> incl l l' -> length l' <= length l -> incl l' l.
Proof. intros ND I L. apply NoDup_length_incl; assumption. Qed.

Section INF.
Variables (n : nat) (P : mat) (T : list nat).
Hypothesis St : stochastic n P.
Definition up_closed (I : list nat) : Prop := forall i j, i < n -> ~ In i T -> In j I -> (0 < mget P i j)%Qc -> In i I.
Lemma inf_step_in infinity i : (forall x, In x infinity -> x < n) -> (forall x, In x infinity -> ~ In x T) ->
  In i (filter (fun i => (memn i infinity || memn i (filter (fun i => negb (Qceqb (lsum (map (fun j => mget P i j) infinity)) 0)) (seq 0 n))) && negb (memn i T)) (seq 0 n)) <->
  In i infinity \/ (i < n /\ ~ In i T /\ exists j, In j infinity /\ (0 < mget P i j)%Qc).
Proof.
  intros Li Di. rewrite filter_In, in_seq, andb_true_iff, orb_true_iff, negb_true_iff, !memn_In, memn_false, filter_In, in_seq, negb_true_iff.
  assert (LS : i < n -> (Qceqb (lsum (map (fun j => mget P i j) infinity)) 0 = false <-> exists j, In j infinity /\ (0 < mget P i j)%Qc)).
  { intros Hi. split.
    - intros E. destruct (existsb (fun j => Qcltb 0 (mget P i j)) infinity) eqn:Ex.
      + apply existsb_exists in Ex. destruct Ex as (j & Ij & Lj). exists j. split; [exact Ij|]. apply Qcltb_lt. exact Lj.
      + exfalso. assert (Z : lsum (map (fun j => mget P i j) infinity) = 0q).
        { apply lsum_map_0. intros j Ij. destruct (Qcle_lt_or_eq _ _ (proj1 (proj2 St) i j Hi (Li j Ij))) as [L|L]; [|symmetry; exact L]. exfalso.
          assert (Q : existsb (fun j => Qcltb 0 (mget P i j)) infinity = true) by (apply existsb_exists; exists j; split; [exact Ij|apply Qcltb_lt; exact L]). congruence. }
        rewrite Z in E. assert (Q : Qceqb 0q 0 = true) by (apply Qceqb_eq; reflexivity). congruence.
    - intros (j & Ij & Lj). destruct (Qceqb (lsum (map (fun j => mget P i j) infinity)) 0) eqn:E; [|reflexivity]. exfalso. apply Qceqb_eq in E.
      assert (G : (0 < lsum (map (fun j => mget P i j) infinity))%Qc).
      { apply in_split in Ij. destruct Ij as (l1 & l2 & Es). rewrite Es, map_app, lsum_app. cbn [map]. change (lsum (mget P i j :: map (fun j0 : nat => mget P i j0) l2)) with (mget P i j + lsum (map (fun j0 : nat => mget P i j0) l2))%Qc.
        assert (G1 : (0 <= lsum (map (fun j => mget P i j) l1))%Qc) by (apply lsum_nonneg; intros x Ix; apply in_map_iff in Ix; destruct Ix as (y & <- & Iy); apply St; [exact Hi|apply Li; rewrite Es; apply in_or_app; left; exact Iy]).
        assert (G2 : (0 <= lsum (map (fun j => mget P i j) l2))%Qc) by (apply lsum_nonneg; intros x Ix; apply in_map_iff in Ix; destruct Ix as (y & <- & Iy); apply St; [exact Hi|apply Li; rewrite Es; apply in_or_app; right; right; exact Iy]).
        qclra. }
      rewrite E in G. exact (Qclt_not_eq _ _ G eq_refl). }
  split.
  - intros (H1 & [H2|(H2 & H3)] & H4); [left; exact H2|right]. split; [lia|]. split; [exact H4|]. apply LS; [lia|exact H3].
  - intros [H|(H1 & H2 & H3)].
    + split; [split; [lia|apply Li; exact H]|]. split; [left; exact H|apply Di; exact H].
    + split; [lia|]. split; [right; split; [lia|apply LS; [exact H1|exact H3]]|exact H2].
Qed.
Lemma ht_inf_ok (Q : nat -> Prop) : (forall i j, i < n -> ~ In i T -> (0 < mget P i j)%Qc -> j < n -> Q j -> Q i) ->
  forall fuel inf cur new, cur = length inf -> NoDup inf -> (forall x, In x inf -> x < n) -> (forall x, In x inf -> ~ In x T) -> (forall x, In x inf -> Q x) ->
  (cur = new -> up_closed inf) -> (cur = new \/ n - cur < fuel) ->
  exists I, ht_inf fuel P T inf cur new = Ok I /\ incl inf I /\ (forall x, In x I -> x < n /\ ~ In x T /\ Q x) /\ up_closed I.
Proof.
  intros HQ. assert (En : nrows P = n) by (apply (wf_nrows n n); apply St).
  assert (Done : forall fuel inf cur new, (forall x, In x inf -> x < n) -> (forall x, In x inf -> ~ In x T) -> (forall x, In x inf -> Q x) ->
     (cur = new -> up_closed inf) -> cur = new -> exists I, ht_inf fuel P T inf cur new = Ok I /\ incl inf I /\ (forall x, In x I -> x < n /\ ~ In x T /\ Q x) /\ up_closed I).
  { intros fuel inf cur new Li Di Qi Cl E. exists inf. split; [destruct fuel; cbn [ht_inf]; rewrite E, Nat.eqb_refl; reflexivity|].
    split; [apply incl_refl|]. split; [|apply Cl; exact E]. intros x Ix. auto. }
  induction fuel as [|fuel IH]; intros inf cur new Ec NDi Li Di Qi Cl Fu.
  - destruct Fu as [E|F]; [|lia]. apply Done; assumption.
  - destruct (Nat.eq_dec cur new) as [E|E]; [apply Done; assumption|]. destruct Fu as [F|Fu]; [contradiction|].
    cbn [ht_inf]. destruct (Nat.eqb_spec cur new) as [F|_]; [contradiction|]. rewrite En.
    set (inf' := filter _ (seq 0 n)).
    assert (M : forall i, In i inf' <-> In i inf \/ (i < n /\ ~ In i T /\ exists j, In j inf /\ (0 < mget P i j)%Qc)) by (intros i; apply inf_step_in; assumption).
    assert (ND' : NoDup inf') by (apply NoDup_filter, seq_NoDup).
    assert (Inc : incl inf inf') by (intros x Ix; apply M; left; exact Ix).
    assert (Le : length inf <= length inf') by (apply NoDup_incl_length; assumption).
    assert (Li' : forall x, In x inf' -> x < n) by (intros x Ix; apply filter_In in Ix; destruct Ix as [Ix _]; apply in_seq in Ix; lia).
    assert (Len : length inf' <= n) by (rewrite <- (seq_length n 0); apply NoDup_incl_length; [exact ND'|intros x Ix; apply in_seq; specialize (Li' x Ix); lia]).
    destruct (IH inf' (length inf') cur eq_refl ND' Li') as (I & EI & Inc2 & HI & CI).
    + intros x Ix. apply M in Ix. destruct Ix as [Ix|Ix]; [apply Di; exact Ix|apply Ix].
    + intros x Ix. apply M in Ix. destruct Ix as [Ix|(Hx & Nx & j & Ij & Lj)]; [apply Qi; exact Ix|]. apply (HQ x j Hx Nx Lj (Li j Ij)). apply Qi. exact Ij.
    + intros El i j Hi Ni Ij Lij. apply M. right. split; [exact Hi|]. split; [exact Ni|]. exists j. split; [|exact Lij].
      apply (NoDup_same_length inf inf' NDi Inc); [lia|exact Ij].
    + destruct (Nat.eq_dec (length inf') cur) as [El|El]; [left; exact El|right]. lia.
    + exists I. split; [exact EI|]. split; [intros x Ix; apply Inc2, Inc, Ix|]. split; [exact HI|exact CI].
Qed.
End INF.
Lemma tends_not_grows f l : tends f l -> grows f -> False.
Proof.
  intros H G. destruct (H 1q eq_refl) as (N & HN). destruct (G (l + 1)%Qc) as (M & HM).
  specialize (HN (N + M) ltac:(lia)). specialize (HM (N + M) ltac:(lia)). apply Qcabs_lt in HN. qclra.
Qed.
Lemma hit_lt_grows n P T i h : stochastic n P -> i < n -> tends (fun k => hit_by n P T k i) h -> (h < 1)%Qc -> grows (fun k => mean_hit_by n P T k i).
Proof.
  intros St Hi Th L b.
  assert (U : forall k, (1 - h <= never_by n P T k i)%Qc).
  { intros k. pose proof (hit_never n P T St k i Hi) as E. assert (hit_by n P T k i <= h)%Qc; [|qclra].
    apply (tends_ge (fun l => hit_by n P T (k + l) i)).
    - intros eps He. destruct (Th eps He) as (N & HN). exists N. intros l Hl. apply HN. lia.
    - intros l. apply hit_mono_le; [exact St|exact Hi|lia]. }
  destruct (archimedes (b / (1 - h))) as (q & Hq). exists q. intros k Hk.
  assert (D : (0 < 1 - h)%Qc) by qclra.
  apply Qclt_le_trans with (Qcn k * (1 - h))%Qc.
  - apply Qclt_le_trans with (Qcn q * (1 - h))%Qc.
    + replace b with (b / (1 - h) * (1 - h))%Qc at 1 by (field; apply Qc_lt_neq; exact D). apply Qcmult_lt_compat_r; assumption.
    + apply Qcmult_le_compat_r; [apply Qcn_le; exact Hk|apply Qclt_le_weak; exact D].
  - unfold mean_hit_by. rewrite <- (sumn_const_n k (1 - h)%Qc). apply sumn_le. intros t _. apply U.
Qed.

Lemma isclose_0_iff x : (0 <= x)%Qc -> isclose x 0 = true <-> (x <= atol)%Qc.
Proof. intros H. rewrite isclose_0, Qcabs_eq_nonneg by exact H. reflexivity. Qed.
Lemma index_of_nat_Some i l k : index_of Nat.eqb i l = Some k -> k < length l /\ nth k l 0 = i.
Proof.
  intros H. apply (index_of_Some Nat.eqb Nat_eqb_iff) in H. destruct H as [H _]. split; [apply nth_error_Some; congruence|apply nth_error_nth; exact H].
Qed.
Lemma hitting_times_spec nnls n P T : nnls_basic nnls -> stochastic n P -> NoDup T -> (forall x, In x T -> x < n) ->
  exists l, hitting_times nnls P T = Ok l /\ length l = n /\
  forall i, i < n -> exists h, tends (fun k => hit_by n P T k i) h /\
    match nth i l None with
    | Some v => h = 1q /\ tends (fun k => mean_hit_by n P T k i) v
    | None => (h < 1)%Qc /\ grows (fun k => mean_hit_by n P T k i)
    end.
Proof.
  intros NN St ND Lt. destruct (hit_limit n P T St Lt) as (h & Th & H1 & Hh & H01 & Hpos).
  destruct (hitting_probabilities_spec nnls n P T NN St ND Lt) as (hp & Ehp & Lhp & Thp).
  assert (Vh : forall i, i < n -> vget hp i = h i) by (intros i Hi; exact (tends_unique _ _ _ (Thp i Hi) (Th i Hi))).
  unfold hitting_times. rewrite Ehp. cbn [bind]. assert (En : nrows P = n) by (apply (wf_nrows n n); apply St). rewrite En.
  set (inf0 := filter (fun i => isclose (vget hp i) 0) (seq 0 n)).
  assert (I0 : forall x, In x inf0 <-> x < n /\ (h x <= atol)%Qc).
  { intros x. unfold inf0. rewrite filter_In, in_seq. split; intros [Hx Ex]; (assert (Lx : x < n) by lia); (split; [lia|]);
      rewrite (Vh x Lx) in *; apply (isclose_0_iff (h x)); try exact Ex; apply H01; exact Lx. }
  assert (Q1 : forall x, In x inf0 -> (h x < 1)%Qc) by (intros x Ix; apply I0 in Ix; apply Qcle_lt_trans with atol; [apply Ix|reflexivity]).
  destruct (ht_inf_ok n P T St (fun i => (h i < 1)%Qc)) with (fuel := n + 2) (inf := inf0) (cur := length inf0) (new := 0) as (I & EI & Inc & HI & CI).
  { intros i j Hi Ni Lij Hj Qj. rewrite (Hh i Hi Ni). rewrite <- (st_row n P i St Hi). apply (sumn_lt n _ _ j Hj).
    - rewrite <- (Qcmult_1_r (mget P i j)) at 2. rewrite !(Qcmult_comm (mget P i j)). apply Qcmult_lt_compat_r; assumption.
    - intros k Hk. rewrite <- (Qcmult_1_r (mget P i k)) at 2. rewrite !(Qcmult_comm (mget P i k)). apply Qcmult_le_compat_r; [apply H01; exact Hk|apply St; assumption]. }
  { reflexivity. }
  { apply NoDup_filter, seq_NoDup. }
  { intros x Ix. apply I0 in Ix. apply Ix. }
  { intros x Ix IT. specialize (Q1 x Ix). rewrite (H1 x IT) in Q1. exact (Qclt_not_eq _ _ Q1 eq_refl). }
  { exact Q1. }
  { intros E. destruct inf0; [|discriminate]. intros i j _ _ []. }
  { right. lia. }
  rewrite EI. cbn [bind]. set (S0 := filter (fun i => negb (memn i T || memn i I)) (seq 0 n)).
  assert (HS : forall x, In x S0 <-> x < n /\ ~ In x T /\ ~ In x I).
  { intros x. unfold S0. rewrite filter_In, in_seq, negb_true_iff, orb_false_iff, !memn_false. split; [intros (A & B & C)|intros (A & B & C)]; repeat split; try assumption; lia. }
  assert (NDS : NoDup S0) by (apply NoDup_filter, seq_NoDup).
  assert (LtS : forall x, In x S0 -> x < n) by (intros x Ix; apply HS in Ix; apply Ix).
  assert (OutS : forall i, In i S0 -> exists b, ~ In b S0 /\ reach n (edge P) i b).
  { intros i Ii. apply HS in Ii. destruct Ii as (Hi & Ni & NI). assert (Lp : (0 < h i)%Qc).
    { destruct (Qcle_lt_or_eq _ _ (proj1 (H01 i Hi))) as [L|L]; [exact L|]. exfalso. apply NI, Inc, I0. split; [exact Hi|]. rewrite <- L. discriminate. }
    apply Hpos in Lp; [|exact Hi]. destruct Lp as (b & Ib & R). exists b. split; [|exact R]. intros F. apply HS in F. apply (proj1 (proj2 F) Ib). }
  assert (Rec : forall t i, In i S0 -> mean_hit_by n P T (S t) i = (1 + sumn n (fun j => if memn j S0 then mget P i j * mean_hit_by n P T t j else 0))%Qc).
  { intros t i Ii. pose proof Ii as Ii'. apply HS in Ii. destruct Ii as (Hi & Ni & NI). rewrite mean_hit_S by (apply memn_false; exact Ni). f_equal. apply sumn_ext. intros j Hj.
    destruct (memn j S0) eqn:E; [reflexivity|]. apply memn_false in E. destruct (memn j T) eqn:ET; [rewrite mean_hit_in by exact ET; ring|].
    destruct (memn j I) eqn:EIj.
    - apply memn_In in EIj. destruct (Qcle_lt_or_eq _ _ (proj1 (proj2 St) i j Hi Hj)) as [L|L]; [exfalso; apply NI; exact (CI i j Hi Ni EIj L)|]. rewrite <- L. ring.
    - exfalso. apply E, HS. split; [exact Hj|]. split; apply memn_false; assumption. }
  assert (X : exists x, (if Nat.eqb (length S0) 0 then Ok [] else nnls (msub (mix P S0 S0) (eye (length S0))) (repeat (- (1))%Qc (length S0))) = Ok x /\
     forall k, k < length S0 -> tends (fun t => mean_hit_by n P T t (nth k S0 0)) (vget x k)).
  { destruct (Nat.eqb_spec (length S0) 0) as [E|E]; [exists []; split; [reflexivity|]; lia|]. assert (L0 : 0 < length S0) by lia.
    destruct (exit_solve n P (fun i => memn i S0) (fun _ => 1q) St) as (y & Hy).
    { intros i _ Ei. apply memn_In in Ei. destruct (OutS i Ei) as (b & Nb & R). exists b. split; [apply memn_false; exact Nb|exact R]. }
    assert (Hy' : forall k, k < length S0 -> y (nth k S0 0) = (1 + sumn (length S0) (fun l => mget P (nth k S0 0%nat) (nth l S0 0%nat) * y (nth l S0 0%nat)))%Qc).
    { intros k Hk. rewrite (Hy (nth k S0 0)); [|apply LtS, nth_In; exact Hk|apply memn_In, nth_In; exact Hk]. f_equal.
      rewrite <- (sumn_block n S0 (fun j => if memn j S0 then (mget P (nth k S0 0%nat) j * y j)%Qc else 0q) NDS LtS).
      - apply sumn_ext. intros l Hl. rewrite (proj2 (memn_In _ S0)) by (apply nth_In; exact Hl). reflexivity.
      - intros j _ Nj. apply memn_false in Nj. rewrite Nj. reflexivity. }
    assert (Ty : forall k, k < length S0 -> tends (fun t => mean_hit_by n P T t (nth k S0 0)) (y (nth k S0 0))).
    { intros k Hk. apply (block_tends n P S0 (fun _ => 1q) (fun k => y (nth k S0 0)) (mean_hit_by n P T) St NDS LtS OutS Hy' Rec k Hk). }
    assert (My : mvmul (blk_a P S0) (map y S0) = repeat (- (1))%Qc (length S0)).
    { apply (vec_ext _ _ (length S0)); [apply (length_mvmul (length S0) (length S0)), blk_wf; exact L0|apply repeat_length|]. intros k Hk.
      rewrite blk_mv by assumption. assert (G : forall l, l < length S0 -> vget (map y S0) l = y (nth l S0 0)) by (intros l Hl; unfold vget; apply nth_map_default; exact Hl).
      rewrite (sumn_ext _ _ (fun l => mget P (nth k S0 0%nat) (nth l S0 0%nat) * y (nth l S0 0%nat))%Qc) by (intros l Hl; rewrite G by exact Hl; reflexivity).
      rewrite (G k Hk), (Hy' k Hk). unfold vget. rewrite nth_repeat_lt by exact Hk. ring. }
    destruct (NN (length S0) (length S0) (blk_a P S0) (repeat (- (1))%Qc (length S0)) L0 (blk_wf P S0 L0) (repeat_length _ _)) as (x & Ex & Lx & X0 & Mx & _).
    { exists (map y S0). split; [apply map_length|]. split; [|exact My]. intros k Hk. unfold vget. rewrite (nth_map_default y S0 k 0 0q) by exact Hk.
      apply (tends_ge _ _ _ (Ty k Hk)). intros t. unfold mean_hit_by. apply sumn_nonneg. intros u _. unfold never_by. apply prob_paths_nonneg; [apply St|]. apply LtS, nth_In, Hk. }
    exists x. split; [exact Ex|]. intros k Hk. replace (vget x k) with (y (nth k S0 0)); [apply Ty; exact Hk|].
    assert (Z : (vget x k - y (nth k S0 0%nat))%Qc = 0q); [|qclra].
    apply (blk_zero n P S0 (fun i => vget x i - y (nth i S0 0%nat))%Qc St NDS LtS OutS); [|exact Hk]. intros r Hr.
    assert (A1 : sumn (length S0) (fun i => mget (blk_a P S0) r i * vget x i)%Qc = vget (repeat (- (1))%Qc (length S0)) r).
    { rewrite <- Mx. rewrite (vget_mvmul (length S0) (length S0)); [reflexivity|apply blk_wf; exact L0|exact Hr]. }
    assert (A2 : sumn (length S0) (fun i => mget (blk_a P S0) r i * y (nth i S0 0%nat))%Qc = vget (repeat (- (1))%Qc (length S0)) r).
    { rewrite <- My. rewrite (vget_mvmul (length S0) (length S0)); [|apply blk_wf; exact L0|exact Hr]. apply sumn_ext. intros i Hi. f_equal. unfold vget. symmetry. apply nth_map_default. exact Hi. }
    rewrite (sumn_ext _ _ (fun i => mget (blk_a P S0) r i * vget x i - mget (blk_a P S0) r i * y (nth i S0 0%nat))%Qc) by (intros; ring).
    rewrite sumn_minus, A1, A2. ring. }
  destruct X as (x & Ex & Tx). rewrite Ex. cbn [bind]. eexists. split; [reflexivity|]. split; [apply tab_length|].
  intros i Hi. exists (h i). split; [apply Th; exact Hi|]. rewrite tab_nth by exact Hi.
  assert (G : (h i < 1)%Qc -> grows (fun k => mean_hit_by n P T k i)) by (apply (hit_lt_grows n P T i (h i) St Hi (Th i Hi))).
  assert (Fin1 : forall v, tends (fun k => mean_hit_by n P T k i) v -> h i = 1q).
  { intros v Tv. destruct (Qcle_lt_or_eq _ _ (proj2 (H01 i Hi))) as [L|L]; [|exact L]. exfalso. exact (tends_not_grows _ _ Tv (G L)). }
  destruct (memn i I) eqn:Ei.
  - apply memn_In in Ei. assert (L : (h i < 1)%Qc) by apply (HI i Ei). split; [exact L|exact (G L)].
  - destruct (index_of Nat.eqb i S0) as [k|] eqn:Ek.
    + destruct (index_of_nat_Some i S0 k Ek) as (Hk & En'). specialize (Tx k Hk). rewrite En' in Tx. split; [exact (Fin1 _ Tx)|exact Tx].
    + apply (index_of_None Nat.eqb Nat_eqb_iff) in Ek. destruct (memn i T) eqn:ET.
      * split; [apply H1, memn_In, ET|]. eapply tends_ext; [|apply tends_const]. intros k. symmetry. apply mean_hit_in. exact ET.
      * exfalso. apply Ek, HS. split; [exact Hi|]. split; apply memn_false; assumption.
Qed.
