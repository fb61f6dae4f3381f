(** L_Aggregate: groups of states and the matrix between them; the bottom-up aggregation. *)
From Verif Require Export M_Aggregate S_Aggregate L_Measures2.
Open Scope nat_scope.
Open Scope res_scope.

(** * Groups *)
Lemma members_In v i : In i (members v) <-> nth i v false = true.
Proof.
  unfold members. rewrite filter_In, in_seq. split; [tauto|]. intros H. split; [|exact H].
  destruct (Nat.lt_ge_cases i (length v)) as [L|L]; [lia|]. rewrite nth_overflow in H by exact L. discriminate.
Qed.
Lemma members_nd v : NoDup (members v).
Proof. apply NoDup_filter, seq_NoDup. Qed.
Lemma members_lt v i : In i (members v) -> i < length v.
Proof. unfold members. rewrite filter_In, in_seq. lia. Qed.
Lemma part_nth v sg k i : nth i (part v sg k) false = nth i v false && Bool.eqb (nth (rank_in v i) sg true) k.
Proof.
  unfold part. destruct (Nat.lt_ge_cases i (length v)) as [L|L]; [rewrite tab_nth by exact L; reflexivity|].
  rewrite nth_overflow by (rewrite tab_length; exact L). rewrite (nth_overflow v) by exact L. reflexivity.
Qed.
Lemma part_length v sg k : length (part v sg k) = length v.
Proof. apply tab_length. Qed.

Lemma lcons x l : lsum (x :: l) = (x + lsum l)%Qc.
Proof. reflexivity. Qed.

Definition hits (phi : groups) (i : nat) : nat := length (filter (fun v => nth i v false) phi).
Lemma hits_app a b i : hits (a ++ b) i = hits a i + hits b i.
Proof. unfold hits. rewrite filter_app, app_length. reflexivity. Qed.
Lemma hits_cons v b i : hits (v :: b) i = Nat.b2n (nth i v false) + hits b i.
Proof. unfold hits. cbn. destruct (nth i v false); reflexivity. Qed.
Lemma hits_part v sg i : hits [part v sg true; part v sg false] i = Nat.b2n (nth i v false).
Proof. rewrite !hits_cons, !part_nth. unfold hits. cbn. destruct (nth i v false), (nth (rank_in v i) sg true); reflexivity. Qed.
Lemma split_nth {A} (l : list A) i d : i < length l -> l = firstn i l ++ [nth i l d] ++ skipn (i + 1) l.
Proof.
  revert i. induction l as [|a l IH]; intros i L; [cbn in L; lia|]. destruct i as [|i]; [reflexivity|]. cbn. f_equal. apply IH. cbn in L. lia.
Qed.

Definition cols_ok (n : nat) (phi : groups) : Prop := forall v, In v phi -> length v = n /\ members v <> [].
Definition covers (n : nat) (phi : groups) : Prop := forall i, i < n -> hits phi i = 1.

Lemma hits_In phi i : 0 < hits phi i -> exists v, In v phi /\ nth i v false = true.
Proof.
  unfold hits. intros H. destruct (filter (fun v => nth i v false) phi) as [|v l] eqn:E; [cbn in H; lia|].
  exists v. apply (filter_In (fun v => nth i v false)). rewrite E. left. reflexivity.
Qed.
Lemma hits_one phi i : hits phi i = 1 -> exists a, a < length phi /\ forall b, b < length phi -> (nth i (nth b phi []) false = true <-> b = a).
Proof.
  induction phi as [|v phi IH]; [discriminate|]. rewrite hits_cons. destruct (nth i v false) eqn:E; cbn [Nat.b2n]; intros H.
  - exists 0. split; [cbn; lia|]. intros b Hb. destruct b as [|b]; [cbn; rewrite E; tauto|]. cbn [nth length] in *. split; [|discriminate]. intros C. exfalso.
    assert (hits phi i = 0) by lia. unfold hits in H0. apply length_zero_iff_nil in H0.
    assert (I : In (nth b phi []) (filter (fun v => nth i v false) phi)) by (apply filter_In; split; [apply nth_In; lia|exact C]). rewrite H0 in I. destruct I.
  - destruct (IH H) as (a & La & Ha). exists (S a). split; [cbn; lia|]. intros b Hb. destruct b as [|b]; [cbn; rewrite E; split; discriminate|].
    cbn [nth length] in *. rewrite (Ha b) by lia. split; [intros ->; reflexivity|congruence].
Qed.
Lemma grouping_of n phi : cols_ok n phi -> covers n phi -> grouping n (map members phi).
Proof.
  intros C V. split.
  - intros g Ig. apply in_map_iff in Ig. destruct Ig as (v & <- & Iv). destruct (C v Iv) as (L & N). split; [exact N|]. split; [apply members_nd|].
    intros x Ix. apply members_lt in Ix. lia.
  - intros i Hi. destruct (hits_one phi i (V i Hi)) as (a & La & Ha). exists a. rewrite map_length. split; [exact La|]. intros b Hb.
    rewrite <- (Ha b Hb). rewrite (nth_indep _ [] (members [])) by (rewrite map_length; exact Hb). rewrite map_nth. apply members_In.
Qed.

(** * The matrix between groups *)
Lemma ind_sum n v (f : nat -> Qc) : length v = n -> sumn n (fun i => ind (nth i v false) * f i)%Qc = lsum (map f (members v)).
Proof.
  intros L. rewrite (lsum_map_indicator n f (members v) (members_nd v)) by (intros x Ix; apply members_lt in Ix; lia).
  apply sumn_ext. intros i _. destruct (memn i (members v)) eqn:E.
  - apply memn_In, members_In in E. rewrite E. unfold ind. ring.
  - destruct (nth i v false) eqn:F; [|unfold ind; ring]. apply members_In in F. apply memn_In in F. congruence.
Qed.
Lemma members_nth a phi : nth a (map members phi) [] = members (nth a phi []).
Proof. change (@nil nat) with (members []) at 1. apply map_nth. Qed.

Section Q.
Variables (n : nat) (P : mat) (pi : vec).
Hypothesis W : wf n n P.
Hypothesis Pos : forall i, i < n -> (0 < vget pi i)%Qc.
Lemma mass_pos v : length v = n -> members v <> [] -> (0 < mass pi (members v))%Qc.
Proof.
  intros L N. unfold mass. rewrite <- (ind_sum n v (vget pi) L). destruct (members v) as [|x l] eqn:E; [congruence|].
  assert (Ix : In x (members v)) by (rewrite E; left; reflexivity). pose proof (members_lt v x Ix). apply members_In in Ix.
  apply (sumn_pos n _ x); [lia| |].
  - rewrite Ix. unfold ind. rewrite Qcmult_1_l. apply Pos. lia.
  - intros i Hi. destruct (nth i v false); unfold ind; pose proof (Pos i Hi); qclra.
Qed.
Lemma den_mass v : length v = n -> sumn n (fun i => ind (nth i v false) * vget pi i * ind (nth i v false))%Qc = mass pi (members v).
Proof.
  intros L. unfold mass. rewrite <- (ind_sum n v (vget pi) L). apply sumn_ext. intros i _. unfold ind. destruct (nth i v false); ring.
Qed.
Lemma num_flow v w : length v = n -> length w = n ->
  sumn n (fun i => sumn n (fun j => ind (nth i v false) * vget pi i * mget P i j * ind (nth j w false))%Qc) = flow P pi (members v) (members w).
Proof.
  intros L L'. unfold flow. rewrite <- (ind_sum n v _ L). apply sumn_ext. intros i _. rewrite <- (ind_sum n w (mget P i) L').
  rewrite <- sumn_mul_l. rewrite <- sumn_mul_l. apply sumn_ext. intros j _. ring.
Qed.
Lemma calc_q_some phi : cols_ok n phi -> exists q, calc_q P pi phi = Some q /\ aggregated P pi (map members phi) q.
Proof.
  intros C. unfold calc_q. rewrite (wf_nrows _ _ _ W).
  assert (Cn : forall a, a < length phi -> length (nth a phi []) = n /\ members (nth a phi []) <> []) by (intros a Ha; apply C, nth_In; exact Ha).
  match goal with |- context [if ?c then _ else _] => assert (E : c = true) end.
  { apply forallb_forall. intros a Ia. apply in_seq in Ia. apply negb_true_iff, Qceqb_neq. rewrite den_mass by (apply Cn; lia).
    intros Z. pose proof (mass_pos (nth a phi []) (proj1 (Cn a ltac:(lia))) (proj2 (Cn a ltac:(lia)))) as M. rewrite Z in M. apply (Qclt_irr _ M). }
  rewrite E. eexists. split; [reflexivity|]. split; [rewrite map_length; apply wf_mk|].
  intros a b Ha Hb. rewrite map_length in Ha, Hb. rewrite mget_mk by assumption. rewrite !members_nth.
  rewrite num_flow by (apply Cn; assumption). rewrite den_mass by (apply Cn; assumption). reflexivity.
Qed.
Lemma calc_q_nonempty phi q : (forall v, In v phi -> length v = n) -> calc_q P pi phi = Some q -> cols_ok n phi.
Proof.
  intros L H v Iv. split; [apply L; exact Iv|]. intros E. unfold calc_q in H. rewrite (wf_nrows _ _ _ W) in H.
  match type of H with (if ?c then _ else _) = _ => destruct c eqn:F; [|discriminate] end.
  apply In_nth with (d := []) in Iv. destruct Iv as (a & Ha & Ea). rewrite forallb_forall in F. specialize (F a ltac:(apply in_seq; lia)).
  apply negb_true_iff, Qceqb_neq in F. apply F. rewrite Ea. rewrite den_mass by (apply L; rewrite <- Ea; apply nth_In; exact Ha). rewrite E. reflexivity.
Qed.
Lemma cover_sum phi (f : nat -> Qc) : (forall v, In v phi -> length v = n) -> covers n phi ->
  sumn (length phi) (fun b => lsum (map f (members (nth b phi []))))  = sumn n f.
Proof.
  intros L V.
  assert (G : forall phi, (forall v, In v phi -> length v = n) -> sumn (length phi) (fun b => lsum (map f (members (nth b phi [])))) = sumn n (fun i => Qcn (hits phi i) * f i)%Qc).
  { clear L V phi. intros phi. rewrite <- lsum_tab. unfold tab. rewrite <- (map_map (fun b => nth b phi []) (fun v => lsum (map f (members v)))).
    replace (map (fun b => nth b phi []) (seq 0 (length phi))) with phi by (symmetry; apply (tab_of_nth phi [])).
    induction phi as [|v phi IH]; intros L; cbn [map]; rewrite ?lcons.
    - symmetry. apply sumn_0. intros i _. unfold hits. cbn. rewrite Qcn_0. ring.
    - rewrite IH by (intros; apply L; right; assumption). rewrite <- (ind_sum n v f) by (apply L; left; reflexivity).
      rewrite <- sumn_plus. apply sumn_ext. intros i _. rewrite hits_cons, Qcn_add. destruct (nth i v false); cbn [Nat.b2n ind]; [rewrite Qcn_1|rewrite Qcn_0]; unfold ind; ring. }
  rewrite G by exact L. apply sumn_ext. intros i Hi. rewrite (V i Hi), Qcn_1. ring.
Qed.
End Q.

Lemma flow_rows n P pi phi : stochastic n P -> (forall v, In v phi -> length v = n) -> covers n phi -> forall g, (forall x, In x g -> x < n) ->
  sumn (length phi) (fun b => flow P pi g (members (nth b phi []))) = mass pi g.
Proof.
  intros St L V g Hg. unfold flow, mass.
  induction g as [|x g IH]; [apply sumn_0; reflexivity|]. cbn [map]. rewrite lcons.
  rewrite (sumn_ext _ _ (fun b => vget pi x * lsum (map (mget P x) (members (nth b phi []))) + lsum (map (fun i => vget pi i * lsum (map (mget P i) (members (nth b phi []))))%Qc g))%Qc) by (intros b Hb; apply lcons). rewrite sumn_plus. rewrite IH by (intros; apply Hg; right; assumption).
  rewrite sumn_mul_l. rewrite (cover_sum n phi (mget P x) L V).
  change (sumn n (mget P x)) with (sumn n (fun j => mget P x j)); rewrite (proj2 (proj2 St) x) by (apply Hg; left; reflexivity). ring.
Qed.
Lemma mass_nonneg n pi g : (forall i, i < n -> (0 < vget pi i)%Qc) -> (forall x, In x g -> x < n) -> (0 <= mass pi g)%Qc.
Proof.
  intros Hp Hg. unfold mass. induction g as [|x g IH]; cbn [map]; rewrite ?lcons; [apply Qcle_refl|].
  pose proof (Hp x (Hg x (or_introl eq_refl))). pose proof (IH (fun y Hy => Hg y (or_intror Hy))). qclra.
Qed.
Lemma flow_nonneg n P pi g h : stochastic n P -> (forall i, i < n -> (0 < vget pi i)%Qc) -> (forall x, In x g -> x < n) -> (forall x, In x h -> x < n) -> (0 <= flow P pi g h)%Qc.
Proof.
  intros St Hp Hg Hh. unfold flow. induction g as [|x g IH]; cbn [map]; rewrite ?lcons; [apply Qcle_refl|].
  assert (A : (0 <= lsum (map (mget P x) h))%Qc).
  { clear IH. induction h as [|y h IH]; cbn [map]; rewrite ?lcons; [apply Qcle_refl|].
    pose proof (proj1 (proj2 St) x y (Hg x (or_introl eq_refl)) (Hh y (or_introl eq_refl))). pose proof (IH (fun z Hz => Hh z (or_intror Hz))). qclra. }
  pose proof (Hp x (Hg x (or_introl eq_refl))) as B. pose proof (IH (fun y Hy => Hg y (or_intror Hy))).
  assert (0 <= vget pi x * lsum (map (mget P x) h))%Qc by (apply Qc_mul_nonneg; [apply Qclt_le_weak; exact B|exact A]). qclra.
Qed.
Lemma aggregated_stochastic n P pi phi q : stochastic n P -> (forall i, i < n -> (0 < vget pi i)%Qc) -> cols_ok n phi -> covers n phi ->
  aggregated P pi (map members phi) q -> stochastic (length phi) q.
Proof.
  intros St Hp C V (Wq & E). rewrite map_length in Wq, E.
  assert (Cn : forall a, a < length phi -> length (nth a phi []) = n /\ members (nth a phi []) <> []) by (intros a Ha; apply C, nth_In; exact Ha).
  assert (Lt : forall a x, a < length phi -> In x (members (nth a phi [])) -> x < n) by (intros a x Ha Ix; apply members_lt in Ix; rewrite (proj1 (Cn a Ha)) in Ix; exact Ix).
  assert (M : forall a, a < length phi -> (0 < mass pi (members (nth a phi [])))%Qc) by (intros a Ha; apply (mass_pos n pi Hp); apply Cn; exact Ha).
  split; [exact Wq|]. split.
  - intros a b Ha Hb. rewrite E by assumption. rewrite !members_nth. apply Qc_div_nonneg; [|apply M; exact Ha].
    apply (flow_nonneg n P pi _ _ St Hp); intros x Ix; [apply (Lt a)|apply (Lt b)]; assumption.
  - intros a Ha. rewrite (sumn_ext _ _ (fun b => flow P pi (members (nth a phi [])) (members (nth b phi [])) / mass pi (members (nth a phi [])))%Qc).
    2:{ intros b Hb. rewrite E by assumption. rewrite !members_nth. reflexivity. }
    rewrite sumn_div. rewrite (flow_rows n P pi phi St) by (try (intros v Iv; apply C; exact Iv); try exact V; intros x Ix; apply (Lt a); assumption).
    apply Qc_div_self. intros Z. specialize (M a Ha). rewrite Z in M. apply (Qclt_irr _ M).
Qed.
Lemma norm_q_stochastic k q : stochastic k q -> norm_q q = Ok q.
Proof.
  intros (Wq & _ & R). unfold norm_q. rewrite (wf_nrows _ _ _ Wq).
  assert (E : forallb (fun i => negb (Qceqb (sumn k (mget q i)) 0)) (seq 0 k) = true).
  { apply forallb_forall. intros i Ii. apply in_seq in Ii. rewrite R by lia. reflexivity. }
  rewrite E. cbv iota. f_equal. transitivity (mk k k (mget q)); [|apply mk_mget; exact Wq]. unfold mk. apply tab_ext. intros i Hi. apply tab_ext. intros j Hj.
  rewrite R by exact Hi. unfold Qcdiv. change (/ 1)%Qc with 1q. ring.
Qed.
