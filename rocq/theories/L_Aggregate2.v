(** L_Aggregate2: the two aggregation procedures. *)
From Verif Require Export L_Aggregate.
Open Scope nat_scope.
Open Scope res_scope.

Lemma filter_seq_rank (f : nat -> bool) n a : a < length (filter f (seq 0 n)) -> length (filter f (seq 0 (nth a (filter f (seq 0 n)) 0))) = a.
Proof.
  induction n as [|n IH]; [cbn; lia|]. rewrite seq_S, filter_app, app_length. cbn [Nat.add filter].
  destruct (Nat.lt_ge_cases a (length (filter f (seq 0 n)))) as [L|L].
  - intros _. rewrite app_nth1 by exact L. apply IH; exact L.
  - destruct (f n); cbn [length]; intros H; [|lia]. rewrite app_nth2 by exact L. replace (a - length (filter f (seq 0 n))) with 0 by lia. cbn [nth]. lia.
Qed.
Lemma rank_members v a : a < length (members v) -> rank_in v (nth a (members v) 0) = a.
Proof. apply (filter_seq_rank (fun i => nth i v false)). Qed.
Lemma part_nonempty v sg k a : a < length (members v) -> nth a sg true = k -> members (part v sg k) <> [].
Proof.
  intros La E N. assert (I : In (nth a (members v) 0) (members (part v sg k))).
  { apply members_In. rewrite part_nth. rewrite rank_members by exact La. rewrite E. rewrite (proj1 (members_In v _)) by (apply nth_In; exact La). destruct k; reflexivity. }
  rewrite N in I. destruct I.
Qed.

Section AGG.
Variables (n : nat) (P : mat) (pi : vec) (signs : mat -> list bool) (kld : groups -> mat -> option Qc).
Hypothesis St : stochastic n P.
Hypothesis Pos : forall i, i < n -> (0 < vget pi i)%Qc.
Let W : wf n n P := proj1 St.

Lemma rev_ok idx : (forall x, In x idx -> x < n) -> reversibilised P pi idx = Ok (two_way P pi idx).
Proof.
  intros L. unfold reversibilised.
  assert (E : forallb (fun i => negb (Qceqb (vget pi i) 0)) idx = true).
  { apply forallb_forall. intros x Ix. apply negb_true_iff, Qceqb_neq. intros Z. pose proof (Pos x (L x Ix)) as C. rewrite Z in C. apply (Qclt_irr _ C). }
  rewrite E. cbv iota. f_equal. unfold two_way. apply mk_ext. intros a b _ _. cbv zeta. unfold Qcdiv. change (/ Q2Qc (2 # 1))%Qc with (Q2Qc (1 # 2)). ring.
Qed.

(** * Bottom-up *)
Definition H : Prop := splits n P pi signs /\ forall ph q, kld ph q <> None.
Section SCAN.
Variables (phi : groups) (q0 : mat).
Hypothesis L : forall v, In v phi -> length v = n.
Hypothesis V : covers n phi.
Definition good (b : groups * option Qc * mat) : Prop :=
  b = (phi, None, q0) \/
  (snd (fst b) <> None /\ cols_ok n (fst (fst b)) /\ covers n (fst (fst b)) /\ length (fst (fst b)) = S (length phi) /\ calc_q P pi (fst (fst b)) = Some (snd b)).
Lemma candidate_cases i : i < length phi ->
  (length (members (nth i phi [])) <= 1 /\ bu_candidate signs P pi phi i = Ok None) \/
  (2 <= length (members (nth i phi [])) /\ exists bc, bu_candidate signs P pi phi i = Ok (Some bc) /\ (forall v, In v bc -> length v = n) /\ covers n bc /\ length bc = S (length phi) /\
     (splits n P pi signs -> cols_ok n phi -> cols_ok n bc)).
Proof.
  intros Hi. unfold bu_candidate. set (v := nth i phi []). assert (Lv : length v = n) by (apply L, nth_In; exact Hi).
  destruct (Nat.leb_spec (length (members v)) 1) as [A|A]; [left; split; [exact A|reflexivity]|]. right. split; [lia|].
  assert (Lm : forall x, In x (members v) -> x < n) by (intros x Ix; apply members_lt in Ix; lia).
  rewrite rev_ok by exact Lm. cbn [bind]. set (sg := signs (two_way P pi (members v))). eexists. split; [reflexivity|].
  pose proof (split_nth phi i [] Hi) as Sp. fold v in Sp.
  split.
  { intros w Iw. apply in_app_or in Iw. destruct Iw as [Iw|Iw]; [apply L; rewrite Sp; apply in_or_app; left; exact Iw|].
    destruct Iw as [<-|[<-|Iw]]; [rewrite part_length; exact Lv|rewrite part_length; exact Lv|]. apply L. rewrite Sp. apply in_or_app. right. right. exact Iw. }
  split.
  { intros x Hx. rewrite !hits_app, hits_part. pose proof (V x Hx) as Vx. pose proof (f_equal (fun l => hits l x) Sp) as Hs. cbv beta in Hs. rewrite !hits_app in Hs.
    rewrite (hits_cons v [] x) in Hs. change (hits [] x) with 0 in Hs. lia. }
  split.
  { pose proof (f_equal (@length _) Sp) as Hl. rewrite !app_length in *. cbn [length] in *. lia. }
  intros Hs C. assert (M : mixed (length (members v)) sg) by (apply Hs; [apply members_nd|exact Lm|lia]). destruct M as ((i1 & L1 & E1) & (i2 & L2 & E2)).
  intros w Iw. apply in_app_or in Iw. destruct Iw as [Iw|Iw]; [apply C; rewrite Sp; apply in_or_app; left; exact Iw|].
  destruct Iw as [<-|[<-|Iw]].
  - split; [rewrite part_length; exact Lv|apply (part_nonempty v sg true i1 L1 E1)].
  - split; [rewrite part_length; exact Lv|apply (part_nonempty v sg false i2 L2 E2)].
  - apply C. rewrite Sp. apply in_or_app. right. right. exact Iw.
Qed.
Lemma scan_ok : forall is best, (forall i, In i is -> i < length phi) -> good best ->
  exists r, bu_scan signs kld P pi phi is best = Ok r /\ good r /\ (snd (fst best) <> None -> snd (fst r) <> None) /\
    (H -> cols_ok n phi -> (exists i, In i is /\ 2 <= length (members (nth i phi []))) -> snd (fst r) <> None).
Proof.
  induction is as [|i is IH]; intros best Li G; cbn [bu_scan].
  - exists best. split; [reflexivity|]. split; [exact G|]. split; [tauto|]. intros _ _ (i & [] & _).
  - assert (Li' : forall i, In i is -> i < length phi) by (intros; apply Li; right; assumption).
    destruct (candidate_cases i (Li i (or_introl eq_refl))) as [(A & E)|(A & bc & E & Lb & Vb & Nb & Cb)]; rewrite E; cbn [bind].
    + destruct (IH best Li' G) as (r & Er & Gr & Kr & Hr). exists r. split; [exact Er|]. split; [exact Gr|]. split; [exact Kr|].
      intros HH C (j & [<-|Ij] & Hj); [lia|]. apply Hr; try assumption. exists j. split; assumption.
    + destruct (calc_q P pi bc) as [q|] eqn:Q.
      2:{ destruct (IH best Li' G) as (r & Er & Gr & Kr & Hr). exists r. split; [exact Er|]. split; [exact Gr|]. split; [exact Kr|].
          intros HH C _. exfalso. destruct (calc_q_some n P pi W Pos bc (Cb (proj1 HH) C)) as (q & Eq & _). congruence. }
      assert (Cbc : cols_ok n bc) by (apply (calc_q_nonempty n P pi W bc q Lb Q)).
      set (best' := if kl_below (kld bc q) (snd (fst best)) then (bc, kld bc q, q) else best).
      assert (G' : good best').
      { unfold best'. destruct (kl_below (kld bc q) (snd (fst best))) eqn:B; [|exact G]. right. cbn. split; [|auto].
        intros Z. rewrite Z in B. discriminate. }
      assert (K' : snd (fst best) <> None -> snd (fst best') <> None).
      { intros K. unfold best'. destruct (kl_below (kld bc q) (snd (fst best))) eqn:B; [|exact K]. cbn. intros Z. rewrite Z in B. discriminate. }
      destruct (IH best' Li' G') as (r & Er & Gr & Kr & Hr). exists r. split; [exact Er|]. split; [exact Gr|]. split; [auto|].
      intros HH C _. apply Kr. unfold best'. destruct (snd (fst best)) as [x|] eqn:Sb.
      * destruct (kl_below (kld bc q) (Some x)); cbn; [apply (proj2 HH)|rewrite Sb; discriminate].
      * destruct (kld bc q) as [y|] eqn:Ky; [cbn; discriminate|]. exfalso. apply (proj2 HH bc q). exact Ky.
Qed.
End SCAN.
Lemma count_lsum (l : list nat) : lsum (map (fun _ => 1q) l) = Qcn (length l).
Proof. induction l as [|x l IH]; [reflexivity|]. cbn [map length]. rewrite lcons, IH, Qcn_S. ring. Qed.
Lemma big_group phi : cols_ok n phi -> covers n phi -> length phi < n -> exists i, i < length phi /\ 2 <= length (members (nth i phi [])).
Proof.
  intros C V Lt. destruct (existsb (fun i => Nat.leb 2 (length (members (nth i phi [])))) (seq 0 (length phi))) eqn:E.
  - apply existsb_exists in E. destruct E as (i & Ii & Hi). apply in_seq in Ii. apply Nat.leb_le in Hi. exists i. split; [lia|exact Hi].
  - exfalso. pose proof (cover_sum n phi (fun _ => 1q) (fun v Iv => proj1 (C v Iv)) V) as Sm. rewrite sumn_const_n in Sm.
    assert (Le : (sumn (length phi) (fun b => lsum (map (fun _ : nat => 1q) (members (nth b phi [])))) <= sumn (length phi) (fun _ => 1q))%Qc).
    { apply sumn_le. intros b Hb. rewrite count_lsum. replace 1q with (Qcn 1) by apply Qcn_1. apply Qcn_le.
      destruct (Nat.le_gt_cases (length (members (nth b phi []))) 1) as [A|A]; [exact A|]. exfalso.
      assert (existsb (fun i => Nat.leb 2 (length (members (nth i phi [])))) (seq 0 (length phi)) = true); [|congruence].
      apply existsb_exists. exists b. split; [apply in_seq; lia|]. apply Nat.leb_le. lia. }
    rewrite Sm, sumn_const_n in Le. pose proof (Qcn_lt _ _ Lt). qclra.
Qed.
Definition outcome (k : nat) (phi : groups) (q' : mat) : Prop :=
  exists phi', cols_ok n phi' /\ covers n phi' /\ calc_q P pi phi' = Some q' /\ length phi' <= length phi + k /\ (H -> length phi' = length phi + k).
Lemma bu_loop_ok : forall k phi q, cols_ok n phi -> covers n phi -> length phi + k <= n ->
  exists q', bu_loop signs kld P pi k phi q = Ok q' /\ (outcome k phi q' \/ (q' = q /\ (H -> k = 0) /\ calc_q P pi phi <> Some q)).
Proof.
  induction k as [|k IH]; intros phi q C V Lk; cbn [bu_loop].
  - exists q. split; [reflexivity|]. destruct (calc_q_some n P pi W Pos phi C) as (q1 & E & _). destruct (list_eq_dec (list_eq_dec Qc_eq_dec) q1 q) as [->|Nq].
    + left. exists phi. split; [exact C|]. split; [exact V|]. split; [exact E|]. split; [lia|]. lia.
    + right. split; [reflexivity|]. split; [reflexivity|]. congruence.
  - destruct (scan_ok phi q (fun v Iv => proj1 (C v Iv)) V (seq 0 (length phi)) (phi, None, q) ltac:(intros i Ii; apply in_seq in Ii; lia) ltac:(left; reflexivity)) as (r & Er & G & _ & Hr).
    rewrite Er. cbn [bind]. destruct G as [->|(_ & C' & V' & L' & Q')]; cbn [fst snd].
    + assert (NH : ~ H). { intros HH. destruct (big_group phi C V ltac:(lia)) as (i & Li & Bi). apply (Hr HH C); [|reflexivity]. exists i. split; [apply in_seq; lia|exact Bi]. }
      destruct (IH phi q C V ltac:(lia)) as (q' & Eq & D). exists q'. split; [exact Eq|].
      destruct D as [(phi' & A1 & A2 & A3 & A4 & A5)|(A1 & A2 & A3)].
      * left. exists phi'. split; [exact A1|]. split; [exact A2|]. split; [exact A3|]. split; [lia|tauto].
      * right. split; [exact A1|]. split; [tauto|exact A3].
    + destruct (IH (fst (fst r)) (snd r) C' V' ltac:(lia)) as (q' & Eq & D). exists q'. split; [exact Eq|].
      destruct D as [(phi' & A1 & A2 & A3 & A4 & A5)|(A1 & A2 & A3)]; [|contradiction].
      left. exists phi'. split; [exact A1|]. split; [exact A2|]. split; [exact A3|]. split; [lia|]. intros HH. rewrite (A5 HH). lia.
Qed.
End AGG.
