(** L_Classic3: chains on a line that are absorbed at both ends. *)
From Verif Require Import S_Gen M_Generators S_Gen2 L_Gen1 L_Gen2 L_GenR L_PropsR L_LimitR L_MaxPrin L_Classic L_Classic2.
Notation qpow := M_Generators.qpow.
Open Scope res_scope.

(** The shape: the first and the last state are absorbing, the others are not, and can be left. *)
Record two_ends (n : nat) (m : mcenv) : Prop := {
  te_env : env_ok n m; te_n : 3 <= n; te_gap : gap n (en_p m);
  te_first : mget (en_p m) 0 0 = 1q; te_last : mget (en_p m) (n - 1) (n - 1) = 1q;
  te_mid : forall i, 0 < i < n - 1 -> mget (en_p m) i i <> 1q;
  te_out : forall i, 0 < i < n - 1 -> reach n (edge (en_p m)) i 0 \/ reach n (edge (en_p m)) i (n - 1) }.

Section ENDS.
Variables (n : nat) (m : mcenv).
Hypothesis TE : two_ends n m.
Notation P := (en_p m).
Definition inner (i : nat) : bool := Nat.ltb 0 i && Nat.ltb i (n - 1).
Lemma inner_spec i : inner i = true <-> 0 < i < n - 1.
Proof. unfold inner. rewrite andb_true_iff, !Nat.ltb_lt. tauto. Qed.
Lemma ends_zero (x : nat -> Qc) : x 0 = 0q -> x (n - 1) = 0q -> (forall i, 0 < i < n - 1 -> sumn n (fun j => mget P i j * x j)%Qc = x i) ->
  forall i, i < n -> x i = 0q.
Proof using TE.
  intros X0 X1 H. destruct (te_env n m TE) as (_ & (_ & Pos & Sum) & _).
  apply (maxp_zero n (mget P) inner); [exact Pos|intros i Hi; change (sumn n (fun j => mget P i j) <= 1)%Qc; pose proof (Sum i Hi) as E; cbv beta in E; rewrite E; apply Qcle_refl| | |].
  - intros i Hi. destruct (Nat.eq_dec i 0) as [->|N0]; [exists 0; split; [unfold inner; reflexivity|apply reach_refl; lia]|].
    destruct (Nat.eq_dec i (n - 1)) as [->|N1]; [exists (n - 1); split; [unfold inner; rewrite Nat.ltb_irrefl, andb_false_r; reflexivity|apply reach_refl; lia]|].
    destruct (te_out n m TE i ltac:(lia)) as [R|R]; [exists 0|exists (n - 1)]; (split; [unfold inner; rewrite ?Nat.ltb_irrefl, ?andb_false_r; reflexivity|exact R]).
  - intros i Hi E. destruct (Nat.eq_dec i 0) as [->|N0]; [exact X0|]. destruct (Nat.eq_dec i (n - 1)) as [->|N1]; [exact X1|].
    exfalso. rewrite (proj2 (inner_spec i)) in E by lia. discriminate.
  - intros i Hi E. apply H, inner_spec, E.
Qed.
Lemma ends_sum (f : nat -> Qc) : sumn n f = (f 0%nat + sumn (n - 2) (fun l => f (S l)) + f (n - 1)%nat)%Qc.
Proof using TE.
  pose proof (te_n n m TE) as Hn. transitivity (sumn (S (S (n - 2))) f); [f_equal; lia|].
  cbn [sumn]. change (sumn (n - 2) f + f (n - 2)%nat)%Qc with (sumn (S (n - 2)) f). rewrite sumn_S_front. replace (S (n - 2)) with (n - 1) by lia. reflexivity.
Qed.
Lemma ends_reach : forall i, i < n -> exists a, a < n /\ mget P a a = 1q /\ reach n (edge P) i a.
Proof using TE.
  pose proof (te_n n m TE). intros i Hi. destruct (Nat.eq_dec i 0) as [->|N0]; [exists 0; split; [exact Hi|split; [apply (te_first n m TE)|apply reach_refl; exact Hi]]|].
  destruct (Nat.eq_dec i (n - 1)) as [->|N1]; [exists (n - 1); split; [exact Hi|split; [apply (te_last n m TE)|apply reach_refl; exact Hi]]|].
  destruct (te_out n m TE i ltac:(lia)) as [R|R]; [exists 0; split; [lia|split; [apply (te_first n m TE)|exact R]]|exists (n - 1); split; [lia|split; [apply (te_last n m TE)|exact R]]].
Qed.
Lemma ends_some : exists i, i < n /\ mget P i i <> 1q.
Proof using TE. pose proof (te_n n m TE). exists 1. split; [lia|]. apply (te_mid n m TE). lia. Qed.
Lemma ends_lists T A : StronglySorted lt T -> StronglySorted lt A -> (forall x, In x T <-> x < n /\ mget P x x <> 1q) -> (forall x, In x A <-> x < n /\ mget P x x = 1q) ->
  T = seq 1 (n - 2) /\ A = [0; n - 1].
Proof using TE.
  intros ST SA MT MA. pose proof (te_n n m TE). split.
  - apply sorted_lt_unique; [exact ST|apply ssorted_seq|]. intros x. rewrite MT, in_seq. split.
    + intros [X Y]. destruct (Nat.eq_dec x 0) as [->|]; [exfalso; apply Y, (te_first n m TE)|]. destruct (Nat.eq_dec x (n - 1)) as [->|]; [exfalso; apply Y, (te_last n m TE)|]. lia.
    + intros X. split; [lia|]. apply (te_mid n m TE). lia.
  - apply sorted_lt_unique; [exact SA|repeat constructor; lia|]. intros x. rewrite MA. cbn. split.
    + intros [X Y]. destruct (Nat.eq_dec x 0) as [->|]; [left; reflexivity|]. destruct (Nat.eq_dec x (n - 1)) as [->|]; [right; left; reflexivity|].
      exfalso. apply (te_mid n m TE x); [lia|exact Y].
    + intros [<-|[<-|[]]]; (split; [lia|]); [apply (te_first n m TE)|apply (te_last n m TE)].
Qed.
Lemma ends_values (h : nat -> Qc) :
  h 0 = 0q -> h (n - 1) = 1q -> (forall i, 0 < i < n - 1 -> sumn n (fun j => mget P i j * h j)%Qc = h i) ->
  absorption_probabilities m = Ok (Some [tab (n - 2) (fun k => 1 - h (S k))%Qc; tab (n - 2) (fun k => h (S k))]).
Proof using TE.
  intros H0 H1 Hh.
  pose proof (te_n n m TE) as Hn.
  destruct (absorption_spec n m (te_env n m TE) (te_gap n m TE) ends_reach ends_some) as (T & A & N & ap & t & ST & SA & MT & MA & _ & Ea & Et & _ & Wap & Lt & _ & Hap & Hs & Htt).
  destruct (ends_lists T A ST SA MT MA) as [-> ->]. rewrite seq_length in *. cbn [length] in *.
  assert (NT : forall k, k < n - 2 -> nth k (seq 1 (n - 2)) 0 = S k) by (intros k Hk; rewrite seq_nth by exact Hk; reflexivity).
    assert (A1 : forall k, k < n - 2 -> mget ap 1 k = h (S k)).
    { set (x := fun i => if inner i then (mget ap 1 (i - 1) - h i)%Qc else 0q).
      assert (Z : forall i, i < n -> x i = 0q).
      { apply ends_zero; [reflexivity|unfold x, inner; rewrite Nat.ltb_irrefl, andb_false_r; reflexivity|]. intros i Hi.
        assert (E1 := proj2 (Hap 1 (i - 1) ltac:(lia) ltac:(lia))). rewrite NT in E1 by lia. replace (S (i - 1)) with i in E1 by lia.
        assert (E2 := Hh i Hi). rewrite ends_sum, H0, H1 in E2. rewrite ends_sum.
        assert (X0 : x 0 = 0q) by reflexivity. assert (X1 : x (n - 1) = 0q) by (unfold x, inner; rewrite Nat.ltb_irrefl, andb_false_r; reflexivity). rewrite X0, X1.
        assert (Xi : x i = (mget ap 1 (i - 1) - h i)%Qc) by (unfold x; rewrite (proj2 (inner_spec i) Hi); reflexivity).
        rewrite Xi, E1, <- E2. cbn [nth].
        rewrite (sumn_ext (n - 2) (fun l => mget P i (S l) * x (S l))%Qc (fun l => mget P i (S l) * mget ap 1 l - mget P i (S l) * h (S l))%Qc).
        2:{ intros l Hl. unfold x. rewrite (proj2 (inner_spec (S l))) by lia. cbn [Nat.sub]. rewrite Nat.sub_0_r. ring. }
        rewrite sumn_minus.
        rewrite (sumn_ext (n - 2) (fun l => mget P i (nth l (seq 1 (n - 2)) 0%nat) * mget ap 1 l)%Qc (fun l => mget P i (S l) * mget ap 1 l)%Qc) by (intros l Hl; rewrite NT by exact Hl; reflexivity).
        ring. }
      intros k Hk. specialize (Z (S k) ltac:(lia)). unfold x in Z. rewrite (proj2 (inner_spec (S k))) in Z by lia. cbn [Nat.sub] in Z. rewrite Nat.sub_0_r in Z.
      transitivity (h (S k) + (mget ap 1 k - h (S k)))%Qc; [ring|]. rewrite Z. ring. }
    assert (A0 : forall k, k < n - 2 -> mget ap 0 k = (1 - h (S k))%Qc).
    { intros k Hk. specialize (Hs k Hk). cbn [sumn] in Hs. rewrite (A1 k Hk) in Hs. transitivity (0 + mget ap 0 k + h (S k) - h (S k))%Qc; [ring|]. rewrite Hs. reflexivity. }
    rewrite Ea. f_equal. f_equal. apply (mat_ext 2 (n - 2)); [exact Wap| |].
    - split; [reflexivity|]. intros r [<-|[<-|[]]]; apply tab_length.
    - intros i j Hi Hj. destruct i as [|[|i]]; [| |lia]; unfold mget; cbn [nth]; rewrite tab_nth by exact Hj; [apply A0|apply A1]; exact Hj.
Qed.
Lemma ends_times (tau : nat -> Qc) :
  tau 0 = 0q -> tau (n - 1) = 0q -> (forall i, 0 < i < n - 1 -> (1 + sumn n (fun j => mget P i j * tau j))%Qc = tau i) ->
  mean_absorption_times m = Ok (Some (tab (n - 2) (fun k => tau (S k)))).
Proof using TE.
  intros T0 T1 Ht.
  pose proof (te_n n m TE) as Hn.
  destruct (absorption_spec n m (te_env n m TE) (te_gap n m TE) ends_reach ends_some) as (T & A & N & ap & t & ST & SA & MT & MA & _ & Ea & Et & _ & Wap & Lt & _ & Hap & Hs & Htt).
  destruct (ends_lists T A ST SA MT MA) as [-> ->]. rewrite seq_length in *. cbn [length] in *.
  assert (NT : forall k, k < n - 2 -> nth k (seq 1 (n - 2)) 0 = S k) by (intros k Hk; rewrite seq_nth by exact Hk; reflexivity).
    assert (B1 : forall k, k < n - 2 -> vget t k = tau (S k)).
    { set (x := fun i => if inner i then (vget t (i - 1) - tau i)%Qc else 0q).
      assert (Z : forall i, i < n -> x i = 0q).
      { apply ends_zero; [reflexivity|unfold x, inner; rewrite Nat.ltb_irrefl, andb_false_r; reflexivity|]. intros i Hi.
        assert (E1 := proj2 (Htt (i - 1) ltac:(lia))). rewrite NT in E1 by lia. replace (S (i - 1)) with i in E1 by lia.
        assert (E2 := Ht i Hi). rewrite ends_sum, T0, T1 in E2. rewrite ends_sum.
        assert (X0 : x 0 = 0q) by reflexivity. assert (X1 : x (n - 1) = 0q) by (unfold x, inner; rewrite Nat.ltb_irrefl, andb_false_r; reflexivity). rewrite X0, X1.
        assert (Xi : x i = (vget t (i - 1) - tau i)%Qc) by (unfold x; rewrite (proj2 (inner_spec i) Hi); reflexivity).
        rewrite Xi, E1, <- E2.
        rewrite (sumn_ext (n - 2) (fun l => mget P i (S l) * x (S l))%Qc (fun l => mget P i (S l) * vget t l - mget P i (S l) * tau (S l))%Qc).
        2:{ intros l Hl. unfold x. rewrite (proj2 (inner_spec (S l))) by lia. cbn [Nat.sub]. rewrite Nat.sub_0_r. ring. }
        rewrite sumn_minus.
        rewrite (sumn_ext (n - 2) (fun l => mget P i (nth l (seq 1 (n - 2)) 0%nat) * vget t l)%Qc (fun l => mget P i (S l) * vget t l)%Qc) by (intros l Hl; rewrite NT by exact Hl; reflexivity).
        ring. }
      intros k Hk. specialize (Z (S k) ltac:(lia)). unfold x in Z. rewrite (proj2 (inner_spec (S k))) in Z by lia. cbn [Nat.sub] in Z. rewrite Nat.sub_0_r in Z.
      transitivity (tau (S k) + (vget t k - tau (S k)))%Qc; [ring|]. rewrite Z. ring. }
    rewrite Et. f_equal. f_equal. rewrite <- (tab_of_nth t 0q). rewrite Lt. apply tab_ext. exact B1.
Qed.
Lemma ends_limit (h : nat -> Qc) :
  h 0 = 0q -> h (n - 1) = 1q -> (forall i, 0 < i < n - 1 -> sumn n (fun j => mget P i j * h j)%Qc = h i) ->
  forall i, 0 < i < n - 1 -> tends (fun k => kstep n P k i (n - 1)) (h i).
Proof using TE.
  intros H0 H1 Hh i Hi. pose proof (te_n n m TE) as Hn.
  pose proof (ends_values h H0 H1 Hh) as Ea'.
  destruct (absorption_limits n m (te_env n m TE) (te_gap n m TE) ends_reach ends_some) as (T & A & N & ap & t & ST & SA & MT & MA & _ & Ea & _ & _ & L & _).
  destruct (ends_lists T A ST SA MT MA) as [-> ->]. rewrite seq_length in L. cbn [length] in L.
  specialize (L 1 (i - 1) ltac:(lia) ltac:(lia)). rewrite seq_nth in L by lia. replace (1 + (i - 1)) with i in L by lia. cbn [nth] in L.
  rewrite Ea in Ea'. injection Ea' as ->. unfold mget in L. cbn [nth] in L. rewrite tab_nth in L by lia. replace (S (i - 1)) with i in L by lia. exact L.
Qed.
End ENDS.
