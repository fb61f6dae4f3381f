(** L_Stationary: proofs about gth_solve and pi. *)
From Verif Require Export M_Stationary S_Stationary L_StructR.
Open Scope res_scope.

Definition ts (n i : nat) (f : nat -> Qc) : Qc := sumn (n - i) (fun t => f (i + t)%nat).
Lemma ts_split n i f : i < n -> ts n i f = (f i + ts n (S i) f)%Qc.
Proof.
  intros H. unfold ts. replace (n - i) with (S (n - S i)) by lia.
  rewrite sumn_S_front, Nat.add_0_r. f_equal. apply sumn_ext. intros t _. f_equal. lia.
Qed.
Lemma ts_ext n i f g : (forall r, i <= r -> r < n -> f r = g r) -> ts n i f = ts n i g.
Proof. intros H. apply sumn_ext. intros t Ht. apply H; lia. Qed.
Lemma ts_plus n i f g : ts n i (fun r => f r + g r)%Qc = (ts n i f + ts n i g)%Qc.
Proof. apply (sumn_plus (n - i) (fun t => f (i + t)%nat) (fun t => g (i + t)%nat)). Qed.
Lemma ts_mul_l n i c f : ts n i (fun r => c * f r)%Qc = (c * ts n i f)%Qc.
Proof. apply (sumn_mul_l (n - i) c (fun t => f (i + t)%nat)). Qed.
Lemma ts_mul_r n i c f : ts n i (fun r => f r * c)%Qc = (ts n i f * c)%Qc.
Proof. apply (sumn_mul_r (n - i) c (fun t => f (i + t)%nat)). Qed.
Lemma ts_pos n i f k : i <= k -> k < n -> (0 < f k)%Qc -> (forall r, i <= r -> r < n -> (0 <= f r)%Qc) -> (0 < ts n i f)%Qc.
Proof.
  intros H1 H2 H3 H4. apply (sumn_pos _ _ (k - i)); [lia| |intros; apply H4; lia].
  replace (i + (k - i)) with k by lia. exact H3.
Qed.
Lemma ts_0 n f : ts n 0 f = sumn n f.
Proof. unfold ts. rewrite Nat.sub_0_r. reflexivity. Qed.
Lemma ts_nonneg n i f : (forall r, i <= r -> r < n -> (0 <= f r)%Qc) -> (0 <= ts n i f)%Qc.
Proof. intros H. apply sumn_nonneg. intros; apply H; lia. Qed.

(** Back substitution *)
Lemma gth_back_S f n a : forall acc, 
  gth_back (S f) n a acc = gth_back 1 n a (gth_back f n a acc).
Proof. induction f as [|f IH]; intros acc; [reflexivity|]. change (gth_back (S (S f)) n a acc) with (gth_back (S f) n a (gth_back 1 n a acc)). rewrite IH. reflexivity. Qed.
Lemma gth_back_length f n a acc : length (gth_back f n a acc) = f + length acc.
Proof. revert acc. induction f as [|f IH]; intros acc; [reflexivity|]. simpl. rewrite IH. simpl. lia. Qed.

Lemma gth_back_spec f n a : f + 1 <= n ->
  let x := gth_back f n a [1q] in
  length x = f + 1 /\ vget x f = 1q /\
  forall k, k < f -> vget x k = sumn (f - k) (fun t => vget x (S k + t) * mget a (n - 1 - f + k + 1 + t)%nat (n - 1 - f + k)%nat)%Qc.
Proof.
  induction f as [|f IH]; intros Hf x.
  - repeat split. intros k Hk; lia.
  - subst x. rewrite gth_back_S. cbn [gth_back].
    destruct (IH ltac:(lia)) as (L & V & B). set (y := gth_back f n a [1q]) in *.
    split; [simpl; lia|]. split; [exact V|].
    intros [|k] Hk.
    + unfold vget at 1. cbn [nth]. rewrite L. replace (S f - 0) with (f + 1) by lia. apply sumn_ext. intros t Ht.
      unfold vget at 2. change (nth (1 + t) (?h :: y) 0q) with (nth t y 0q). fold (vget y t). f_equal. f_equal; lia.
    + change (vget (?h :: y) (S k)) with (vget y k). rewrite B by lia.
      replace (S f - S k) with (f - k) by lia. apply sumn_ext. intros t Ht.
      change (vget (?h :: y) (S (S k) + t)) with (vget y (S k + t)). f_equal. f_equal; lia.
Qed.

(** Elimination *)
Definition ginv (n i : nat) (a : mat) : Prop :=
  (forall r c, i <= r -> r < n -> i <= c -> c < n -> (0 <= mget a r c)%Qc) /\
  (forall r, i <= r -> r < n -> ts n i (fun c => mget a r c) = 1q) /\
  (forall r c, i <= r -> r < n -> i <= c -> c < n -> reach n (fun r c => i <= r /\ i <= c /\ (0 < mget a r c)%Qc) r c).

Lemma gth_update_get n a i s r c : r < n -> c < n ->
  mget (gth_update n a i s) r c =
    if Nat.ltb i r then if Nat.eqb c i then (mget a r i / s)%Qc
      else if Nat.ltb i c then (mget a r c + mget a r i / s * mget a i c)%Qc else mget a r c
    else mget a r c.
Proof. intros. unfold gth_update. rewrite mget_mk by assumption. reflexivity. Qed.

Lemma reach_first n E i j : reach n E i j -> i <> j -> exists k, k < n /\ E i k.
Proof. intros [k W] H. inversion W; subst; [congruence|]. eauto. Qed.
Lemma reach_out n E i j : reach n E i j -> i <> j -> exists k, k < n /\ k <> i /\ E i k.
Proof.
  intros [k W]. induction W as [i Hi|k i j l Hi Hj He W IH]; intros H; [congruence|].
  destruct (Nat.eq_dec j i) as [->|]; [apply IH; exact H|]. exists j. auto.
Qed.
Lemma reach_in n E i j : reach n E i j -> i <> j -> exists k, k < n /\ k <> j /\ E k j.
Proof.
  intros [k W]. induction W as [i Hi|k i j l Hi Hj He W IH]; intros H; [congruence|].
  destruct (Nat.eq_dec j l) as [->|]; [exists i; auto|]. apply IH; assumption.
Qed.

Lemma ginv_step n i a : S i < n -> ginv n i a ->
  (0 < gth_scale n a i)%Qc /\ ginv n (S i) (gth_update n a i (gth_scale n a i)).
Proof.
  intros Hn (Pos & Sum & Irr).
  set (s := gth_scale n a i).
  assert (Hs : s = ts n (S i) (fun c => mget a i c)) by reflexivity.
  assert (Hs0 : (0 < s)%Qc).
  { destruct (reach_out _ _ i (n - 1) (Irr i (n - 1) ltac:(lia) ltac:(lia) ltac:(lia) ltac:(lia)) ltac:(lia)) as (k & K1 & K2 & _ & K3 & K4).
    rewrite Hs. apply (ts_pos n (S i) _ k); [lia|lia|exact K4|]. intros; apply Pos; lia. }
  assert (G : forall r c, i < r -> r < n -> i < c -> c < n ->
     mget (gth_update n a i s) r c = (mget a r c + mget a r i / s * mget a i c)%Qc).
  { intros r c. intros. rewrite gth_update_get by lia.
    destruct (Nat.ltb_spec i r); [|lia]. destruct (Nat.eqb_spec c i); [lia|].
    destruct (Nat.ltb_spec i c); [|lia]. reflexivity. }
  assert (D : forall r, i < r -> r < n -> (0 <= mget a r i / s)%Qc).
  { intros. apply Qc_div_nonneg; [apply Pos; lia|exact Hs0]. }
  split; [exact Hs0|]. split; [|split].
  - intros r c. intros. rewrite G by lia.
    pose proof (Pos r c ltac:(lia) ltac:(lia) ltac:(lia) ltac:(lia)).
    pose proof (Qc_mul_nonneg _ _ (D r ltac:(lia) ltac:(lia)) (Pos i c ltac:(lia) ltac:(lia) ltac:(lia) ltac:(lia))). qclra.
  - intros r Hr1 Hr2.
    rewrite (ts_ext n (S i) _ (fun c => mget a r c + mget a r i / s * mget a i c)%Qc).
    2:{ intros; apply G; lia. }
    rewrite ts_plus, ts_mul_l. change (ts n (S i) (mget a i)) with s.
    rewrite Qc_div_mul by (apply Qc_lt_neq; exact Hs0).
    pose proof (Sum r ltac:(lia) ltac:(lia)) as HS. rewrite ts_split in HS by lia.
    change (ts n (S i) (fun c => mget a r c)) with (ts n (S i) (mget a r)) in HS. rewrite <- HS. ring.
  - intros r c Hr1 Hr2 Hc1 Hc2.
    assert (K : forall k r c, walk n (fun r c => i <= r /\ i <= c /\ (0 < mget a r c)%Qc) k r c -> i < c ->
      (i < r -> reach n (fun r c => S i <= r /\ S i <= c /\ (0 < mget (gth_update n a i s) r c)%Qc) r c) /\
      (r = i -> forall q, i < q -> q < n -> (0 < mget a q i)%Qc ->
         reach n (fun r c => S i <= r /\ S i <= c /\ (0 < mget (gth_update n a i s) r c)%Qc) q c)).
    { clear r c Hr1 Hr2 Hc1 Hc2. intros k r c W. induction W as [r Hr|k r j c Hr Hj He W IH]; intros Hc.
      - split; [intros _; apply reach_refl; exact Hr|intros; lia].
      - destruct (IH Hc) as [IH1 IH2]. clear IH. destruct He as (E1 & E2 & E3).
        destruct (Nat.eq_dec j i) as [->|Hji].
        + split.
          * intros Hir. apply IH2; auto.
          * intros _ q Hq1 Hq2 Hq3. apply IH2; auto.
        + assert (Hij : i < j) by lia. specialize (IH1 Hij). split.
          * intros Hir. apply (reach_trans _ _ _ j); [|exact IH1]. apply reach_step; [exact Hr|exact Hj|].
            split; [lia|]. split; [lia|]. rewrite G by lia.
            pose proof (Qc_mul_nonneg _ _ (D r ltac:(lia) ltac:(lia)) (Pos i j ltac:(lia) ltac:(lia) ltac:(lia) ltac:(lia))). qclra.
          * intros -> q Hq1 Hq2 Hq3. apply (reach_trans _ _ _ j); [|exact IH1]. apply reach_step; [exact Hq2|exact Hj|].
            split; [lia|]. split; [lia|]. rewrite G by lia.
            pose proof (Pos q j ltac:(lia) ltac:(lia) ltac:(lia) ltac:(lia)).
            pose proof (Qc_mul_pos _ _ (Qc_div_pos _ _ Hq3 Hs0) E3). qclra. }
    destruct (Irr r c ltac:(lia) Hr2 ltac:(lia) Hc2) as [k W].
    apply (proj1 (K k r c W ltac:(lia))); lia.
Qed.

Lemma gth_elim_spec fuel : forall n i a, i + fuel + 1 = n -> ginv n i a ->
  exists a', gth_elim fuel n i a = (a', n) /\
    (forall r c, r < n -> c < i -> mget a' r c = mget a r c) /\
    forall x : nat -> Qc, x (n - 1) = 1q ->
      (forall k, i <= k -> k < n - 1 -> x k = ts n (S k) (fun r => x r * mget a' r k)%Qc) ->
      forall j, i <= j -> j < n -> (0 < x j)%Qc /\ ts n i (fun r => x r * mget a r j)%Qc = x j.
Proof.
  induction fuel as [|fuel IH]; intros n i a Hn Inv.
  - exists a. split; [reflexivity|]. split; [reflexivity|]. intros x X1 X2 j Hj1 Hj2.
    assert (j = n - 1) by lia. subst j. assert (i = n - 1) by lia. subst i. rewrite X1.
    destruct Inv as (_ & Sum & _). pose proof (Sum (n - 1) ltac:(lia) ltac:(lia)) as E.
    rewrite ts_split in E |- * by lia. unfold ts in *. replace (n - S (n - 1)) with 0 in * by lia.
    cbn [sumn] in *. rewrite X1. split; [reflexivity|]. rewrite Qcplus_0_r in E. rewrite E. reflexivity.
  - destruct (ginv_step n i a ltac:(lia) Inv) as [Hs Inv'].
    set (s := gth_scale n a i) in *. set (a1 := gth_update n a i s) in *.
    destruct (IH n (S i) a1 ltac:(lia) Inv') as (a' & E & C & X).
    exists a'. split; [|split].
    + cbn [gth_elim]. fold s. destruct (Qcleb_spec s 0); [exfalso; qclra|]. exact E.
    + intros r c Hr Hc. rewrite C by lia. unfold a1. rewrite gth_update_get by lia.
      destruct (Nat.ltb_spec i r); [|reflexivity]. destruct (Nat.eqb_spec c i); [lia|].
      destruct (Nat.ltb_spec i c); [lia|reflexivity].
    + intros x X1 X2.
      assert (X' := X x X1 ltac:(intros; apply X2; lia)). clear X.
      destruct Inv as (Pos & Sum & Irr).
      assert (A1 : forall r c, i < r -> r < n -> i < c -> c < n -> mget a1 r c = (mget a r c + mget a r i / s * mget a i c)%Qc).
      { intros r c. intros. unfold a1. rewrite gth_update_get by lia.
        destruct (Nat.ltb_spec i r); [|lia]. destruct (Nat.eqb_spec c i); [lia|].
        destruct (Nat.ltb_spec i c); [|lia]. reflexivity. }
      assert (Xi : x i = ts n (S i) (fun r => x r * (mget a r i / s))%Qc).
      { rewrite (X2 i) by lia. apply ts_ext. intros r R1 R2. f_equal. rewrite C by lia. unfold a1.
        rewrite gth_update_get by lia. destruct (Nat.ltb_spec i r); [|lia]. destruct (Nat.eqb_spec i i); [|lia]. reflexivity. }
      assert (Xis : (x i * s)%Qc = ts n (S i) (fun r => x r * mget a r i)%Qc).
      { rewrite Xi, <- ts_mul_r. apply ts_ext. intros r _ _. rewrite <- Qcmult_assoc, Qc_div_mul by (apply Qc_lt_neq; exact Hs). reflexivity. }
      assert (Xi0 : (0 < x i)%Qc).
      { destruct (reach_in _ _ (n - 1) i (Irr (n - 1) i ltac:(lia) ltac:(lia) ltac:(lia) ltac:(lia)) ltac:(lia)) as (k & K1 & K2 & K3 & _ & K4).
        rewrite Xi. apply (ts_pos n (S i) _ k); [lia|lia| |].
        - apply Qc_mul_pos; [apply X'; lia|]. apply Qc_div_pos; assumption.
        - intros r R1 R2. apply Qc_mul_nonneg; [apply Qclt_le_weak, X'; lia|].
          apply Qc_div_nonneg; [apply Pos; lia|exact Hs]. }
      intros j Hj1 Hj2. destruct (Nat.eq_dec j i) as [->|Hji].
      * split; [exact Xi0|]. rewrite ts_split by lia. rewrite <- Xis.
        pose proof (Sum i ltac:(lia) ltac:(lia)) as E1. rewrite ts_split in E1 by lia.
        change (ts n (S i) (fun c => mget a i c)) with s in E1.
        replace (x i * mget a i i + x i * s)%Qc with (x i * (mget a i i + s))%Qc by ring. rewrite E1. ring.
      * destruct (X' j ltac:(lia) Hj2) as [P1 P2]. split; [exact P1|].
        rewrite ts_split by lia. rewrite <- P2.
        rewrite (ts_ext n (S i) (fun r => x r * mget a1 r j)%Qc (fun r => x r * mget a r j + (x r * (mget a r i / s)) * mget a i j)%Qc).
        2:{ intros r R1 R2. rewrite A1 by lia. ring. }
        rewrite ts_plus, ts_mul_r, <- Xi. ring.
Qed.

Lemma stochastic_ginv n P : stochastic n P -> irreducible n (edge P) -> ginv n 0 P.
Proof.
  intros (W & Pos & Sum) Irr. split; [|split].
  - intros; apply Pos; assumption.
  - intros r _ Hr. rewrite ts_0. apply Sum. exact Hr.
  - intros r c _ Hr _ Hc. destruct (Irr r c Hr Hc) as [k Wk]. exists k.
    clear -Wk. induction Wk; [constructor; assumption|]. econstructor; eauto. split; [lia|]. split; [lia|]. assumption.
Qed.

Lemma gth_solve_spec n P : 0 < n -> stochastic n P -> irreducible n (edge P) ->
  distribution n (gth_solve P) /\ stationary n P (gth_solve P) /\ forall i, i < n -> (0 < vget (gth_solve P) i)%Qc.
Proof.
  intros Hn St Irr. pose proof (stochastic_ginv n P St Irr) as Inv.
  destruct St as (W & Pos & Sum).
  unfold gth_solve. rewrite (wf_nrows _ _ _ W).
  destruct (gth_elim_spec (n - 1) n 0 P ltac:(lia) Inv) as (a & E & _ & X). rewrite E. clear E.
  destruct (gth_back_spec (n - 1) n a ltac:(lia)) as (L & V & B).
  set (x := gth_back (n - 1) n a [1q]) in *.
  assert (Lx : length x = n) by lia.
  specialize (X (vget x) V).
  assert (X' : forall j, j < n -> (0 < vget x j)%Qc /\ sumn n (fun r => vget x r * mget P r j)%Qc = vget x j).
  { intros j Hj. destruct (X ltac:(intros k K1 K2; rewrite B by lia; unfold ts; replace (n - S k) with (n - 1 - k) by lia; apply sumn_ext; intros t Ht; f_equal; f_equal; lia) j ltac:(lia) Hj) as [X1 X2].
    rewrite ts_0 in X2. auto. }
  assert (Sx : lsum x = sumn n (vget x)) by (rewrite lsum_nth, Lx; reflexivity).
  assert (S0 : (0 < lsum x)%Qc).
  { rewrite Sx. apply (sumn_pos _ _ 0); [lia|apply X'; lia|intros; apply Qclt_le_weak, X'; assumption]. }
  assert (Vm : forall i, i < n -> vget (map (fun v => v / lsum x)%Qc x) i = (vget x i / lsum x)%Qc).
  { intros i Hi. unfold vget at 1. rewrite (nth_indep _ 0q (0 / lsum x)%Qc) by (rewrite map_length; lia). rewrite (map_nth (fun v => v / lsum x)%Qc). reflexivity. }
  split; [|split].
  - split; [rewrite map_length; exact Lx|]. split.
    + intros i Hi. rewrite Vm by exact Hi. apply Qc_div_nonneg; [apply Qclt_le_weak, X'; exact Hi|exact S0].
    + rewrite (sumn_ext n _ (fun i => vget x i / lsum x)%Qc) by exact Vm. rewrite sumn_div, <- Sx. apply Qc_div_self, Qc_lt_neq, S0.
  - split; [rewrite map_length; exact Lx|]. intros j Hj. rewrite Vm by exact Hj.
    rewrite (sumn_ext n _ (fun i => (vget x i * mget P i j) / lsum x)%Qc).
    2:{ intros i Hi. rewrite Vm by exact Hi. unfold Qcdiv. ring. }
    rewrite sumn_div. destruct (X' j Hj) as [_ ->]. reflexivity.
  - intros i Hi. rewrite Vm by exact Hi. apply Qc_div_pos; [apply X'; exact Hi|exact S0].
Qed.

(** Sub-indexing by a duplicate-free list of positions *)
Lemma Nat_eqb_iff a b : Nat.eqb a b = true <-> a = b.
Proof. apply Nat.eqb_eq. Qed.
Lemma index_of_nat_in j B : In j B -> exists k, index_of Nat.eqb j B = Some k /\ k < length B /\ nth k B 0 = j.
Proof.
  intros H. destruct (index_of Nat.eqb j B) as [k|] eqn:E.
  - exists k. destruct (index_of_Some Nat.eqb Nat_eqb_iff j B k E) as [H1 _]. split; [reflexivity|]. split.
    + apply nth_error_Some. congruence.
    + apply nth_error_nth. exact H1.
  - exfalso. apply (proj1 (index_of_None Nat.eqb Nat_eqb_iff j B) E H).
Qed.
Lemma index_of_nat_nth B k : NoDup B -> k < length B -> index_of Nat.eqb (nth k B 0) B = Some k.
Proof.
  intros ND Hk. destruct (index_of_nat_in (nth k B 0) B (nth_In B 0 Hk)) as (k' & E & Hk' & E'). rewrite E. f_equal.
  apply (proj1 (NoDup_nth B 0) ND); assumption.
Qed.
Lemma sumn_nth_lsum (B : list nat) (f : nat -> Qc) : sumn (length B) (fun k => f (nth k B 0)) = lsum (map f B).
Proof.
  rewrite lsum_nth, map_length. apply sumn_ext. intros k Hk.
  rewrite (nth_indep _ 0q (f 0)) by (rewrite map_length; exact Hk). rewrite map_nth. reflexivity.
Qed.
Lemma sumn_block n (B : list nat) (f : nat -> Qc) : NoDup B -> (forall x, In x B -> x < n) ->
  (forall x, x < n -> ~ In x B -> f x = 0q) -> sumn (length B) (fun k => f (nth k B 0)) = sumn n f.
Proof.
  intros ND Lt Z. rewrite sumn_nth_lsum, (lsum_map_indicator n) by assumption. apply sumn_ext. intros i Hi.
  destruct (memn i B) eqn:E; [reflexivity|]. symmetry. apply Z; [exact Hi|]. apply memn_false; exact E.
Qed.

Definition embed (n : nat) (B : list nat) (s : vec) : vec :=
  tab n (fun j => match index_of Nat.eqb j B with Some k => vget s k | None => 0q end).
Lemma embed_nth n B s k : NoDup B -> (forall x, In x B -> x < n) -> k < length B -> vget (embed n B s) (nth k B 0) = vget s k.
Proof.
  intros ND Lt Hk. unfold embed. rewrite vget_tab by (apply Lt, nth_In, Hk). rewrite index_of_nat_nth by assumption. reflexivity.
Qed.
Lemma embed_out n B s j : j < n -> ~ In j B -> vget (embed n B s) j = 0q.
Proof.
  intros Hj H. unfold embed. rewrite vget_tab by exact Hj. apply (index_of_None Nat.eqb Nat_eqb_iff) in H. rewrite H. reflexivity.
Qed.

Section CLOSED.
Variables (n : nat) (P : mat) (B : list nat).
Hypothesis St : stochastic n P.
Hypothesis ND : NoDup B.
Hypothesis Lt : forall x, In x B -> x < n.
Hypothesis Cl : closed n (edge P) B.
Lemma closed_zero i j : In i B -> j < n -> ~ In j B -> mget P i j = 0q.
Proof.
  intros Hi Hj Hn. destruct (Qc_eq_dec (mget P i j) 0q) as [E|E]; [exact E|]. exfalso. apply Hn. apply (Cl i j Hi Hj).
  unfold edge. destruct (Qc_dec (mget P i j) 0q) as [[C|C]|C]; [|exact C|congruence].
  exfalso. pose proof (proj1 (proj2 St) i j (Lt i Hi) Hj). qclra.
Qed.
Lemma closed_stochastic : stochastic (length B) (mix P B B).
Proof.
  destruct St as (W & Pos & Sum). split; [apply wf_mix|]. split.
  - intros i j Hi Hj. rewrite mget_mix by assumption. apply Pos; apply Lt, nth_In; assumption.
  - intros i Hi. rewrite (sumn_ext _ _ (fun j => mget P (nth i B 0) (nth j B 0))).
    2:{ intros j Hj. apply mget_mix; assumption. }
    rewrite (sumn_block n B (fun j => mget P (nth i B 0) j) ND Lt).
    + apply Sum. apply Lt, nth_In, Hi.
    + intros x Hx Hn. apply closed_zero; [apply nth_In, Hi|exact Hx|exact Hn].
Qed.
Lemma closed_walk : forall k a b, walk n (edge P) k a b -> forall i, i < length B -> nth i B 0 = a ->
  exists j, j < length B /\ nth j B 0 = b /\ walk (length B) (edge (mix P B B)) k i j.
Proof.
  intros k a b W. induction W as [a Ha|k a c b Ha Hc He W IH]; intros i Hi <-.
  - exists i. repeat split; auto. constructor; exact Hi.
  - assert (In c B) by (apply (Cl (nth i B 0) c); [apply nth_In, Hi|exact Hc|exact He]).
    destruct (index_of_nat_in c B H) as (k' & _ & Hk & E).
    destruct (IH k' Hk E) as (j & Hj & Ej & Wj). exists j. repeat split; auto.
    econstructor; [exact Hi|exact Hk| |exact Wj]. unfold edge. rewrite mget_mix by assumption. rewrite E. exact He.
Qed.
Lemma closed_irreducible : (forall i j, In i B -> In j B -> reach n (edge P) i j) -> irreducible (length B) (edge (mix P B B)).
Proof.
  intros H i j Hi Hj. destruct (H (nth i B 0) (nth j B 0) (nth_In B 0 Hi) (nth_In B 0 Hj)) as [k W].
  destruct (closed_walk k _ _ W i Hi eq_refl) as (j' & Hj' & E & W').
  assert (j' = j) by (apply (proj1 (NoDup_nth B 0) ND); assumption). subst. exists k; exact W'.
Qed.
Lemma embed_spec s : distribution (length B) s -> stationary (length B) (mix P B B) s -> (forall i, i < length B -> (0 < vget s i)%Qc) ->
  distribution n (embed n B s) /\ stationary n P (embed n B s) /\ forall i, i < n -> ((0 < vget (embed n B s) i)%Qc <-> In i B).
Proof.
  intros (D1 & D2 & D3) (S1 & S2) Ps.
  assert (Cases : forall i, i < n -> (exists k, k < length B /\ nth k B 0 = i /\ vget (embed n B s) i = vget s k) \/ (~ In i B /\ vget (embed n B s) i = 0q)).
  { intros i Hi. destruct (memn i B) eqn:E.
    - left. apply memn_In in E. destruct (index_of_nat_in i B E) as (k & _ & Hk & <-). exists k. repeat split; auto. apply embed_nth; auto.
    - right. apply memn_false in E. split; [exact E|apply embed_out; assumption]. }
  split; [|split].
  - split; [apply tab_length|]. split.
    + intros i Hi. destruct (Cases i Hi) as [(k & Hk & _ & ->)|[_ ->]]; [apply D2; exact Hk|apply Qcle_refl].
    + rewrite <- (sumn_block n B (vget (embed n B s)) ND Lt).
      * rewrite <- D3. apply sumn_ext. intros k Hk. apply embed_nth; assumption.
      * intros; apply embed_out; assumption.
  - split; [apply tab_length|]. intros j Hj.
    rewrite <- (sumn_block n B (fun i => vget (embed n B s) i * mget P i j)%Qc ND Lt).
    2:{ intros x Hx Hn. rewrite embed_out by assumption. ring. }
    destruct (Cases j Hj) as [(k & Hk & <- & ->)|[Hn ->]].
    + rewrite <- (S2 k Hk). apply sumn_ext. intros i Hi. rewrite embed_nth by assumption. rewrite mget_mix by assumption. reflexivity.
    + apply sumn_0. intros i Hi. rewrite (closed_zero (nth i B 0) j) by (auto; apply nth_In, Hi). ring.
  - intros i Hi. destruct (Cases i Hi) as [(k & Hk & <- & ->)|[Hn ->]].
    + split; intros _; [apply nth_In, Hk|apply Ps, Hk].
    + split; intros H; [exfalso; apply (Qclt_irr 0q H)|contradiction].
Qed.
End CLOSED.


Lemma pi_spec n P comps : 0 < n -> stochastic n P -> scc_enum n (edge P) comps ->
  exists pis, stationary_distributions P comps = Ok pis /\ Forall2 (pi_ok n P) (recurrent_classes_indices P comps) pis.
Proof.
  intros Hn St HE. assert (W := proj1 St).
  destruct (classes_enum n _ comps HE) as [HE' HS]. destruct HE' as [HP HM].
  unfold stationary_distributions. rewrite (wf_nrows _ _ _ W).
  destruct (is_irreducible comps) eqn:EI.
  - pose proof (proj1 (is_irreducible_spec n P comps Hn W HE) EI) as Irr.
    destruct (gth_solve_spec n P Hn St Irr) as (D & S & Ps).
    rewrite (proj1 D), Nat.eqb_refl. eexists. split; [reflexivity|].
    unfold is_irreducible, communicating_indices in EI. apply Nat.eqb_eq in EI.
    rewrite <- (Permutation_length (sort_classes_perm _)) in EI.
    assert (Hrec : exists B, recurrent_classes_indices P comps = [B] /\ In B (classes_indices comps)).
    { destruct (some_recurrent n P comps 0 W Hn HE) as (x & Hx & _).
      unfold recurrent_states_indices in Hx. rewrite in_sort, in_concat in Hx. destruct Hx as (B & HB & _).
      assert (HB' := proj1 (proj1 (recurrent_in n P comps B W HE) HB)).
      assert (HL : length (recurrent_classes_indices P comps) <= 1).
      { unfold recurrent_classes_indices. rewrite <- (Permutation_length (sort_classes_perm _)), <- EI. apply filter_length_le. }
      destruct (recurrent_classes_indices P comps) as [|B1 [|B2 l]]; [destruct HB| |simpl in HL; lia].
      destruct HB as [<-|[]]. exists B1. split; [reflexivity|exact HB']. }
    destruct Hrec as (B & -> & HB). constructor; [|constructor]. split; [exact D|]. split; [exact S|].
    intros i Hi. split; [|intros _; apply Ps; exact Hi]. intros _.
    destruct (part_cover n _ i HP Hi) as (B' & HB' & HiB').
    destruct (classes_indices comps) as [|A [|A' l]]; simpl in EI; try lia. destruct HB as [<-|[]], HB' as [<-|[]]. exact HiB'.
  - assert (HR : forall B, In B (recurrent_classes_indices P comps) -> In B (classes_indices comps) /\ closed n (edge P) B).
    { intros B HB. apply (recurrent_in n P comps B W HE). exact HB. }
    revert HR. generalize (recurrent_classes_indices P comps). intros R HR.
    induction R as [|B R IH].
    + exists []. split; [reflexivity|constructor].
    + destruct (IH ltac:(intros B' HB'; apply HR; right; exact HB')) as (pis & E & F).
      destruct (HR B (or_introl eq_refl)) as [HB Cl].
      assert (NB : NoDup B) by (eapply part_block_nodup; eassumption).
      assert (LB : forall x, In x B -> x < n) by (intros x Hx; eapply part_lt; eassumption).
      assert (B0 : 0 < length B). { destruct B as [|b B]; [exfalso; apply (proj1 HP [] HB); reflexivity|simpl; lia]. }
      assert (IB : irreducible (length B) (edge (mix P B B))).
      { apply (closed_irreducible n P B NB Cl). intros i j Hi Hj. apply (proj1 (HM B i j HB Hi (LB j Hj)) Hj). }
      assert (SB := closed_stochastic n P B St NB LB Cl).
      destruct (gth_solve_spec _ _ B0 SB IB) as (D & S & Ps).
      cbn [mapM]. rewrite (proj1 D), Nat.eqb_refl. cbn [bind].
      rewrite E. eexists. split; [reflexivity|]. constructor; [|exact F].
      exact (embed_spec n P B St NB LB Cl _ D S Ps).
Qed.

(** Uniqueness *)
Lemma zero_back n P u k : (forall i j, i < n -> j < n -> (0 <= mget P i j)%Qc) ->
  (forall i, i < n -> (0 <= u i)%Qc) -> (forall j, j < n -> sumn n (fun i => u i * mget P i j)%Qc = u j) ->
  u k = 0q -> forall j, reach n (edge P) j k -> u j = 0q.
Proof.
  intros Pos U S Z j [m W]. induction W as [i Hi|m i j l Hi Hj He W IH]; [exact Z|].
  specialize (IH Z). rewrite <- (S j Hj) in IH.
  pose proof (sumn_eq0_inv n (fun i => u i * mget P i j)%Qc i ltac:(intros; apply Qc_mul_nonneg; auto) IH Hi) as H. cbv beta in H.
  destruct (Qc_integral _ _ H) as [H0|H0]; [exact H0|]. unfold edge in He. rewrite H0 in He. exfalso. apply (Qclt_irr 0q He).
Qed.
Lemma stationary_unique n P x v : 0 < n -> stochastic n P -> irreducible n (edge P) ->
  distribution n x -> stationary n P x -> (forall i, i < n -> (0 < vget x i)%Qc) ->
  length v = n -> sumn n (vget v) = 1q -> stationary n P v -> v = x.
Proof.
  intros Hn (W & Pos & Sum) Irr (Lx & _ & Sx) (_ & Tx) Px Lv Sv (_ & Tv).
  destruct (argmax_exists n (fun i => vget v i / vget x i)%Qc Hn) as (k & Hk & Mk).
  set (r := (vget v k / vget x k)%Qc) in *.
  set (u := fun i => (r * vget x i - vget v i)%Qc).
  assert (U0 : forall i, i < n -> (0 <= u i)%Qc).
  { intros i Hi. unfold u. pose proof (Mk i Hi) as H. cbv beta in H.
    pose proof (Qc_mul_nonneg (r - vget v i / vget x i)%Qc (vget x i) ltac:(qclra) ltac:(apply Qclt_le_weak, Px, Hi)) as H'.
    replace ((r - vget v i / vget x i) * vget x i)%Qc with (r * vget x i - vget v i / vget x i * vget x i)%Qc in H' by ring.
    rewrite Qc_div_mul in H' by (apply Qc_lt_neq, Px, Hi). exact H'. }
  assert (Uk : u k = 0q). { unfold u, r. rewrite Qc_div_mul by (apply Qc_lt_neq, Px, Hk). ring. }
  assert (US : forall j, j < n -> sumn n (fun i => u i * mget P i j)%Qc = u j).
  { intros j Hj. unfold u. rewrite <- (Tx j Hj), <- (Tv j Hj), <- sumn_mul_l, <- sumn_minus. apply sumn_ext. intros; ring. }
  assert (UZ : forall j, j < n -> u j = 0q).
  { intros j Hj. apply (zero_back n P u k Pos U0 US Uk). apply Irr; assumption. }
  assert (R1 : r = 1q).
  { assert (E : sumn n u = 0q) by (apply sumn_0; exact UZ). unfold u in E. rewrite sumn_minus, sumn_mul_l in E.
    change (sumn n (fun i => vget x i)) with (sumn n (vget x)) in E. change (sumn n (fun i => vget v i)) with (sumn n (vget v)) in E.
    rewrite Sx, Sv in E. qclra. }
  apply (vec_ext _ _ n Lv Lx). intros i Hi. specialize (UZ i Hi). unfold u in UZ. rewrite R1 in UZ. qclra.
Qed.
Lemma pi_unique n P comps : 0 < n -> stochastic n P -> irreducible n (edge P) -> scc_enum n (edge P) comps ->
  exists x, stationary_distributions P comps = Ok [x] /\ pi_ok n P (seq 0 n) x /\
    forall v, distribution n v -> stationary n P v -> v = x.
Proof.
  intros Hn St Irr HE. exists (gth_solve P). destruct (gth_solve_spec n P Hn St Irr) as (D & S & Ps).
  split; [|split].
  - unfold stationary_distributions. rewrite (wf_nrows _ _ _ (proj1 St)).
    rewrite (proj2 (is_irreducible_spec n P comps Hn (proj1 St) HE) Irr). rewrite (proj1 D), Nat.eqb_refl. reflexivity.
  - split; [exact D|]. split; [exact S|]. intros i Hi. split; intros _; [apply in_seq; lia|apply Ps; exact Hi].
  - intros v Dv Sv. apply (stationary_unique n P _ _ Hn St Irr D S Ps); [apply Dv|apply Dv|exact Sv].
Qed.

Lemma recurrent_listing_ok n P comps : stochastic n P -> scc_enum n (edge P) comps -> recurrent_listing n (edge P) (recurrent_classes_indices P comps).
Proof.
  intros St HE. assert (W := proj1 St).
  pose proof (classes_enum n (edge P) comps HE) as [[HP HM] _].
  assert (Rec : forall B, In B (recurrent_classes_indices P comps) -> In B (classes_indices comps) /\ closed n (edge P) B) by (intros B HB; apply (proj1 (recurrent_in n P comps B W HE)); exact HB).
  assert (Rs : forall x, recurrent n (edge P) x <-> exists B, In B (recurrent_classes_indices P comps) /\ In x B).
  { intros x. unfold recurrent. rewrite <- (recurrent_state_in n P comps x W HE). unfold recurrent_states_indices. rewrite in_sort, in_concat. reflexivity. }
  split; [|split; [|split]].
  - unfold recurrent_classes_indices. eapply Permutation_NoDup; [apply sort_classes_perm|]. apply NoDup_filter. apply (part_nodup n). exact HP.
  - intros B HB. destruct (Rec B HB) as [HB' _]. split; [apply HP; exact HB'|].
    intros i Hi. split; [apply Rs; exists B; auto|]. intros j Hj. apply (HM B i j HB' Hi Hj).
  - intros x Hx. apply Rs in Hx. exact Hx.
  - intros B B' x HB HB' H1 H2. apply (part_disj n (classes_indices comps) B B' x); auto; apply Rec; assumption.
Qed.
Lemma pi_listing n P comps : 0 < n -> stochastic n P -> scc_enum n (edge P) comps ->
  exists Rs pis, stationary_distributions P comps = Ok pis /\ recurrent_listing n (edge P) Rs /\ Forall2 (pi_ok n P) Rs pis.
Proof.
  intros Hn St HE. destruct (pi_spec n P comps Hn St HE) as (pis & E & F). exists (recurrent_classes_indices P comps), pis.
  split; [exact E|]. split; [apply recurrent_listing_ok; assumption|exact F].
Qed.
