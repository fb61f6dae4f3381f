(** L_Aggregate3: the top-down aggregation; aggregate. *)
From Verif Require Export L_Aggregate2.
Open Scope nat_scope.
Open Scope res_scope.

(** * Top-down *)
Lemma members_sorted v vi0 vi1 l : members v = vi0 :: vi1 :: l -> vi0 < vi1.
Proof.
  unfold members. assert (G : forall (f : nat -> bool) k s, Sorted.StronglySorted lt (filter f (seq s k))).
  { intros f. induction k as [|k IH]; intros s; [constructor|]. cbn [seq filter]. destruct (f s); [constructor|]; try apply IH.
    apply Forall_forall. intros x Hx. apply filter_In in Hx. destruct Hx as [Hx _]. apply in_seq in Hx. lia. }
  intros E. specialize (G (fun i => nth i v false) (length v) 0). rewrite E in G. apply Sorted.StronglySorted_inv in G. destruct G as [_ F].
  rewrite Forall_forall in F. apply F. left. reflexivity.
Qed.
Lemma skip2 {A} (l : list A) x y : skipn x (skipn y l) = skipn (x + y) l.
Proof. revert l. induction y as [|y IH]; intros l; [rewrite Nat.add_0_r; reflexivity|]. rewrite Nat.add_succ_r. destruct l as [|a l]; [cbn; rewrite skipn_nil; reflexivity|]. cbn [skipn]. apply IH. Qed.
Lemma split_two {A} (l : list A) a b d : a < b -> b < length l ->
  l = firstn a l ++ [nth a l d] ++ slice (a + 1) b l ++ [nth b l d] ++ skipn (b + 1) l.
Proof.
  intros Lab Lb. rewrite (split_nth l a d) at 1 by lia. f_equal. f_equal.
  rewrite <- (firstn_skipn (b - (a + 1)) (skipn (a + 1) l)) at 1. unfold slice. f_equal.
  rewrite skip2. replace (b - (a + 1) + (a + 1)) with b by lia.
  rewrite (split_nth (skipn b l) 0 d) by (rewrite skipn_length; lia). cbn [firstn app]. rewrite skip2. f_equal.
  - clear Lab. revert b Lb. induction l as [|x l IH]; intros b Lb; [cbn in Lb; lia|]. destruct b as [|b]; [reflexivity|]. cbn. apply IH. cbn in Lb. lia.
  - f_equal. lia.
Qed.
Lemma slice_length {A} (l : list A) a b : b <= length l -> length (slice a b l) = b - a.
Proof. intros L. unfold slice. rewrite firstn_length, skipn_length. lia. Qed.
Lemma slice_short {A} (l : list A) a b : b <= length l -> slice (a + 1) (b - 1) l = firstn (b - (a + 1) - 1) (slice (a + 1) b l).
Proof. intros L. unfold slice. rewrite firstn_firstn. f_equal. lia. Qed.
Lemma hits_firstn k phi i : hits (firstn k phi) i <= hits phi i.
Proof. rewrite <- (firstn_skipn k phi) at 2. rewrite hits_app. lia. Qed.
Lemma hits_nth phi i a : nth i (nth a phi []) false = true -> 0 < hits phi i.
Proof.
  intros E. destruct (Nat.lt_ge_cases a (length phi)) as [L|L]; [|rewrite (nth_overflow phi) in E by exact L; destruct i; discriminate].
  rewrite (split_nth phi a []) by exact L. rewrite !hits_app. rewrite (hits_cons _ []). rewrite E. cbn. lia.
Qed.

Lemma merge_ok n eta v eta' : cols_ok n eta -> (forall i, i < n -> hits eta i <= 1) -> length v = length eta -> length (members v) <= 2 ->
  td_merge n eta v = Ok eta' ->
  cols_ok n eta' /\ (forall i, i < n -> hits eta' i <= 1) /\ length eta' + 1 <= length eta /\ (length eta' + 1 = length eta -> covers n eta -> covers n eta') /\ eta' <> [].
Proof.
  intros C D Lv M2. unfold td_merge. destruct (members v) as [|vi0 [|vi1 [|w l]]] eqn:E; [discriminate|discriminate| |cbn in M2; lia].
  pose proof (members_sorted v vi0 vi1 [] E) as Lt.
  assert (L1 : vi1 < length eta). { rewrite <- Lv. apply members_lt. rewrite E. right. left. reflexivity. }
  intros R. injection R as R. subst eta'.
  pose proof (split_two eta vi0 vi1 [] Lt L1) as Sp. set (c0 := nth vi0 eta []) in *. set (c1 := nth vi1 eta []) in *.
  set (mid := slice (vi0 + 1) vi1 eta) in *. rewrite (slice_short eta vi0 vi1) by lia. fold mid.
  set (U := union_of n eta [vi0; vi1]).
  assert (Un : forall i, i < n -> nth i U false = nth i c0 false || nth i c1 false).
  { intros i Hi. unfold U, union_of. rewrite tab_nth by exact Hi. cbn [existsb]. rewrite orb_false_r. reflexivity. }
  assert (Cc : forall a, a < length eta -> length (nth a eta []) = n /\ members (nth a eta []) <> []) by (intros a Ha; apply C, nth_In; exact Ha).
  assert (Hh : forall i, hits eta i = hits (firstn vi0 eta) i + (Nat.b2n (nth i c0 false) + (hits mid i + (Nat.b2n (nth i c1 false) + hits (skipn (vi1 + 1) eta) i)))).
  { intros i. pose proof (f_equal (fun l => hits l i) Sp) as Hs. cbv beta in Hs. rewrite !hits_app in Hs.
    rewrite (hits_cons c0 [] i), (hits_cons c1 [] i) in Hs. change (hits [] i) with 0 in Hs. lia. }
  assert (Hu : forall i, hits (firstn vi0 eta ++ [U] ++ firstn (vi1 - (vi0 + 1) - 1) mid ++ skipn (vi1 + 1) eta) i =
                 hits (firstn vi0 eta) i + (Nat.b2n (nth i U false) + (hits (firstn (vi1 - (vi0 + 1) - 1) mid) i + hits (skipn (vi1 + 1) eta) i))).
  { intros i. rewrite !hits_app. rewrite (hits_cons U [] i). change (hits [] i) with 0. lia. }
  assert (Lm : length mid = vi1 - (vi0 + 1)) by (apply slice_length; lia).
  split; [|split; [|split; [|split]]]; [| | | |destruct (firstn vi0 eta); discriminate].
  - intros w Iw. assert (Ie : In w eta \/ w = U).
    { apply in_app_or in Iw. destruct Iw as [Iw|Iw]; [left; rewrite Sp; apply in_or_app; left; exact Iw|].
      destruct Iw as [<-|Iw]; [right; reflexivity|]. left. apply in_app_or in Iw. rewrite Sp. apply in_or_app. right. apply in_or_app. right. apply in_or_app.
      destruct Iw as [Iw|Iw]; [left|right; apply in_or_app; right; exact Iw].
      assert (Fs : firstn (vi1 - (vi0 + 1) - 1) mid ++ skipn (vi1 - (vi0 + 1) - 1) mid = mid) by apply firstn_skipn. rewrite <- Fs. apply in_or_app. left. exact Iw. }
    destruct Ie as [Ie| ->]; [apply C; exact Ie|]. split; [apply tab_length|].
    destruct (Cc vi0 ltac:(lia)) as (L0 & N0). fold c0 in L0, N0. destruct (members c0) as [|x l] eqn:Ec; [congruence|].
    assert (Ix : In x (members c0)) by (rewrite Ec; left; reflexivity). pose proof (members_lt _ _ Ix) as Lx. apply members_In in Ix.
    intros Z. assert (In x (members U)) by (apply members_In; rewrite Un by lia; rewrite Ix; reflexivity). rewrite Z in H. destruct H.
  - intros i Hi. rewrite Hu, Un by exact Hi. pose proof (Hh i) as Q. pose proof (D i Hi). pose proof (hits_firstn (vi1 - (vi0 + 1) - 1) mid i).
    destruct (nth i c0 false), (nth i c1 false); cbn [orb Nat.b2n] in *; lia.
  - rewrite app_length. cbn [app length]. rewrite app_length, ?firstn_length, ?skipn_length. lia.
  - rewrite app_length. cbn [app length]. rewrite app_length, ?firstn_length, ?skipn_length. intros Le V i Hi. rewrite Hu, Un by exact Hi.
    assert (Ev : vi1 = vi0 + 1) by lia. assert (mid = []) by (apply length_zero_iff_nil; lia). rewrite H in *. rewrite firstn_nil. pose proof (Hh i) as Q. change (hits [] i) with 0 in *. rewrite (V i Hi) in Q.
    destruct (nth i c0 false), (nth i c1 false); cbn [orb Nat.b2n] in *; lia.
Qed.

Section TD.
Variables (n : nat) (P : mat) (pi : vec) (signs : mat -> list bool) (kld : groups -> mat -> option Qc).
Hypothesis St : stochastic n P.
Hypothesis Pos : forall i, i < n -> (0 < vget pi i)%Qc.
Let W : wf n n P := proj1 St.

Lemma split_sizes q qpi k : forall fuel phi phi', (forall v, In v phi -> length v = k) -> td_split fuel signs q qpi phi = Ok phi' ->
  (forall v, In v phi' -> length v = k /\ length (members v) <= 2).
Proof.
  induction fuel as [|fuel IH]; intros phi phi' L; cbn [td_split]; [discriminate|].
  destruct (existsb (fun v => Nat.ltb 2 (length (members v))) phi) eqn:E.
  - unfold td_update. destruct (reversibilised q qpi (members (last phi []))) as [ar|] eqn:R; [|discriminate]. cbn [bind]. apply IH.
    intros v Iv. assert (Ne : phi <> []) by (intros ->; discriminate).
    assert (Ll : length (last phi []) = k). { apply L. rewrite (app_removelast_last [] Ne) at 2. apply in_or_app. right. left. reflexivity. }
    apply in_app_or in Iv. destruct Iv as [Iv|Iv].
    + apply L. rewrite (app_removelast_last [] Ne). apply in_or_app. left. exact Iv.
    + apply in_app_or in Iv. destruct Iv as [Iv|Iv]; (destruct (Nat.ltb 1 _) in Iv; [|destruct Iv]); destruct Iv as [<-|[]]; rewrite part_length; exact Ll.
  - intros R. injection R as <-. intros v Iv. split; [apply L; exact Iv|]. destruct (Nat.le_gt_cases (length (members v)) 2) as [A|A]; [exact A|].
    assert (existsb (fun v => Nat.ltb 2 (length (members v))) phi = true); [|congruence]. apply existsb_exists. exists v. split; [exact Iv|]. apply Nat.ltb_lt. exact A.
Qed.
Lemma best_from eta : forall phi best b, td_best kld P pi eta phi best = Ok b ->
  b = best \/ exists r q' eta' v, b = Some (r, q', eta') /\ In v phi /\ td_merge n eta v = Ok eta' /\ calc_q P pi eta' = Some q'.
Proof.
  induction phi as [|v phi IH]; intros best b; cbn [td_best]; [intros E; injection E as <-; left; reflexivity|].
  rewrite (wf_nrows _ _ _ W). destruct (td_merge n eta v) as [eta'|] eqn:M; [|discriminate]. cbn [bind]. destruct (calc_q P pi eta') as [q|] eqn:Q; [|discriminate].
  intros E. apply IH in E. destruct E as [E|(r & q' & e' & w & E1 & E2 & E3 & E4)]; [|right; exists r, q', e', w; split; [exact E1|]; split; [right; exact E2|]; split; assumption].
  assert (New : b = Some (kld eta' q, q, eta') -> b = best \/ exists r q' eta'0 v0, b = Some (r, q', eta'0) /\ In v0 (v :: phi) /\ td_merge n eta v0 = Ok eta'0 /\ calc_q P pi eta'0 = Some q').
  { intros ->. right. exists (kld eta' q), q, eta', v. split; [reflexivity|]. split; [left; reflexivity|]. split; assumption. }
  destruct best as [b0|]; [|apply New; exact E]. destruct (kl_below (fst (fst b0)) (kld eta' q)); [left; exact E|apply New; exact E].
Qed.
Lemma td_loop_ok : forall rounds first q eta q', nrows q = length eta -> cols_ok n eta -> (forall i, i < n -> hits eta i <= 1) ->
  td_loop signs kld P pi rounds first q eta = Ok q' ->
  (rounds = 0 /\ q' = q) \/
  exists eta', cols_ok n eta' /\ (forall i, i < n -> hits eta' i <= 1) /\ calc_q P pi eta' = Some q' /\ length eta' + rounds <= length eta /\
    (length eta' + rounds = length eta -> covers n eta -> covers n eta') /\ eta' <> [].
Proof.
  induction rounds as [|k IH]; intros first q eta q' Nq C D; cbn [td_loop]; [intros E; injection E as <-; left; split; reflexivity|].
  destruct (td_split _ signs q _ [repeat true (nrows q)]) as [phi|] eqn:Sp; [|discriminate]. cbn [bind].
  destruct (td_best kld P pi eta phi None) as [b|] eqn:B; [|discriminate]. cbn [bind]. destruct b as [[[r q1] e1]|]; [|discriminate]. intros E.
  destruct (best_from eta phi None _ B) as [F|(r' & q1' & e1' & v & F & Iv & M & Q)]; [discriminate|]. injection F as <- <- <-.
  assert (L0 : forall w, In w [repeat true (nrows q)] -> length w = nrows q) by (intros w [<-|[]]; apply repeat_length).
  destruct (split_sizes q _ (nrows q) _ _ _ L0 Sp v Iv) as (Lv & Mv).
  destruct (merge_ok n eta v e1 C D ltac:(lia) Mv M) as (C1 & D1 & L1 & V1 & N1).
  destruct (calc_q_some n P pi W Pos e1 C1) as (q2 & Q2 & A2). rewrite Q in Q2. injection Q2 as <-.
  assert (Nq1 : nrows q1 = length e1) by (rewrite (wf_nrows _ _ _ (proj1 A2)); apply map_length).
  destruct (IH false q1 e1 q' Nq1 C1 D1 E) as [(-> & ->)|(e2 & C2 & D2 & Q2 & L2 & V2 & N2)]; right.
  - exists e1. split; [exact C1|]. split; [exact D1|]. split; [exact Q|]. split; [lia|]. split; [intros Le V; apply V1; [lia|exact V]|exact N1].
  - exists e2. split; [exact C2|]. split; [exact D2|]. split; [exact Q2|]. split; [lia|]. split; [intros Le V; apply V2; [lia|]; apply V1; [lia|exact V]|exact N2].
Qed.
Lemma eye_members i : i < n -> members (tab n (Nat.eqb i)) <> [].
Proof.
  intros Hi Z. assert (I : In i (members (tab n (Nat.eqb i)))) by (apply members_In; rewrite tab_nth by exact Hi; apply Nat.eqb_refl). rewrite Z in I. destruct I.
Qed.
Lemma eye_ok : cols_ok n (tab n (fun i => tab n (Nat.eqb i))) /\ covers n (tab n (fun i => tab n (Nat.eqb i))).
Proof.
  split.
  - intros v Iv. unfold tab in Iv at 1. apply in_map_iff in Iv. destruct Iv as (i & <- & Ii). apply in_seq in Ii. split; [apply tab_length|apply eye_members; lia].
  - intros i Hi. unfold hits, tab at 1.
    assert (G : forall k s, length (filter (fun v => nth i v false) (map (fun a => tab n (Nat.eqb a)) (seq s k))) = if Nat.leb s i && Nat.ltb i (s + k) then 1 else 0).
    { induction k as [|k IH]; intros s; cbn [seq map filter]; [destruct (Nat.leb_spec s i); [|reflexivity]; destruct (Nat.ltb_spec i (s + 0)); [lia|reflexivity]|].
      rewrite tab_nth by exact Hi. destruct (Nat.eqb_spec s i) as [->|Ne]; cbn [length]; rewrite IH.
      - destruct (Nat.leb_spec (S i) i); [lia|]. cbn [andb]. rewrite Nat.leb_refl. destruct (Nat.ltb_spec i (i + S k)); [reflexivity|lia].
      - replace (s + S k) with (S s + k) by lia. destruct (Nat.ltb_spec i (S s + k)); rewrite ?andb_false_r; [|reflexivity]. destruct (Nat.leb_spec (S s) i), (Nat.leb_spec s i); try reflexivity; lia. }
    rewrite G. cbn [Nat.leb andb]. destruct (Nat.ltb_spec i (0 + n)); [reflexivity|lia].
Qed.
End TD.

(** * aggregate *)
Lemma agg_pi n m : env_ok n m -> ergodic n (en_p m) -> is_ergodic m = Ok true /\ exists pi, pi0 m = Ok pi /\ distribution n pi /\ stationary n (en_p m) pi /\ (forall i, i < n -> (0 < vget pi i)%Qc).
Proof.
  intros Hm E. destruct (is_ergodic_spec n m Hm) as (b & Eb & Hb). split; [rewrite Eb; f_equal; apply Hb; exact E|].
  destruct (ergodic_pi n m Hm (proj1 E)) as (pi & E0 & D & S0 & Pp & _). exists pi. auto.
Qed.
Lemma agg_start n m s a signs kld pi : env_ok n m -> 2 <= s -> s < n -> is_ergodic m = Ok true -> pi0 m = Ok pi ->
  aggregate signs kld m (Z.of_nat s) a =
  (r <- (match agg_choice n s a with BottomUp => bottom_up signs kld (en_p m) pi s | _ => top_down signs kld (en_p m) pi s end) ;; Ok (mkchain (fst r) (snd r))).
Proof.
  intros Hm L1 L2 E P0. unfold aggregate. assert (En : en_size m = n) by (unfold en_size; apply wf_nrows with n; apply Hm). rewrite En.
  destruct (Z.leb_spec 2 (Z.of_nat s)); [|lia]. destruct (Z.leb_spec (Z.of_nat s) (Z.of_nat n - 1)); [|lia]. cbv iota.
  destruct (Nat.eqb_spec n 2); [lia|]. cbn [negb andb]. rewrite E. cbn [bind]. rewrite P0. cbn [bind]. rewrite Nat2Z.id. reflexivity.
Qed.
Lemma agg_inv n m s a signs kld c : env_ok n m -> aggregate signs kld m s a = Ok c -> (2 <= s <= Z.of_nat n - 1)%Z /\ ergodic n (en_p m).
Proof.
  intros Hm. unfold aggregate. assert (En : en_size m = n) by (unfold en_size; apply wf_nrows with n; apply Hm). rewrite En.
  destruct (Z.leb_spec 2 s) as [A|A]; [|discriminate]. destruct (Z.leb_spec s (Z.of_nat n - 1)) as [B|B]; [|discriminate]. cbn [andb]. cbv iota.
  destruct (Nat.eqb_spec n 2); [discriminate|]. cbn [negb]. destruct (is_ergodic_spec n m Hm) as (b & Eb & Hb). rewrite Eb. cbn [bind].
  destruct b; [|discriminate]. intros _. split; [lia|]. apply Hb. reflexivity.
Qed.
Lemma labels_length k p : length (create_labels k p) = k.
Proof. unfold create_labels. rewrite map_length, seq_length. reflexivity. Qed.

Lemma bottom_up_spec n m s signs kld : env_ok n m -> ergodic n (en_p m) -> 2 <= s -> s < n ->
  exists pi c, distribution n pi /\ stationary n (en_p m) pi /\ aggregate signs kld m (Z.of_nat s) BottomUp = Ok c /\
   ((exists G, grouping n G /\ length G <= s /\ aggregated (en_p m) pi G (ch_p c) /\ stochastic (length G) (ch_p c) /\
       (splits n (en_p m) pi signs -> (forall ph q, kld ph q <> None) -> length G = s)) \/
    (ch_p c = equal_moves n /\ ~ (splits n (en_p m) pi signs /\ forall ph q, kld ph q <> None))).
Proof.
  intros Hm E L1 L2. destruct (agg_pi n m Hm E) as (Ee & pi & P0 & D & Sp & Pos). pose proof Hm as (Hn & St & _).
  exists pi. rewrite (agg_start n m s BottomUp signs kld pi Hm L1 L2 Ee P0). cbn [agg_choice]. unfold bottom_up. rewrite (wf_nrows _ _ _ (proj1 St)).
  assert (N0 : 0 < n) by lia.
  assert (C0 : cols_ok n [repeat true n]).
  { intros v [<-|[]]. split; [apply repeat_length|]. intros Z. assert (I : In 0 (members (repeat true n))) by (apply members_In; destruct n; [lia|reflexivity]). rewrite Z in I. destruct I. }
  assert (V0 : covers n [repeat true n]).
  { intros i Hi. rewrite hits_cons. rewrite (nth_indep _ false true) by (rewrite repeat_length; exact Hi). rewrite nth_repeat. reflexivity. }
  destruct (bu_loop_ok n (en_p m) pi signs kld St Pos (s - 1) [repeat true n] (equal_moves n) C0 V0 ltac:(cbn [length]; lia)) as (q' & Eq & Dq).
  change (mk n n (fun _ _ => (1 / Qcn n)%Qc)) with (equal_moves n). rewrite Eq. cbn [bind].
  destruct Dq as [(phi & C & V & Q & Le & Lh)|(-> & Lh & _)].
  - destruct (calc_q_some n (en_p m) pi (proj1 St) Pos phi C) as (q2 & Q2 & A). rewrite Q in Q2. injection Q2 as <-.
    pose proof (aggregated_stochastic n (en_p m) pi phi q' St Pos C V A) as Sq.
    rewrite (norm_q_stochastic _ _ Sq). cbn [bind]. eexists. split; [exact D|]. split; [exact Sp|]. split; [reflexivity|]. left.
    exists (map members phi). cbn [ch_p fst]. rewrite map_length. cbn [length] in Le, Lh. split; [apply grouping_of; assumption|]. split; [lia|]. split; [exact A|]. split; [exact Sq|].
    intros H1 H2. rewrite (Lh (conj H1 H2)). lia.
  - assert (Sq : stochastic n (equal_moves n)).
    { split; [apply wf_mk|]. split.
      - intros i j Hi Hj. unfold equal_moves. rewrite mget_mk by assumption. apply Qc_div_nonneg; [discriminate|apply Qcn_pos; exact N0].
      - intros i Hi. rewrite (sumn_ext n _ (fun _ => 1 / Qcn n)%Qc) by (intros j Hj; unfold equal_moves; rewrite mget_mk by assumption; reflexivity).
        rewrite sumn_const_n. pose proof (Qcn_pos n N0) as Np. field. intros Z. rewrite Z in Np. apply (Qclt_irr _ Np). }
    rewrite (norm_q_stochastic _ _ Sq). cbn [bind]. eexists. split; [exact D|]. split; [exact Sp|]. split; [reflexivity|]. right. cbn [ch_p fst]. split; [reflexivity|].
    intros HH. specialize (Lh HH). lia.
Qed.

Lemma top_down_spec n m s signs kld c : env_ok n m -> aggregate signs kld m (Z.of_nat s) TopDown = Ok c ->
  exists pi k, distribution n pi /\ stationary n (en_p m) pi /\ 1 <= k <= s /\ length (ch_states c) = k /\ stochastic k (ch_p c) /\
    (k = s -> exists G, grouping n G /\ length G = s /\ aggregated (en_p m) pi G (ch_p c)).
Proof.
  intros Hm R. destruct (agg_inv n m _ TopDown signs kld c Hm R) as (Ls & E). destruct (agg_pi n m Hm E) as (Ee & pi & P0 & D & Sp & Pos). pose proof Hm as (Hn & St & _).
  rewrite (agg_start n m s TopDown signs kld pi Hm ltac:(lia) ltac:(lia) Ee P0) in R. cbn [agg_choice] in R. unfold top_down in R. rewrite (wf_nrows _ _ _ (proj1 St)) in R.
  set (eye := tab n (fun i => tab n (Nat.eqb i))) in *. destruct (eye_ok n) as (C0 & V0). fold eye in C0, V0.
  assert (Le : length eye = n) by apply tab_length.
  destruct (td_loop signs kld (en_p m) pi (n - s) true (en_p m) eye) as [q|] eqn:T; [|discriminate]. cbn [bind] in R.
  apply (td_loop_ok n (en_p m) pi signs kld St Pos) in T; [|rewrite (wf_nrows _ _ _ (proj1 St)); lia|exact C0|intros i Hi; rewrite (V0 i Hi); lia].
  destruct T as [(Z & _)|(eta & C & Dj & Q & L2 & V2 & N2)]; [lia|].
  destruct (calc_q_some n (en_p m) pi (proj1 St) Pos eta C) as (q2 & Q2 & A). rewrite Q in Q2. injection Q2 as <-.
  assert (Wq : wf (length eta) (length eta) q) by (pose proof (proj1 A) as W0; rewrite map_length in W0; exact W0).
  exists pi, (length eta). split; [exact D|]. split; [exact Sp|]. split; [destruct eta; [congruence|cbn [length] in *; lia]|].
  destruct (norm_q q) as [q1|] eqn:Nq; [|discriminate]. cbn [bind] in R. injection R as <-. cbn [ch_p ch_states fst snd].
  assert (Cn : forall a, a < length eta -> length (nth a eta []) = n /\ members (nth a eta []) <> []) by (intros a Ha; apply C, nth_In; exact Ha).
  assert (Nn : forall a b, a < length eta -> b < length eta -> (0 <= mget q a b)%Qc).
  { intros a b Ha Hb. rewrite (proj2 A) by (rewrite map_length; assumption). rewrite !members_nth. apply Qc_div_nonneg.
    - apply (flow_nonneg n (en_p m) pi _ _ St Pos); intros x Ix; apply members_lt in Ix; [rewrite (proj1 (Cn a Ha)) in Ix|rewrite (proj1 (Cn b Hb)) in Ix]; exact Ix.
    - apply (mass_pos n pi Pos); apply Cn; exact Ha. }
  assert (Sq1 : stochastic (length eta) q1).
  { unfold norm_q in Nq. rewrite (wf_nrows _ _ _ Wq) in Nq. destruct (forallb _ (seq 0 (length eta))) eqn:F; [|discriminate]. cbv iota in Nq. injection Nq as <-.
    rewrite forallb_forall in F. assert (Fz : forall i, i < length eta -> sumn (length eta) (mget q i) <> 0q).
    { intros i Hi. specialize (F i ltac:(apply in_seq; lia)). apply negb_true_iff, Qceqb_neq in F. exact F. }
    split; [apply wf_mk|]. split.
    - intros i j Hi Hj. rewrite mget_mk by assumption. apply Qc_div_nonneg; [apply Nn; assumption|].
      assert (Z : (0 <= sumn (length eta) (mget q i))%Qc) by (apply sumn_nonneg; intros; apply Nn; assumption).
      apply Qcle_lt_or_eq in Z. destruct Z as [Z|Z]; [exact Z|]. symmetry in Z. destruct (Fz i Hi Z).
    - intros i Hi. rewrite (sumn_ext _ _ (fun j => mget q i j / sumn (length eta) (mget q i))%Qc) by (intros j Hj; rewrite mget_mk by assumption; reflexivity).
      rewrite sumn_div. apply Qc_div_self. apply Fz. exact Hi. }
  split; [rewrite labels_length; apply (wf_nrows _ _ _ (proj1 Sq1))|]. split; [exact Sq1|].
  intros Ek. assert (V : covers n eta) by (apply V2; [lia|exact V0]).
  pose proof (aggregated_stochastic n (en_p m) pi eta q St Pos C V A) as Sq. rewrite (norm_q_stochastic _ _ Sq) in Nq. injection Nq as <-.
  exists (map members eta). split; [apply grouping_of; assumption|]. split; [rewrite map_length; exact Ek|exact A].
Qed.
Lemma adaptive_spec n m s signs kld : env_ok n m ->
  aggregate signs kld m s Adaptive =
  aggregate signs kld m s (if Nat.ltb n 30 then TopDown else if Z.leb (10 * s) (3 * Z.of_nat n) then BottomUp else TopDown).
Proof.
  intros Hm. unfold aggregate. assert (En : en_size m = n) by (unfold en_size; apply wf_nrows with n; apply Hm). rewrite En.
  destruct (Z.leb_spec 2 s) as [A|A]; [|reflexivity]. cbn [andb]. destruct (Z.leb s (Z.of_nat n - 1)); [|reflexivity]. cbv iota.
  destruct (negb (Nat.eqb n 2)); [|reflexivity]. destruct (is_ergodic m) as [[]|]; cbn [bind]; [|reflexivity|reflexivity]. destruct (pi0 m) as [pi|]; cbn [bind]; [|reflexivity].
  unfold agg_choice. destruct (Nat.ltb_spec n 30) as [L|L]; [reflexivity|].
  assert (Eb : Qcleb (Qcn (Z.to_nat s) / Qcn n)%Qc (Q2Qc (3 # 10)) = Z.leb (10 * s) (3 * Z.of_nat n)).
  { assert (Np : (0 < Qcn n)%Qc) by (apply Qcn_pos; lia).
    assert (Ten : (Qcn (Z.to_nat s) / Qcn n <= Q2Qc (3 # 10))%Qc <-> (Qcn (10 * Z.to_nat s) <= Qcn (3 * n))%Qc).
    { rewrite !Qcn_mul. replace (Qcn 10) with (Q2Qc (10 # 1)) by (apply Qc_is_canon; reflexivity). replace (Qcn 3) with (Q2Qc (3 # 1)) by (apply Qc_is_canon; reflexivity).
      assert (Es : Qcn (Z.to_nat s) = (Qcn (Z.to_nat s) / Qcn n * Qcn n)%Qc) by (symmetry; apply Qc_div_mul; intros Z0; rewrite Z0 in Np; apply (Qclt_irr _ Np)).
      revert Es. generalize (Qcn (Z.to_nat s) / Qcn n)%Qc. intros x ->. split; intros Hx.
      - assert (0 <= (Q2Qc (3 # 10) - x) * Qcn n)%Qc by (apply Qc_mul_nonneg; qclra). qcnra.
      - destruct (Qclt_le_dec (Q2Qc (3 # 10)) x) as [C|C]; [|exact C]. exfalso. assert (0 < (x - Q2Qc (3 # 10)) * Qcn n)%Qc by (apply Qc_mul_pos; qclra). qcnra. }
    assert (Nat_le : (Qcn (10 * Z.to_nat s) <= Qcn (3 * n))%Qc <-> 10 * Z.to_nat s <= 3 * n).
    { split; [|apply Qcn_le]. intros Hx. destruct (Nat.le_gt_cases (10 * Z.to_nat s) (3 * n)) as [K|K]; [exact K|]. apply Qcn_lt in K. exfalso. apply (Qclt_not_le _ _ K Hx). }
    destruct (Z.leb_spec (10 * s) (3 * Z.of_nat n)) as [B|B].
    - apply Qcleb_le, Ten, Nat_le. lia.
    - destruct (Qcleb (Qcn (Z.to_nat s) / Qcn n) (Q2Qc (3 # 10))) eqn:F; [|reflexivity]. apply Qcleb_le, Ten, Nat_le in F. lia. }
  rewrite Eb. destruct (Z.leb (10 * s) (3 * Z.of_nat n)); reflexivity.
Qed.
