(** L_Aggregate4: stationary probabilities of the groups, and the two counterexamples. *)
From Verif Require Export L_Aggregate3 L_MeasuresR.
Open Scope nat_scope.
Open Scope res_scope.

Lemma grouping_sum n G (f : nat -> Qc) : grouping n G -> sumn (length G) (fun a => lsum (map f (nth a G []))) = sumn n f.
Proof.
  intros (H1 & H2). rewrite (sumn_ext _ _ (fun a => sumn n (fun i => if memn i (nth a G []) then f i else 0q))).
  - rewrite sumn_swap. apply sumn_ext. intros i Hi. destruct (H2 i Hi) as (a & Ha & Ua).
    rewrite (sumn_single _ _ a Ha).
    + destruct (memn i (nth a G [])) eqn:E; [reflexivity|]. apply memn_false in E. exfalso. apply E. apply Ua; [exact Ha|reflexivity].
    + intros b Hb Nb. destruct (memn i (nth b G [])) eqn:E; [|reflexivity]. apply memn_In in E. apply Ua in E; [contradiction|exact Hb].
  - intros a Ha. destruct (H1 (nth a G []) (nth_In _ _ Ha)) as (_ & Nd & Lt). apply lsum_map_indicator; assumption.
Qed.
Lemma mass_stationary n P pi G Q : stationary n P pi -> (forall i, i < n -> (0 < vget pi i)%Qc) -> grouping n G -> aggregated P pi G Q ->
  stationary (length G) Q (tab (length G) (fun a => mass pi (nth a G []))).
Proof.
  intros (Lp & Sp) Pos GG (W & A). split; [apply tab_length|]. intros b Hb.
  unfold vget at 2. rewrite tab_nth by exact Hb.
  assert (Mp : forall a, a < length G -> (0 < mass pi (nth a G []))%Qc).
  { intros a Ha. destruct (proj1 GG (nth a G []) (nth_In _ _ Ha)) as (Ne & Nd & Lt). destruct (nth a G []) as [|x g]; [congruence|].
    unfold mass. cbn [map]. rewrite lcons. assert (0 < vget pi x)%Qc by (apply Pos, Lt; left; reflexivity).
    assert (0 <= lsum (map (vget pi) g))%Qc.
    { apply lsum_nonneg. intros y Iy. apply in_map_iff in Iy. destruct Iy as (z & <- & Iz). apply Qclt_le_weak, Pos, Lt. right. exact Iz. }
    qclra. }
  rewrite (sumn_ext _ _ (fun a => flow P pi (nth a G []) (nth b G []))).
  2:{ intros a Ha. unfold vget at 1. rewrite tab_nth by exact Ha. rewrite A by assumption. unfold Qcdiv. rewrite Qcmult_comm, <- Qcmult_assoc, (Qcmult_comm (/ _)%Qc), Qcmult_inv_r, Qcmult_1_r; [reflexivity|].
    intros Z. specialize (Mp a Ha). rewrite Z in Mp. apply (Qclt_irr _ Mp). }
  unfold flow. rewrite (grouping_sum n G _ GG).
  destruct (proj1 GG (nth b G []) (nth_In _ _ Hb)) as (_ & Nd & Lt). unfold mass. rewrite (lsum_map_indicator n (vget pi) _ Nd Lt).
  rewrite (sumn_ext n _ (fun i => sumn n (fun j => if memn j (nth b G []) then vget pi i * mget P i j else 0q)%Qc)).
  - rewrite sumn_swap. apply sumn_ext. intros j Hj. destruct (memn j (nth b G [])).
    + apply Sp. exact Hj.
    + rewrite sumn_const_n. ring.
  - intros i Hi. rewrite (lsum_map_indicator n (mget P i) _ Nd Lt). rewrite <- sumn_mul_l. apply sumn_ext. intros j Hj. destruct (memn j _); [reflexivity|ring].
Qed.

(** Equality of computed vectors and matrices *)
Lemma leb_no x y : (y < x)%Qc -> Qcleb x y = false.
Proof. intros L. destruct (Qcleb x y) eqn:E; [|reflexivity]. apply Qcleb_le in E. destruct (Qclt_not_le _ _ L E). Qed.
Lemma some_eq (x : option mat) w : match x with Some v => meqb v w | None => false end = true -> x = Some w.
Proof. destruct x as [v|]; [|discriminate]. intros H. apply meqb_eq in H. rewrite H. reflexivity. Qed.
Lemma ok_eq (x : res mat) w : match x with Ok v => meqb v w | Err _ => false end = true -> x = Ok w.
Proof. destruct x as [v|]; [|discriminate]. intros H. apply meqb_eq in H. rewrite H. reflexivity. Qed.
Lemma pi0_eq m w : match pi0 m with Ok v => veqb v w | Err _ => false end = true -> pi0 m = Ok w.
Proof. destruct (pi0 m) as [v|]; [|discriminate]. intros H. apply veqb_eq in H. rewrite H. reflexivity. Qed.

(** ** Top-down: merging two groups that are not adjacent loses one *)
Definition cAgg : chain := mkchain (qm [[5 # 12; 1 # 6; 5 # 12]; [1 # 6; 2 # 3; 1 # 6]; [5 # 12; 1 # 6; 5 # 12]]%Q) ["a"; "b"; "c"]%string.
Definition piAgg : vec := qv [1 # 3; 1 # 3; 1 # 3]%Q.
Lemma cAgg_ok : env_ok 3 (env cAgg) /\ ergodic 3 (ch_p cAgg) /\ two_way (ch_p cAgg) piAgg [0; 1; 2] = ch_p cAgg.
Proof.
  split; [apply env_b; vm_compute; reflexivity|]. split; [apply ergodic_b; vm_compute; reflexivity|]. apply meqb_eq. vm_compute. reflexivity.
Qed.
Lemma len3 (v : vec) : length v = 3 -> exists x y z, v = [x; y; z].
Proof. destruct v as [|x [|y [|z [|]]]]; try discriminate. intros _. exists x, y, z. reflexivity. Qed.
Lemma rows_cAgg x y z : sumn 3 (fun j => mget (ch_p cAgg) 0 j * vget [x; y; z] j)%Qc = (Q2Qc (5 # 12) * x + Q2Qc (1 # 6) * y + Q2Qc (5 # 12) * z)%Qc /\
  sumn 3 (fun j => mget (ch_p cAgg) 1 j * vget [x; y; z] j)%Qc = (Q2Qc (1 # 6) * x + Q2Qc (2 # 3) * y + Q2Qc (1 # 6) * z)%Qc /\
  sumn 3 (fun j => mget (ch_p cAgg) 2 j * vget [x; y; z] j)%Qc = (Q2Qc (5 # 12) * x + Q2Qc (1 # 6) * y + Q2Qc (5 # 12) * z)%Qc.
Proof. unfold cAgg, mget, vget, qm, qv. cbn [sumn ch_p map nth]. split; [|split]; ring. Qed.
Lemma cAgg_eigen lam v : eigenvector 3 (ch_p cAgg) lam v -> lam = 1q \/ lam = Q2Qc (1 # 2) \/ lam = 0q.
Proof.
  intros (L & (i & Hi & Ni) & E). destruct (len3 v L) as (x & y & z & ->). destruct (rows_cAgg x y z) as (R0 & R1 & R2).
  pose proof (E 0 ltac:(lia)) as E0. pose proof (E 1 ltac:(lia)) as E1. pose proof (E 2 ltac:(lia)) as E2. rewrite R0 in E0. rewrite R1 in E1. rewrite R2 in E2.
  unfold vget in E0, E1, E2. cbn [nth] in E0, E1, E2.
  assert (S1 : ((lam - 1) * (x + y + z) = 0)%Qc) by (qclra).
  assert (S2 : ((lam - Q2Qc (1 # 2)) * (x - y - y + z) = 0)%Qc) by (qclra).
  assert (S3 : ((lam - 0) * (x - z) = 0)%Qc) by (qclra).
  apply Qcmult_integral in S1. apply Qcmult_integral in S2. apply Qcmult_integral in S3.
  destruct S1 as [S1|S1]; [left; qclra|]. destruct S2 as [S2|S2]; [right; left; qclra|]. destruct S3 as [S3|S3]; [right; right; qclra|].
  exfalso. apply Ni. assert (x = 0q) by qclra. assert (y = 0q) by qclra. assert (z = 0q) by qclra. subst x y z. destruct i as [|[|[|]]]; try reflexivity; lia.
Qed.
Lemma cAgg_second v : eigenvector 3 (ch_p cAgg) (Q2Qc (1 # 2)) v -> sign_of v = [true; false; true] \/ sign_of v = [false; true; false].
Proof.
  intros (L & (i & Hi & Ni) & E). destruct (len3 v L) as (x & y & z & ->). destruct (rows_cAgg x y z) as (R0 & R1 & R2).
  pose proof (E 0 ltac:(lia)) as E0. pose proof (E 1 ltac:(lia)) as E1. pose proof (E 2 ltac:(lia)) as E2. rewrite R0 in E0. rewrite R1 in E1. rewrite R2 in E2.
  unfold vget in E0, E1, E2. cbn [nth] in E0, E1, E2.
  assert (Z : z = x) by qclra. assert (Y : y = (- x - x)%Qc) by qclra. subst z y. clear E0 E1 E2 R0 R1 R2 E.
  assert (Nx : x <> 0q) by (intros ->; apply Ni; destruct i as [|[|[|]]]; try reflexivity; lia).
  unfold sign_of. cbn [map]. destruct (Qclt_le_dec x 0) as [Lx|Lx].
  - right. assert (A : Qcleb 0 x = false) by (apply leb_no; exact Lx). assert (B : Qcleb 0 (- x - x) = true) by (apply Qcleb_le; qclra). rewrite A, B. reflexivity.
  - left. apply Qcle_lt_or_eq in Lx. destruct Lx as [Lx|Lx]; [|congruence]. assert (A : Qcleb 0 x = true) by (apply Qcleb_le; qclra). assert (B : Qcleb 0 (- x - x) = false) by (apply leb_no; qclra). rewrite A, B. reflexivity.
Qed.
Lemma piAgg_ok : pi0 (env cAgg) = Ok piAgg /\ forall i, i < 3 -> (0 < vget piAgg i)%Qc.
Proof. split; [apply pi0_eq; vm_compute; reflexivity|]. intros i Hi. destruct i as [|[|[|]]]; try lia; apply Qcltb_lt; vm_compute; reflexivity. Qed.
Lemma td_split_S f signs q pi phi : td_split (S f) signs q pi phi =
  if existsb (fun v => Nat.ltb 2 (length (members v))) phi then (phi' <- td_update signs q pi phi ;; td_split f signs q pi phi') else Ok phi.
Proof. reflexivity. Qed.
Lemma td_loop_S signs kld p pi rounds first q eta : td_loop signs kld p pi (S rounds) first q eta =
  (phi <- td_split (2 * nrows q + 2) signs q (if first then pi else calculate_invariant q) [repeat true (nrows q)] ;;
   b <- td_best kld p pi eta phi None ;;
   match b with None => Err IndexErr | Some (_, q', eta') => td_loop signs kld p pi rounds false q' eta' end).
Proof. reflexivity. Qed.
Lemma top_down_loses signs kld v : eigenvector 3 (ch_p cAgg) (Q2Qc (1 # 2)) v -> signs (ch_p cAgg) = sign_of v ->
  aggregate signs kld (env cAgg) 2 TopDown = Ok (mkchain (qm [[1]]%Q) ["ASTD1"%string]).
Proof.
  intros Ev Es. destruct cAgg_ok as (Hm & Er & Tw). destruct piAgg_ok as (P0 & Pos). pose proof Hm as (_ & St & _). cbn [env en_p] in St.
  destruct (agg_pi 3 _ Hm Er) as (Ee & _). change 2%Z with (Z.of_nat 2). rewrite (agg_start 3 (env cAgg) 2 TopDown signs kld piAgg Hm ltac:(lia) ltac:(lia) Ee P0).
  change (agg_choice 3 2 TopDown) with TopDown. cbv iota. unfold top_down. cbn [env en_p]. change (nrows (ch_p cAgg)) with 3. change (3 - 2) with 1. rewrite td_loop_S. change (nrows (ch_p cAgg)) with 3.
  change (2 * 3 + 2) with (S 7). rewrite td_split_S. change (repeat true 3) with [true; true; true].
  change (existsb (fun v => Nat.ltb 2 (length (members v))) [[true; true; true]]) with true. cbv iota.
  assert (U : td_update signs (ch_p cAgg) piAgg [[true; true; true]] = Ok [[true; false; true]]).
  { unfold td_update. change (members (last [[true; true; true]] [])) with [0; 1; 2].
    rewrite (rev_ok 3 _ _ Pos) by (intros x [<-|[<-|[<-|[]]]]; lia). cbn [bind]. rewrite Tw, Es.
    destruct (cAgg_second v Ev) as [->| ->]; reflexivity. }
  rewrite U. cbn [bind]. rewrite td_split_S. change (existsb (fun v => Nat.ltb 2 (length (members v))) [[true; false; true]]) with false. cbv iota. cbn [bind td_best].
  change (nrows (ch_p cAgg)) with 3. change (td_merge 3 (tab 3 (fun i => tab 3 (Nat.eqb i))) [true; false; true]) with (Ok [[true; false; true]]). cbn [bind].
  rewrite (some_eq (calc_q (ch_p cAgg) piAgg [[true; false; true]]) (qm [[5 # 6]]%Q)) by (vm_compute; reflexivity). cbn [bind td_loop].
  rewrite (ok_eq (norm_q (qm [[5 # 6]]%Q)) (qm [[1]]%Q)) by (vm_compute; reflexivity). reflexivity.
Qed.

(** ** Bottom-up: the eigenvectors of a zero block need not have two signs *)
Definition cStar : chain := mkchain (qm [[1 # 4; 1 # 4; 1 # 4; 1 # 4]; [1; 0; 0; 0]; [1; 0; 0; 0]; [1; 0; 0; 0]]%Q) ["centre"; "a"; "b"; "c"]%string.
Definition piStar : vec := qv [4 # 7; 1 # 7; 1 # 7; 1 # 7]%Q.
Definition zero3 : mat := qm [[0; 0; 0]; [0; 0; 0]; [0; 0; 0]]%Q.
Lemma cStar_ok : env_ok 4 (env cStar) /\ ergodic 4 (ch_p cStar) /\ pi0 (env cStar) = Ok piStar /\ (forall i, i < 4 -> (0 < vget piStar i)%Qc) /\
  two_way (ch_p cStar) piStar [0; 1; 2; 3] = ch_p cStar /\ two_way (ch_p cStar) piStar [1; 2; 3] = zero3.
Proof.
  split; [apply env_b; vm_compute; reflexivity|]. split; [apply ergodic_b; vm_compute; reflexivity|]. split; [apply pi0_eq; vm_compute; reflexivity|].
  split; [intros i Hi; destruct i as [|[|[|[|]]]]; try lia; apply Qcltb_lt; vm_compute; reflexivity|]. split; apply meqb_eq; vm_compute; reflexivity.
Qed.
Lemma rows_cStar x y z w : sumn 4 (fun j => mget (ch_p cStar) 0 j * vget [x; y; z; w] j)%Qc = (Q2Qc (1 # 4) * x + Q2Qc (1 # 4) * y + Q2Qc (1 # 4) * z + Q2Qc (1 # 4) * w)%Qc /\
  sumn 4 (fun j => mget (ch_p cStar) 1 j * vget [x; y; z; w] j)%Qc = x /\ sumn 4 (fun j => mget (ch_p cStar) 2 j * vget [x; y; z; w] j)%Qc = x /\
  sumn 4 (fun j => mget (ch_p cStar) 3 j * vget [x; y; z; w] j)%Qc = x.
Proof. unfold cStar, mget, vget, qm, qv. cbn [sumn ch_p map nth]. split; [|split; [|split]]; ring. Qed.
Lemma len4 (v : vec) : length v = 4 -> exists x y z w, v = [x; y; z; w].
Proof. destruct v as [|x [|y [|z [|w [|]]]]]; try discriminate. intros _. exists x, y, z, w. reflexivity. Qed.
Lemma cStar_eigen lam v : eigenvector 4 (ch_p cStar) lam v -> lam = 1q \/ lam = Q2Qc (- 3 # 4) \/ lam = 0q.
Proof.
  intros (L & (i & Hi & Ni) & E). destruct (len4 v L) as (x & y & z & w & ->). destruct (rows_cStar x y z w) as (R0 & R1 & R2 & R3).
  pose proof (E 0 ltac:(lia)) as E0. pose proof (E 1 ltac:(lia)) as E1. pose proof (E 2 ltac:(lia)) as E2. pose proof (E 3 ltac:(lia)) as E3. rewrite R0 in E0. rewrite R1 in E1. rewrite R2 in E2. rewrite R3 in E3.
  unfold vget in E0, E1, E2, E3. cbn [nth] in E0, E1, E2, E3.
  destruct (Qceqb lam 0) eqn:Z; [right; right; apply Qceqb_eq; exact Z|]. apply Qceqb_neq in Z.
  assert (Y1 : (lam * (y - z) = 0)%Qc) by qclra. assert (Y2 : (lam * (y - w) = 0)%Qc) by qclra.
  apply Qcmult_integral in Y1. destruct Y1 as [Y1|Y1]; [contradiction|]. apply Qcmult_integral in Y2. destruct Y2 as [Y2|Y2]; [contradiction|].
  assert (z = y) by qclra. assert (w = y) by qclra. subst z w. rewrite E1 in E0.
  assert (F : (y * ((lam - 1) * (lam + Q2Qc (3 # 4))) = 0)%Qc).
  { qcnra. }
  apply Qcmult_integral in F. destruct F as [F|F].
  - exfalso. apply Ni. subst y. assert (X0 : x = 0q) by (rewrite E1; ring). rewrite X0. destruct i as [|[|[|[|]]]]; try reflexivity; lia.
  - apply Qcmult_integral in F. destruct F as [F|F]; [left; qclra|right; left; qclra].
Qed.
Lemma cStar_second v : eigenvector 4 (ch_p cStar) (Q2Qc (- 3 # 4)) v -> sign_of v = [true; false; false; false] \/ sign_of v = [false; true; true; true].
Proof.
  intros (L & (i & Hi & Ni) & E). destruct (len4 v L) as (x & y & z & w & ->). destruct (rows_cStar x y z w) as (R0 & R1 & R2 & R3).
  pose proof (E 1 ltac:(lia)) as E1. pose proof (E 2 ltac:(lia)) as E2. pose proof (E 3 ltac:(lia)) as E3. rewrite R1 in E1. rewrite R2 in E2. rewrite R3 in E3.
  unfold vget in E1, E2, E3. cbn [nth] in E1, E2, E3.
  assert (Z : z = y) by qclra. assert (W : w = y) by qclra. subst z w.
  assert (Ny : y <> 0q) by (intros Z; subst y; assert (X0 : x = 0q) by (rewrite E1; ring); apply Ni; rewrite X0; destruct i as [|[|[|[|]]]]; try reflexivity; lia).
  unfold sign_of. cbn [map]. destruct (Qclt_le_dec y 0) as [Lx|Lx].
  - left. assert (A : Qcleb 0 y = false) by (apply leb_no; exact Lx). assert (B : Qcleb 0 x = true) by (apply Qcleb_le; qclra). rewrite A, B. reflexivity.
  - right. apply Qcle_lt_or_eq in Lx. destruct Lx as [Lx|Lx]; [|congruence]. assert (A : Qcleb 0 y = true) by (apply Qcleb_le; qclra). assert (B : Qcleb 0 x = false) by (apply leb_no; qclra). rewrite A, B. reflexivity.
Qed.
(** one round, when only group a has more than one member or the candidate of the other groups is rejected *)
Lemma bu_loop_S signs kld p pi k phi q : bu_loop signs kld p pi (S k) phi q =
  (r <- bu_scan signs kld p pi phi (seq 0 (length phi)) (phi, None, q) ;; bu_loop signs kld p pi k (fst (fst r)) (snd r)).
Proof. reflexivity. Qed.
Lemma bottom_up_stops signs kld v : (forall phi q, kld phi q <> None) -> eigenvector 4 (ch_p cStar) (Q2Qc (- 3 # 4)) v -> signs (ch_p cStar) = sign_of v -> signs zero3 = [true; true; true] ->
  exists c, aggregate signs kld (env cStar) 3 BottomUp = Ok c /\ nrows (ch_p c) = 2.
Proof.
  intros Hk Ev Es Ez. destruct cStar_ok as (Hm & Er & P0 & Pos & Tw & Tz). pose proof Hm as (_ & St & _). cbn [env en_p] in St.
  destruct (agg_pi 4 _ Hm Er) as (Ee & _). change 3%Z with (Z.of_nat 3). rewrite (agg_start 4 (env cStar) 3 BottomUp signs kld piStar Hm ltac:(lia) ltac:(lia) Ee P0).
  change (agg_choice 4 3 BottomUp) with BottomUp. cbv iota. unfold bottom_up. cbn [env en_p]. change (nrows (ch_p cStar)) with 4. change (3 - 1) with 2.
  change (repeat true 4) with [true; true; true; true]. set (q0 := mk 4 4 _).
  assert (C1 : exists bc q x, bu_scan signs kld (ch_p cStar) piStar [[true; true; true; true]] [0] ([[true; true; true; true]], None, q0) = Ok (bc, Some x, q) /\
    calc_q (ch_p cStar) piStar bc = Some q /\ (bc = [[true; false; false; false]; [false; true; true; true]] \/ bc = [[false; true; true; true]; [true; false; false; false]])).
  { cbn [bu_scan]. unfold bu_candidate. cbn [nth]. change (members [true; true; true; true]) with [0; 1; 2; 3]. change (Nat.leb (length [0; 1; 2; 3]) 1) with false. cbv iota.
    rewrite (rev_ok 4 _ _ Pos) by (intros x [<-|[<-|[<-|[<-|[]]]]]; lia). cbn [bind]. rewrite Tw, Es.
    destruct (cStar_second v Ev) as [-> | ->].
    - change (firstn 0 [[true; true; true; true]] ++ _ ++ _) with [[true; false; false; false]; [false; true; true; true]].
      destruct (calc_q (ch_p cStar) piStar [[true; false; false; false]; [false; true; true; true]]) as [q|] eqn:Q; [|vm_compute in Q; discriminate].
      destruct (kld [[true; false; false; false]; [false; true; true; true]] q) as [x|] eqn:K; [|destruct (Hk _ _ K)].
      exists [[true; false; false; false]; [false; true; true; true]], q, x. split; [reflexivity|]. split; [exact Q|left; reflexivity].
    - change (firstn 0 [[true; true; true; true]] ++ _ ++ _) with [[false; true; true; true]; [true; false; false; false]].
      destruct (calc_q (ch_p cStar) piStar [[false; true; true; true]; [true; false; false; false]]) as [q|] eqn:Q; [|vm_compute in Q; discriminate].
      destruct (kld [[false; true; true; true]; [true; false; false; false]] q) as [x|] eqn:K; [|destruct (Hk _ _ K)].
      exists [[false; true; true; true]; [true; false; false; false]], q, x. split; [reflexivity|]. split; [exact Q|right; reflexivity]. }
  destruct C1 as (bc & q & x & E1 & Q & Db). rewrite bu_loop_S.
  match goal with |- context [bu_scan ?a ?b ?c ?d ?e ?f ?g] => change (bu_scan a b c d e f g) with (bu_scan signs kld (ch_p cStar) piStar [[true; true; true; true]] [0] ([[true; true; true; true]], None, q0)) end.
  rewrite E1. cbn [bind fst snd].
  rewrite bu_loop_S.
  assert (E2 : bu_scan signs kld (ch_p cStar) piStar bc (seq 0 (length bc)) (bc, None, q) = Ok (bc, None, q)).
  { destruct Db as [-> | ->].
    - cbn [length seq bu_scan]. unfold bu_candidate. cbn [nth]. change (Nat.leb (length (members [true; false; false; false])) 1) with true. cbv iota. cbn [bind].
      change (members [false; true; true; true]) with [1; 2; 3]. change (Nat.leb (length [1; 2; 3]) 1) with false. cbv iota.
      rewrite (rev_ok 4 _ _ Pos) by (intros y [<-|[<-|[<-|[]]]]; lia). cbn [bind]. rewrite Tz, Ez.
      match goal with |- context [calc_q ?a ?b ?c] => assert (Q2 : calc_q a b c = None) by (vm_compute; reflexivity) end. rewrite Q2. reflexivity.
    - cbn [length seq bu_scan]. unfold bu_candidate. cbn [nth]. change (Nat.leb (length (members [true; false; false; false])) 1) with true. cbv iota. cbn [bind].
      change (members [false; true; true; true]) with [1; 2; 3]. change (Nat.leb (length [1; 2; 3]) 1) with false. cbv iota.
      rewrite (rev_ok 4 _ _ Pos) by (intros y [<-|[<-|[<-|[]]]]; lia). cbn [bind]. rewrite Tz, Ez.
      match goal with |- context [calc_q ?a ?b ?c] => assert (Q2 : calc_q a b c = None) by (vm_compute; reflexivity) end. rewrite Q2. reflexivity. }
  rewrite E2. cbn [bind fst snd bu_loop].
  assert (N : exists q1, norm_q q = Ok q1 /\ nrows q1 = 2).
  { destruct Db as [-> | ->]; destruct (norm_q q) as [q1|] eqn:N.
    - exists q1. split; [reflexivity|]. assert (Nq : nrows q = 2) by (unfold calc_q in Q; destruct (forallb _ _); [injection Q as <-; reflexivity|discriminate]).
      unfold norm_q in N. destruct (forallb _ _); [|discriminate]. injection N as <-. rewrite Nq. reflexivity.
    - exfalso. assert (B : match calc_q (ch_p cStar) piStar [[true; false; false; false]; [false; true; true; true]] with Some q => match norm_q q with Ok _ => true | _ => false end | None => false end = true) by (vm_compute; reflexivity).
      rewrite Q, N in B. discriminate.
    - exists q1. split; [reflexivity|]. assert (Nq : nrows q = 2) by (unfold calc_q in Q; destruct (forallb _ _); [injection Q as <-; reflexivity|discriminate]).
      unfold norm_q in N. destruct (forallb _ _); [|discriminate]. injection N as <-. rewrite Nq. reflexivity.
    - exfalso. assert (B : match calc_q (ch_p cStar) piStar [[false; true; true; true]; [true; false; false; false]] with Some q => match norm_q q with Ok _ => true | _ => false end | None => false end = true) by (vm_compute; reflexivity).
      rewrite Q, N in B. discriminate. }
  destruct N as (q1 & N & Nr). rewrite N. cbn [bind fst snd]. eexists. split; [reflexivity|]. exact Nr.
Qed.

Lemma agg_reject n m s a signs kld : env_ok n m -> ~ ((2 <= s <= Z.of_nat n - 1)%Z /\ ergodic n (en_p m)) -> aggregate signs kld m s a = Err ValueErr.
Proof.
  intros Hm N. unfold aggregate. assert (En : en_size m = n) by (unfold en_size; apply wf_nrows with n; apply Hm). rewrite En.
  destruct (Z.leb_spec 2 s) as [A|A]; [|reflexivity]. destruct (Z.leb_spec s (Z.of_nat n - 1)) as [B|B]; [|reflexivity]. cbn [andb]. cbv iota.
  destruct (Nat.eqb_spec n 2); [reflexivity|]. cbn [negb]. destruct (is_ergodic_spec n m Hm) as (b & Eb & Hb). rewrite Eb. cbn [bind].
  destruct b; [|reflexivity]. exfalso. apply N. split; [lia|]. apply Hb. reflexivity.
Qed.
(** oracles of the examples: the first state is separated from the others *)
Definition sgE (A : mat) : list bool := tab (nrows A) (fun i => Nat.eqb i 0).
Definition klE (phi : groups) (q : mat) : option Qc := Some 0q.
Lemma sgE_splits n P pi : splits n P pi sgE.
Proof.
  intros idx _ _ L. unfold sgE. change (nrows (two_way P pi idx)) with (length (two_way P pi idx)). unfold two_way at 1. unfold mk. rewrite tab_length. split; [exists 0|exists 1]; (split; [lia|]); rewrite tab_nth by lia; reflexivity.
Qed.
(** signs of the eigenvector (1, -2, 1) of cAgg *)
Definition sgV (A : mat) : list bool := [true; false; true].
Lemma cAgg_vector : eigenvector 3 (ch_p cAgg) (Q2Qc (1 # 2)) (qv [1; -2; 1]%Q) /\ sgV (ch_p cAgg) = sign_of (qv [1; -2; 1]%Q).
Proof.
  split; [|vm_compute; reflexivity]. split; [reflexivity|]. split; [exists 0; split; [lia|]; apply Qceqb_neq; vm_compute; reflexivity|].
  intros i Hi. destruct i as [|[|[|]]]; try lia; apply Qceqb_eq; vm_compute; reflexivity.
Qed.
Definition sgW (A : mat) : list bool := if Nat.eqb (nrows A) 4 then [false; true; true; true] else [true; true; true].
Lemma cStar_vector : eigenvector 4 (ch_p cStar) (Q2Qc (- 3 # 4)) (qv [-3; 4; 4; 4]%Q) /\ sgW (ch_p cStar) = sign_of (qv [-3; 4; 4; 4]%Q) /\ sgW zero3 = [true; true; true].
Proof.
  split; [|split; vm_compute; reflexivity]. split; [reflexivity|]. split; [exists 0; split; [lia|]; apply Qceqb_neq; vm_compute; reflexivity|].
  intros i Hi. destruct i as [|[|[|[|]]]]; try lia; apply Qceqb_eq; vm_compute; reflexivity.
Qed.
Lemma top_down_wrong : exists n m, env_ok n m /\ ergodic n (en_p m) /\
  (exists pi, stationary n (en_p m) pi /\ (forall i, i < n -> (0 < vget pi i)%Qc) /\ two_way (en_p m) pi (seq 0 n) = en_p m) /\
  (forall lam v, eigenvector n (en_p m) lam v -> lam = 1q \/ lam = Q2Qc (1 # 2) \/ lam = 0q) /\
  forall signs kld v, eigenvector n (en_p m) (Q2Qc (1 # 2)) v -> signs (en_p m) = sign_of v ->
    exists c, aggregate signs kld m 2 TopDown = Ok c /\ aggregate signs kld m 2 Adaptive = Ok c /\ nrows (ch_p c) = 1.
Proof.
  exists 3, (env cAgg). destruct cAgg_ok as (Hm & Er & Tw). destruct piAgg_ok as (P0 & Pos). split; [exact Hm|]. split; [exact Er|]. split.
  - destruct (agg_pi 3 _ Hm Er) as (_ & pi & P1 & _ & Sp & _). rewrite P0 in P1. injection P1 as <-. exists piAgg. split; [exact Sp|]. split; [exact Pos|exact Tw].
  - split; [exact cAgg_eigen|]. intros signs kld v Ev Es. eexists. split; [apply (top_down_loses signs kld v Ev Es)|]. split; [|reflexivity].
    rewrite (adaptive_spec 3 _ _ _ _ Hm). change (Nat.ltb 3 30) with true. cbv iota. apply (top_down_loses signs kld v Ev Es).
Qed.
Lemma bottom_up_wrong : exists n m pi, env_ok n m /\ ergodic n (en_p m) /\ stationary n (en_p m) pi /\ (forall i, i < n -> (0 < vget pi i)%Qc) /\
  two_way (en_p m) pi [0; 1; 2; 3] = en_p m /\ two_way (en_p m) pi [1; 2; 3] = zero3 /\ n = 4 /\
  (forall lam v, eigenvector n (en_p m) lam v -> lam = 1q \/ lam = Q2Qc (- 3 # 4) \/ lam = 0q) /\
  forall signs kld v, (forall phi q, kld phi q <> None) -> eigenvector n (en_p m) (Q2Qc (- 3 # 4)) v -> signs (en_p m) = sign_of v -> signs zero3 = [true; true; true] ->
    exists c, aggregate signs kld m 3 BottomUp = Ok c /\ nrows (ch_p c) = 2.
Proof.
  exists 4, (env cStar), piStar. destruct cStar_ok as (Hm & Er & P0 & Pos & Tw & Tz). split; [exact Hm|]. split; [exact Er|]. split.
  - destruct (agg_pi 4 _ Hm Er) as (_ & pi & P1 & _ & Sp & _). rewrite P0 in P1. injection P1 as <-. exact Sp.
  - split; [exact Pos|]. split; [exact Tw|]. split; [exact Tz|]. split; [reflexivity|]. split; [exact cStar_eigen|]. exact bottom_up_stops.
Qed.
Lemma grouping_ex : grouping 3 [[0]; [1; 2]].
Proof.
  split.
  - intros g [<-|[<-|[]]].
    + split; [discriminate|]. split; [constructor; [intros []|constructor]|]. intros x [<-|[]]; lia.
    + split; [discriminate|]. split; [constructor; [intros [H|[]]; discriminate H|constructor; [intros []|constructor]]|]. intros x [<-|[<-|[]]]; lia.
  - intros i Hi. destruct i as [|[|[|]]]; try lia; [exists 0|exists 1|exists 1]; (split; [cbn; lia|]); intros b Hb; cbn in Hb; destruct b as [|[|]]; try lia; cbn; split; intros H; lia.
Qed.
