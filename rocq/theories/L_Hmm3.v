(** L_Hmm3: simulation (main statement), restriction, estimation and fitting of
    hidden Markov models. *)
From Verif Require Import S_Hmm2.
From Verif Require Export L_Hmm2.
From Coq Require Import Reals.
Close Scope R_scope.
Open Scope nat_scope.
Open Scope res_scope.

(** ** simulation *)
Lemma hmm_simulate_steps : forall n k P E states symbols steps init fs fy c0 pr er, 0 < n -> stochastic n P -> row_stochastic n k E ->
  unit_draws pr -> unit_draws er -> (0 <= c0)%Qc -> (c0 < 1q)%Qc -> init < n ->
  let r := hmm_simulate (mkhmm P E states symbols) steps init fs fy c0 pr er in
  let st := fst r in let sy := snd r in
  length st = length sy /\ 1 <= length st <= steps + 1 /\ nth 0 st 0 = init /\ nth 0 sy 0 < k /\ (0 < mget E init (nth 0%nat sy 0%nat))%Qc /\
  (forall q, S q < length st -> step_ok n k P E (nth q st 0) (nth (S q) st 0, nth (S q) sy 0) (pr q) (er q)) /\
  (forall q, 1 <= q -> S q < length st -> fs <> Some (nth q st 0) /\ fy <> Some (nth q sy 0)) /\
  (length st = steps + 1 \/ (2 <= length st /\ (fs = Some (nth (length st - 1) st 0) \/ fy = Some (nth (length st - 1) sy 0)))).
Proof.
  intros n k P E states symbols steps init fs fy c0 pr er Hn HP HE Hpr Her Hc0 Hc1 Hi. unfold hmm_simulate. cbn [h_p h_e].
  rewrite (st_rows n P HP). rewrite (wf_ncols n k E (proj1 HE) Hn).
  destruct (hsim_loop_spec n k P E fs fy pr er HP HE Hpr Her steps 0 init Hi) as [A [B [C D]]]. cbv zeta in *.
  set (l := hsim_loop n k P E fs fy pr er 0 steps init) in *.
  destruct (choice_spec k (row E init) c0 (erow_dist n k E init HE Hi) Hc0 Hc1) as [F1 [F2 F3]].
  set (y0 := choice k (row E init) c0) in *.
  assert (N1 : forall q, q <= length l -> nth q (map fst ((init, y0) :: l)) 0 = fst (nth q ((init, y0) :: l) (0, 0))) by (intros; apply (map_nth fst ((init, y0) :: l) (0, 0))).
  assert (N2 : forall q, q <= length l -> nth q (map snd ((init, y0) :: l)) 0 = snd (nth q ((init, y0) :: l) (0, 0))) by (intros; apply (map_nth snd ((init, y0) :: l) (0, 0))).
  cbn [fst snd]. assert (L1 : length (map fst ((init, y0) :: l)) = S (length l)) by (rewrite map_length; reflexivity).
  split; [rewrite !map_length; reflexivity|]. rewrite L1. split; [lia|]. split; [reflexivity|]. split; [exact F1|]. split.
  - cbn. change (vget (row E init) y0) with (mget E init y0) in F3. qclra.
  - split; [|split].
    + intros q Hq. rewrite !N1, N2 by lia. specialize (B q ltac:(lia)). cbn [nth] in B |- *.
      rewrite <- surjective_pairing. destruct q; exact B.
    + intros q Hq1 Hq. rewrite N1, N2 by lia. destruct q as [|q]; [lia|]. cbn [nth]. apply C. lia.
    + destruct D as [D|[D1 D2]]; [left; lia|right]. split; [lia|]. rewrite N1, N2 by lia.
      replace (S (length l) - 1) with (S (length l - 1)) by lia. exact D2.
Qed.

Lemma hmm_simulate_possible : forall n k P E states symbols steps init fs fy c0 pr er, 0 < n -> stochastic n P -> row_stochastic n k E ->
  unit_draws pr -> unit_draws er -> (forall t, (0 < pr t)%Qc /\ (0 < er t)%Qc) -> (0 <= c0)%Qc -> (c0 < 1q)%Qc -> init < n ->
  let r := hmm_simulate (mkhmm P E states symbols) steps init fs fy c0 pr er in
  possible_run n k P E (fst r) (snd r) /\ 1 <= length (fst r) <= steps + 1 /\ nth 0 (fst r) 0 = init /\
  (forall q, 1 <= q -> S q < length (fst r) -> fs <> Some (nth q (fst r) 0) /\ fy <> Some (nth q (snd r) 0)) /\
  (length (fst r) = steps + 1 \/ (2 <= length (fst r) /\ (fs = Some (nth (length (fst r) - 1) (fst r) 0) \/ fy = Some (nth (length (fst r) - 1) (snd r) 0)))).
Proof.
  intros n k P E states symbols steps init fs fy c0 pr er Hn HP HE Hpr Her Hp Hc0 Hc1 Hi.
  destruct (hmm_simulate_steps n k P E states symbols steps init fs fy c0 pr er Hn HP HE Hpr Her Hc0 Hc1 Hi) as [A [B [C [D1 [D2 [F [G H]]]]]]].
  cbv zeta in *. set (r := hmm_simulate _ _ _ _ _ _ _ _) in *. split; [|auto]. split; [exact A|]. split.
  - intros q Hq. destruct q as [|q]; [rewrite C; auto|]. destruct (F q Hq) as [F1 [F2 [_ F4]]]. cbn [fst snd] in *.
    split; [exact F1|]. split; [exact F2|]. destruct F4 as [F4|[_ F4]]; [exact F4|]. exfalso. pose proof (proj2 (Hp q)) as Z. rewrite F4 in Z. apply (Qclt_irr _ Z).
  - intros q Hq. destruct (F q Hq) as [_ [_ [F3 _]]]. cbn [fst snd] in *. destruct F3 as [F3|[_ F3]]; [exact F3|].
    exfalso. pose proof (proj1 (Hp q)) as Z. rewrite F3 in Z. apply (Qclt_irr _ Z).
Qed.

(** ** normalised matrices *)
Lemma sumn_zero_all : forall m f, (forall j, j < m -> (0 <= f j)%Qc) -> sumn m f = 0q -> forall j, j < m -> f j = 0q.
Proof. intros m f Hf H j Hj. eapply sumn_eq0_inv; eassumption. Qed.

Lemma norm_any_entries : forall n m M, 0 < n -> wf n m M -> (forall i j, i < n -> j < m -> (0 <= mget M i j)%Qc) ->
  forall i j, i < n -> j < m -> mget (norm_any M) i j = renorm m (mget M i) j.
Proof.
  intros n m M Hn HM Hp i j Hi Hj. unfold norm_any. pose proof (wf_fill_any n m M Hn HM) as HF.
  rewrite (mget_div_rows n m) by assumption. rewrite (mget_fill_any n m) by assumption.
  unfold renorm. change (fun l => mget (fill_any M) i l) with (mget (fill_any M) i).
  destruct (row_any M i) eqn:E.
  - rewrite (sumn_ext m _ (mget M i)) by (intros l Hl; rewrite (mget_fill_any n m) by assumption; rewrite E; reflexivity).
    destruct (Qceqb (sumn m (mget M i)) 0) eqn:Z; [|reflexivity]. exfalso. apply Qceqb_eq in Z.
    apply (row_any_true n m M i HM Hi) in E. destruct E as [l [Hl Hne]]. apply Hne.
    apply (sumn_zero_all m (mget M i) (fun a Ha => Hp i a Hi Ha) Z l Hl).
  - assert (Hz : forall l, l < m -> mget M i l = 0q).
    { intros l Hl. destruct (Qceqb (mget M i l) 0) eqn:Q; [apply Qceqb_eq; exact Q|]. exfalso. apply Qceqb_neq in Q.
      assert (row_any M i = true) by (apply (row_any_true n m M i HM Hi); exists l; auto). congruence. }
    rewrite (sumn_ext m (mget (fill_any M) i) (fun _ => 1q)) by (intros l Hl; rewrite (mget_fill_any n m) by assumption; rewrite E; reflexivity).
    rewrite (sumn_0 m (mget M i) Hz). rewrite sumn_const_n, Qcmult_1_r. change (Qceqb 0q 0q) with true. cbv iota. reflexivity.
Qed.

(** ** restriction *)
Lemma resolve_selected : forall n s l, resolve_sel n s = Ok l -> selected n (Some s) l.
Proof.
  intros n [i|l0] l H; unfold resolve_sel in H.
  - destruct (Nat.ltb_spec i n); [|discriminate]. injection H as <-. split; [assumption|reflexivity].
  - destruct (forallb (fun i => Nat.ltb i n) l0) eqn:E1; [|discriminate]. destruct (nodupb Nat.eqb l0) eqn:E2; [|discriminate].
    destruct (Nat.leb 2 (length l0) && Nat.leb (length l0) (n - 1)) eqn:E3; [|discriminate]. injection H as <-.
    pose proof (sort_perm l0) as HPm. cbn [selected]. split; [exact HPm|]. split; [apply sort_sorted|].
    split; [|split].
    + apply (Permutation.Permutation_NoDup HPm). revert E2. clear. induction l0 as [|a l0 IH]; cbn; intros H; [constructor|].
      apply andb_true_iff in H. destruct H as [H1 H2]. constructor; [|apply IH; exact H2].
      intros Hin. apply negb_true_iff in H1. assert (existsb (Nat.eqb a) l0 = true); [|congruence].
      apply existsb_exists. exists a. split; [exact Hin|apply Nat.eqb_refl].
    + rewrite <- (Permutation.Permutation_length HPm). apply andb_true_iff in E3. destruct E3 as [A B].
      apply Nat.leb_le in A, B. lia.
    + intros i Hi. apply (Permutation.Permutation_in _ (Permutation.Permutation_sym HPm)) in Hi.
      rewrite forallb_forall in E1. apply Nat.ltb_lt. apply E1. exact Hi.
Qed.
Lemma selected_in : forall n s l, selected n s l -> forall i, In i l -> i < n.
Proof.
  intros n [[i|l0]|] l H x Hx; cbn in H.
  - destruct H as [H ->]. destruct Hx as [<-|[]]; exact H.
  - apply H. exact Hx.
  - subst l. apply in_seq in Hx. lia.
Qed.
Lemma selected_pos : forall n s l, 0 < n -> selected n s l -> 0 < length l.
Proof.
  intros n [[i|l0]|] l Hn H; cbn in H.
  - destruct H as [_ ->]. cbn; lia.
  - lia.
  - subst l. rewrite seq_length. exact Hn.
Qed.
Lemma selected_full : forall n s l, selected n s l -> n <= length l -> 1 < n -> l = seq 0 n.
Proof.
  intros n [[i|l0]|] l H Hl H1; cbn in H; [destruct H as [_ ->]; cbn in Hl; lia|lia|exact H].
Qed.

Lemma renorm_unit : forall m f j, sumn m f = 1q -> renorm m f j = f j.
Proof. intros m f j H. unfold renorm. rewrite H. change (Qceqb 1q 0) with false. cbv iota. unfold Qcdiv. change (/ 1q)%Qc with 1q. ring. Qed.
Lemma nth_seq0 : forall n i, i < n -> nth i (seq 0 n) 0 = i.
Proof. intros. rewrite seq_nth by assumption. reflexivity. Qed.

Lemma restrict_inv : forall n k P E states symbols so yo h', 0 < n -> row_stochastic n k E -> stochastic n P ->
  restrict (mkhmm P E states symbols) so yo = Ok h' ->
  exists ss sy, selected n so ss /\ selected k yo sy /\ (so <> None \/ yo <> None) /\
    h' = (let '(p, e, a, b) := hmm_restrict P E states symbols ss sy in mkhmm p e a b).
Proof.
  intros n k P E states symbols so yo h' Hn HE HP H. unfold restrict in H. cbn [h_p h_e h_states h_symbols] in H.
  rewrite (st_rows n P HP), (wf_ncols n k E (proj1 HE) Hn) in H.
  destruct (match so with None => match yo with None => false | Some _ => true end | Some _ => true end) eqn:G; [|destruct so, yo; discriminate].
  assert (H' : (ss <- match so with None => Ok (seq 0 n) | Some s => resolve_sel n s end ;;
     sy <- match yo with None => Ok (seq 0 k) | Some s => resolve_sel k s end ;;
     let '(p, e, sn, yn) := hmm_restrict P E states symbols ss sy in hmm_init p e sn yn) = Ok h') by (destruct so, yo; try discriminate; exact H).
  clear H. destruct (match so with None => Ok (seq 0 n) | Some s => resolve_sel n s end) as [ss|] eqn:E1; [|discriminate]. cbn [bind] in H'.
  destruct (match yo with None => Ok (seq 0 k) | Some s => resolve_sel k s end) as [sy|] eqn:E2; [|discriminate]. cbn [bind] in H'.
  exists ss, sy. split; [destruct so; [apply resolve_selected; exact E1|injection E1 as <-; reflexivity]|].
  split; [destruct yo; [apply resolve_selected; exact E2|injection E2 as <-; reflexivity]|].
  split; [destruct so, yo; try discriminate; (left; discriminate) || (right; discriminate)|].
  destruct (hmm_restrict P E states symbols ss sy) as [[[p e] a] b]. unfold hmm_init in H'.
  destruct (negb _); [|discriminate]. injection H' as <-. reflexivity.
Qed.

(** the restricted matrices, when the emission matrix is restricted at all *)
Lemma restrict_ok : forall n k P E states symbols so yo h', 1 < n -> 1 < k -> stochastic n P -> row_stochastic n k E ->
  restrict (mkhmm P E states symbols) so yo = Ok h' ->
  (so <> None \/ (forall sy, selected k yo sy -> length sy < n)) ->
  exists ss sy, selected n so ss /\ selected k yo sy /\
    h_states h' = map (fun s => nth s states ""%string) ss /\ h_symbols h' = map (fun s => nth s symbols ""%string) sy /\
    stochastic (length ss) (h_p h') /\ row_stochastic (length ss) (length sy) (h_e h') /\
    (forall a b, a < length ss -> b < length ss -> mget (h_p h') a b = renorm (length ss) (fun c => mget P (nth a ss 0%nat) (nth c ss 0%nat)) b) /\
    (forall a b, a < length ss -> b < length sy -> mget (h_e h') a b = renorm (length sy) (fun c => mget E (nth a ss 0%nat) (nth c sy 0%nat)) b).
Proof.
  intros n k P E states symbols so yo h' Hn Hk HP HE H Hc.
  destruct (restrict_inv n k P E states symbols so yo h' ltac:(lia) HE HP H) as [ss [sy [Hss [Hsy [_ ->]]]]].
  exists ss, sy. split; [exact Hss|]. split; [exact Hsy|]. unfold hmm_restrict.
  pose proof (selected_in n so ss Hss) as Is. pose proof (selected_in k yo sy Hsy) as Iy.
  pose proof (selected_pos n so ss ltac:(lia) Hss) as Ps. pose proof (selected_pos k yo sy ltac:(lia) Hsy) as Py.
  rewrite (st_rows n P HP). rewrite (wf_nrows n k E (proj1 HE)). cbn [h_states h_symbols h_p h_e].
  split; [reflexivity|]. split; [reflexivity|].
  assert (Ns : forall a, a < length ss -> nth a ss 0 < n) by (intros; apply Is, nth_In; assumption).
  assert (Ny : forall a, a < length sy -> nth a sy 0 < k) by (intros; apply Iy, nth_In; assumption).
  assert (Gp : forall a b, a < length ss -> b < length ss -> (0 <= mget (mix P ss ss) a b)%Qc).
  { intros a b Ha Hb. rewrite mget_mix by assumption. apply HP; apply Ns; assumption. }
  assert (Ge : forall a b, a < length ss -> b < length sy -> (0 <= mget (mix E ss sy) a b)%Qc).
  { intros a b Ha Hb. rewrite mget_mix by assumption. apply HE; [apply Ns|apply Ny]; assumption. }
  assert (Hp : stochastic (length ss) (if Nat.ltb (length ss) n then norm_any (mix P ss ss) else P) /\
    forall a b, a < length ss -> b < length ss -> mget (if Nat.ltb (length ss) n then norm_any (mix P ss ss) else P) a b = renorm (length ss) (fun c => mget P (nth a ss 0%nat) (nth c ss 0%nat)) b).
  { destruct (Nat.ltb_spec (length ss) n) as [L|L].
    - split; [apply norm_any_stochastic; auto; apply wf_mix|]. intros a b Ha Hb.
      rewrite (norm_any_entries (length ss) (length ss)) by (auto; apply wf_mix). unfold renorm.
      rewrite (sumn_ext (length ss) (mget (mix P ss ss) a) (fun c => mget P (nth a ss 0%nat) (nth c ss 0%nat))) by (intros; apply mget_mix; assumption).
      rewrite mget_mix by assumption. reflexivity.
    - pose proof (selected_full n so ss Hss L Hn) as ->. rewrite seq_length in *. split; [exact HP|]. intros a b Ha Hb.
      rewrite renorm_unit.
      + rewrite !nth_seq0 by assumption. reflexivity.
      + rewrite (sumn_ext n _ (mget P a)) by (intros; rewrite !nth_seq0 by assumption; reflexivity). apply HP. exact Ha. }
  assert (He : (Nat.ltb (length ss) n || Nat.ltb (length sy) n)%bool = true).
  { destruct (Nat.ltb_spec (length ss) n) as [L|L]; [reflexivity|].
    pose proof (selected_full n so ss Hss L Hn) as Ess.
    destruct Hc as [Hc|Hc].
    - exfalso. destruct so as [[i|l0]|]; [| |congruence]; cbn in Hss; [destruct Hss as [_ ->]; cbn in L; lia|lia].
    - specialize (Hc sy Hsy). destruct (Nat.ltb_spec (length sy) n); [reflexivity|lia]. }
  split; [exact (proj1 Hp)|].
  rewrite He. split; [apply norm_any_stochastic; auto; apply wf_mix|]. split; [exact (proj2 Hp)|]. intros a b Ha Hb.
    rewrite (norm_any_entries (length ss) (length sy)) by (auto; apply wf_mix). unfold renorm.
    rewrite (sumn_ext (length sy) (mget (mix E ss sy) a) (fun c => mget E (nth a ss 0%nat) (nth c sy 0%nat))) by (intros; apply mget_mix; assumption).
    rewrite mget_mix by assumption. reflexivity.
Qed.

(** ** estimation *)
Lemma filter_count : forall {A} (f : A -> bool) l d, Qcn (length (filter f l)) = occurrences (length l) (fun t => f (nth t l d)).
Proof.
  intros A f l d. unfold occurrences. induction l as [|a l IH]; [reflexivity|].
  cbn [length]. rewrite sumn_S_front. cbn [filter nth]. destruct (f a); cbn [length].
  - rewrite Qcn_S, IH. ring.
  - rewrite IH. ring.
Qed.
Lemma occ_ext : forall m c c', (forall t, t < m -> c t = c' t) -> occurrences m c = occurrences m c'.
Proof. intros m c c' H. unfold occurrences. apply sumn_ext. intros t Ht. rewrite H by exact Ht. reflexivity. Qed.
Lemma occ_nonneg : forall m c, (0 <= occurrences m c)%Qc.
Proof. intros. apply sumn_nonneg. intros t _. destruct (c t); discriminate. Qed.
Lemma nth_removelast : forall (s : list nat) t, S t < length s -> nth t (removelast s) 0 = nth t s 0.
Proof.
  induction s as [|a s IH]; intros t Ht; [cbn in Ht; lia|]. destruct s as [|b s]; [cbn in Ht; lia|].
  change (removelast (a :: b :: s)) with (a :: removelast (b :: s)). destruct t; [reflexivity|]. cbn [nth]. apply IH. cbn in Ht |- *. lia.
Qed.
Lemma length_removelast : forall (s : list nat), length (removelast s) = length s - 1.
Proof.
  induction s as [|a s IH]; [reflexivity|]. destruct s as [|b s]; [reflexivity|].
  change (removelast (a :: b :: s)) with (a :: removelast (b :: s)). cbn [length] in *. lia.
Qed.
Lemma moves_count : forall s i j, Qcn (pair_count (zip (removelast s) (tl s)) i j) = seen_moves s i j.
Proof.
  intros s i j. unfold pair_count, zip, seen_moves. rewrite (filter_count _ _ (0, 0)).
  assert (El : length (combine (removelast s) (tl s)) = length s - 1).
  { rewrite combine_length, length_removelast. destruct s; cbn [tl length]; lia. }
  rewrite El. apply occ_ext. intros t Ht. rewrite nth_combine.
  - cbn [fst snd]. rewrite nth_removelast by lia. destruct s; [cbn in Ht; lia|reflexivity].
  - rewrite length_removelast. exact Ht.
  - destruct s; cbn [tl length] in *; lia.
Qed.
Lemma symbols_count : forall s o i j, length s = length o -> Qcn (pair_count (zip s o) i j) = seen_symbols s o i j.
Proof.
  intros s o i j Hl. unfold pair_count, zip, seen_symbols. rewrite (filter_count _ _ (0, 0)).
  rewrite combine_length, <- Hl, Nat.min_id. apply occ_ext. intros t Ht. rewrite nth_combine by lia. reflexivity.
Qed.

Lemma hmm_estimate_ok : forall n k ss sy, 0 < n -> 0 < k -> length ss = length sy ->
  let r := hmm_estimate n k ss sy true in
  stochastic n (fst r) /\ row_stochastic n k (snd r) /\
  (forall i j, i < n -> j < n -> mget (fst r) i j = renorm n (seen_moves ss i) j) /\
  (forall i j, i < n -> j < k -> mget (snd r) i j = renorm k (seen_symbols ss sy i) j).
Proof.
  intros n k ss sy Hn Hk Hl. cbv zeta. unfold hmm_estimate. cbn [fst snd].
  assert (Wp : wf n n (count_mat n n (zip (removelast ss) (tl ss)))) by apply wf_mk.
  assert (We : wf n k (count_mat n k (zip ss sy))) by apply wf_mk.
  assert (Gp : forall i j, i < n -> j < n -> mget (count_mat n n (zip (removelast ss) (tl ss))) i j = seen_moves ss i j).
  { intros i j Hi Hj. unfold count_mat. rewrite mget_mk by assumption. apply moves_count. }
  assert (Ge : forall i j, i < n -> j < k -> mget (count_mat n k (zip ss sy)) i j = seen_symbols ss sy i j).
  { intros i j Hi Hj. unfold count_mat. rewrite mget_mk by assumption. apply symbols_count. exact Hl. }
  assert (Np : forall i j, i < n -> j < n -> (0 <= mget (count_mat n n (zip (removelast ss) (tl ss))) i j)%Qc) by (intros; rewrite Gp by assumption; apply occ_nonneg).
  assert (Ne : forall i j, i < n -> j < k -> (0 <= mget (count_mat n k (zip ss sy)) i j)%Qc) by (intros; rewrite Ge by assumption; apply occ_nonneg).
  split; [apply norm_any_stochastic; assumption|]. split; [apply norm_any_stochastic; assumption|]. split.
  - intros i j Hi Hj. rewrite (norm_any_entries n n) by assumption. unfold renorm.
    rewrite (sumn_ext n _ (seen_moves ss i)) by (intros; apply Gp; assumption). rewrite Gp by assumption. reflexivity.
  - intros i j Hi Hj. rewrite (norm_any_entries n k) by assumption. unfold renorm.
    rewrite (sumn_ext k _ (seen_symbols ss sy i)) by (intros; apply Ge; assumption). rewrite Ge by assumption. reflexivity.
Qed.

Lemma labels_input_inv : forall l o l', validate_labels_input l o = Ok l' -> l' = l /\ names_ok (length l) l /\ 2 <= length l.
Proof.
  intros l o l' H. assert (H' : validate_labels_input l (Some (length l)) = Ok l).
  { unfold validate_labels_input in *. destruct (forallb nonblank l); [|discriminate]. destruct (Nat.leb 2 (length l)); [|discriminate].
    destruct (nodupb String.eqb l); [|discriminate]. rewrite Nat.eqb_refl. reflexivity. }
  split.
  - unfold validate_labels_input in H. destruct (forallb nonblank l); [|discriminate]. destruct (Nat.leb 2 (length l)); [|discriminate].
    destruct (nodupb String.eqb l); [|discriminate]. destruct o as [m|]; [destruct (Nat.eqb (length l) m); [|discriminate]|]; injection H as <-; reflexivity.
  - apply validate_labels_input_ok in H'. split; [apply H'|]. unfold validate_labels_input in H.
    destruct (forallb nonblank l); [|discriminate]. destruct (Nat.leb_spec 2 (length l)); [assumption|discriminate].
Qed.

Lemma estimate_ok : forall states symbols ss sy h, estimate states symbols ss sy = Ok h ->
  let n := length states in let k := length symbols in
  length ss = length sy /\ 2 <= length ss /\ h_states h = states /\ h_symbols h = symbols /\ names_ok n states /\ names_ok k symbols /\
  stochastic n (h_p h) /\ row_stochastic n k (h_e h) /\
  (forall i j, i < n -> j < n -> mget (h_p h) i j = renorm n (seen_moves ss i) j) /\
  (forall i j, i < n -> j < k -> mget (h_e h) i j = renorm k (seen_symbols ss sy i) j).
Proof.
  intros states symbols ss sy h H. cbv zeta. unfold estimate in H.
  destruct (validate_labels_input states None) as [st|] eqn:E1; [|discriminate]. cbn [bind] in H.
  destruct (validate_labels_input symbols None) as [sb|] eqn:E2; [|discriminate]. cbn [bind] in H.
  destruct (labels_input_inv _ _ _ E1) as [-> [N1 L1]]. destruct (labels_input_inv _ _ _ E2) as [-> [N2 L2]].
  destruct (sequence_okb (length states) ss) eqn:E3; [|discriminate]. destruct (sequence_okb (length symbols) sy) eqn:E4; [|discriminate].
  destruct (negb (existsb (fun s => mem_str s symbols) states)) eqn:E5; [|discriminate].
  destruct (Nat.eqb_spec (length ss) (length sy)) as [E6|]; [|discriminate].
  pose proof (hmm_estimate_ok (length states) (length symbols) ss sy ltac:(lia) ltac:(lia) E6) as K. cbv zeta in K.
  destruct (hmm_estimate (length states) (length symbols) ss sy true) as [p e]. cbn [fst snd] in K. unfold hmm_init in H. rewrite E5 in H. injection H as <-.
  cbn [h_p h_e h_states h_symbols]. unfold sequence_okb in E3. apply andb_true_iff in E3. destruct E3 as [E3 _]. apply Nat.leb_le in E3.
  split; [exact E6|]. split; [exact E3|]. split; [reflexivity|]. split; [reflexivity|]. split; [exact N1|]. split; [exact N2|]. exact K.
Qed.
Lemma estimate_accepts : forall states symbols ss sy, names_ok (length states) states -> names_ok (length symbols) symbols ->
  2 <= length states -> 2 <= length symbols -> (forall s, In s states -> ~ In s symbols) -> 2 <= length ss -> length ss = length sy ->
  (forall i, In i ss -> i < length states) -> (forall i, In i sy -> i < length symbols) -> exists h, estimate states symbols ss sy = Ok h.
Proof.
  intros states symbols ss sy N1 N2 L1 L2 Hd L3 L4 R1 R2. unfold estimate.
  assert (V : forall l, names_ok (length l) l -> 2 <= length l -> validate_labels_input l None = Ok l).
  { intros l N L. assert (H : validate_labels_input l (Some (length l)) = Ok l) by (apply validate_labels_input_ok; auto).
    unfold validate_labels_input in *. destruct (forallb nonblank l); [|discriminate]. destruct (Nat.leb 2 (length l)); [|discriminate].
    destruct (nodupb String.eqb l); [reflexivity|discriminate]. }
  rewrite (V states N1 L1), (V symbols N2 L2). cbn [bind].
  assert (S : forall m l, 2 <= length l -> (forall i, In i l -> i < m) -> sequence_okb m l = true).
  { intros m l A B. unfold sequence_okb. apply andb_true_iff. split; [apply Nat.leb_le; exact A|].
    apply forallb_forall. intros i Hi. apply Nat.ltb_lt. apply B. exact Hi. }
  rewrite (S _ _ L3 R1), (S _ sy ltac:(lia) R2).
  assert (D : negb (existsb (fun s => mem_str s symbols) states) = true).
  { apply negb_true_iff. apply not_true_is_false. intros Z. apply existsb_exists in Z. destruct Z as [s [A B]].
    unfold mem_str in B. apply existsb_exists in B. destruct B as [y [B C]]. apply String.eqb_eq in C. subst y. apply (Hd s A B). }
  rewrite D. rewrite L4, Nat.eqb_refl. destruct (hmm_estimate _ _ _ _ _) as [p e]. unfold hmm_init. rewrite D. eexists. reflexivity.
Qed.

(** ** fitting *)
Definition nonneg_mat (n m : nat) (M : mat) : Prop := wf n m M /\ forall i j, i < n -> j < m -> (0 <= mget M i j)%Qc.

Lemma Qc_div_nonneg0 : forall a b, (0 <= a)%Qc -> (0 <= b)%Qc -> (0 <= a / b)%Qc.
Proof.
  intros a b Ha Hb. destruct (Qc_dec b 0) as [[C|C]|C]; [qclra|apply Qc_div_nonneg; assumption|].
  rewrite C. unfold Qcdiv. change (/ 0)%Qc with 0q. rewrite Qcmult_0_r. apply Qcle_refl.
Qed.
Lemma likelihood_nonneg : forall n k P E x obs, hmm_ok n k P E x -> obs_ok k obs -> (0 <= likelihood n P E x obs)%Qc.
Proof.
  intros n k P E x obs [HP [HE HD]] Ho. rewrite likelihood_alpha. apply sumn_nonneg. intros i Hi.
  eapply alpha_nonneg; [exact HP|exact HE|exact Ho|intros; apply HD; assumption|exact Hi].
Qed.
Lemma decode_fwd_nonneg : forall n k P E x obs d, hmm_ok n k P E x -> obs_ok k obs -> decode_ok n P E x obs true d ->
  forall t i, t <= length obs -> i < n -> (0 <= vget (nth t (d_fwd d) []) i)%Qc.
Proof.
  intros n k P E x obs d HM Ho K t i Ht Hi. destruct (dk_fwd _ _ _ _ _ _ _ K) as [_ [F0 F]]. destruct t as [|t].
  - rewrite F0. apply HM. exact Hi.
  - rewrite (F t i) by lia. cbv zeta. rewrite prefix_alpha by lia. apply Qc_div_nonneg0.
    + destruct HM as [HP [HE HD]]. eapply alpha_nonneg; [exact HP|exact HE|apply obs_ok_firstn; exact Ho|intros; apply HD; assumption|exact Hi].
    + eapply likelihood_nonneg; [exact HM|apply obs_ok_firstn; exact Ho].
Qed.
Lemma decode_bwd_nonneg : forall n k P E x obs d, hmm_ok n k P E x -> obs_ok k obs -> decode_ok n P E x obs true d ->
  forall t i, t <= length obs -> i < n -> (0 <= vget (nth t (d_back d) []) i)%Qc.
Proof.
  intros n k P E x obs d HM Ho K t i Ht Hi. destruct (dk_bwd _ _ _ _ _ _ _ K) as [_ F]. rewrite (F t i Ht Hi). cbv zeta.
  rewrite future_beta. apply Qc_div_nonneg0; [apply Qc_mul_nonneg|].
  - destruct HM as [HP [HE HD]]. eapply beta_nonneg; [exact HP|exact HE|apply obs_ok_skipn; exact Ho|exact Hi].
  - eapply likelihood_nonneg; [exact HM|apply obs_ok_firstn; exact Ho].
  - eapply likelihood_nonneg; eassumption.
Qed.
Lemma scale_pos : forall n k P E x obs d sf, hmm_ok n k P E x -> obs_ok k obs -> decodable n P E x obs -> decode_ok n P E x obs true d -> d_scale d = Some sf ->
  forall t, t < length obs -> (0 < nth (S t) sf 0)%Qc.
Proof.
  intros n k P E x obs d sf HM Ho Hd K Es t Ht. destruct (dk_scale _ _ _ _ _ _ _ K) as [sf' [Es' [_ [_ F]]]]. rewrite Es in Es'. injection Es' as <-.
  specialize (F t Ht). assert (G : forall q, q <= length obs -> (0 < likelihood n P E x (firstn q obs))%Qc).
  { induction q as [|q IH]; intros Hq.
    - cbn [firstn]. rewrite likelihood_alpha. cbn [alpha]. destruct HM as [_ [_ [_ [_ Hs]]]]. change (fun i => vget x i) with (vget x) in Hs. rewrite Hs. reflexivity.
    - eapply Qclt_le_trans; [|apply (Hd q); lia]. apply Qc_mul_pos; [apply tiny300_pos|apply IH; lia]. }
  pose proof (G t ltac:(lia)) as G1. pose proof (G (S t) ltac:(lia)) as G2. rewrite <- F in G2.
  apply Qcnot_le_lt. intros C. apply (Qclt_not_le _ _ G2).
  apply Qcle_trans with (0 * likelihood n P E x (firstn t obs))%Qc; [apply Qcmult_le_compat_r; [exact C|apply Qclt_le_weak; exact G1]|].
  rewrite Qcmult_0_l. apply Qcle_refl.
Qed.

Lemma fit_bw_nonneg : forall n k P E x obs pc ec, 0 < n -> hmm_ok n k P E x -> obs_ok k obs ->
  fit_baum_welch n k P E x obs = Some (pc, ec) -> nonneg_mat n n pc /\ nonneg_mat n k ec.
Proof.
  intros n k P E x obs pc ec Hn HM Ho H. unfold fit_baum_welch in H. pose proof (decode_spec n k P E x obs true Hn HM Ho) as K.
  destruct (hmm_decode P E x obs true) as [d|]; [|discriminate]. destruct K as [Hdc K]. injection H as <- <-.
  destruct (dk_scale _ _ _ _ _ _ _ K) as [sf [Es _]]. rewrite Es. destruct HM as [HP [HE HD]] eqn:EM. 
  split; (split; [apply wf_mk|]); intros i j Hi Hj; rewrite mget_mk by assumption; apply sumn_nonneg; intros t Ht.
  - unfold bw_pair. apply Qc_div_nonneg; [|eapply scale_pos; eassumption].
    assert (Hsy : nth t obs 0 < k) by (apply Ho, nth_In; exact Ht).
    repeat apply Qc_mul_nonneg; [eapply decode_bwd_nonneg; try eassumption; lia|eapply decode_fwd_nonneg; try eassumption; lia|apply HP; assumption|apply HE; assumption].
  - destruct (Nat.eqb _ _); [|apply Qcle_refl].
    apply Qc_mul_nonneg; [eapply decode_bwd_nonneg; try eassumption; lia|eapply decode_fwd_nonneg; try eassumption; lia].
Qed.
Lemma div_rows_null_nonneg : forall n m M, 0 < n -> wf n m M -> nonneg_mat n m (div_rows_null M).
Proof.
  intros n m M Hn HM. unfold div_rows_null. rewrite (wf_nrows n m M HM), (wf_ncols n m M HM Hn).
  split; [apply wf_mk|]. intros i j Hi Hj. rewrite mget_mk by assumption. destruct (Qceqb _ _); [apply Qcle_refl|apply Qcabs_nonneg].
Qed.
Lemma fit_func_nonneg : forall ft n k P E x obs pc ec, 0 < n -> hmm_ok n k P E x -> obs_ok k obs ->
  fit_func ft n k P E x obs = Some (pc, ec) -> nonneg_mat n n pc /\ nonneg_mat n k ec.
Proof.
  intros ft n k P E x obs pc ec Hn HM Ho H.
  assert (G : forall b, fit_prediction b n k P E x obs = Some (pc, ec) -> nonneg_mat n n pc /\ nonneg_mat n k ec).
  { intros b Hb. unfold fit_prediction in Hb. destruct (if b then _ else _) as [st|]; [|discriminate].
    unfold hmm_estimate in Hb. injection Hb as <- <-. split; apply div_rows_null_nonneg; try exact Hn; apply wf_mk. }
  destruct ft; cbn [fit_func] in H; [eapply fit_bw_nonneg; eassumption|eapply G; exact H|eapply G; exact H].
Qed.
Lemma madd_nonneg : forall n m A B, 0 < n -> nonneg_mat n m A -> nonneg_mat n m B -> nonneg_mat n m (madd A B).
Proof.
  intros n m A B Hn [WA NA] [WB NB]. split; [apply wf_madd; assumption|]. intros i j Hi Hj.
  rewrite (mget_madd n m) by assumption. specialize (NA i j Hi Hj). specialize (NB i j Hi Hj). qclra.
Qed.
Lemma fit_accumulate_nonneg : forall n k f seqs p e, 0 < n -> (forall s pc ec, In s seqs -> f s = Some (pc, ec) -> nonneg_mat n n pc /\ nonneg_mat n k ec) ->
  nonneg_mat n n p -> nonneg_mat n k e -> nonneg_mat n n (fst (fit_accumulate f seqs p e)) /\ nonneg_mat n k (snd (fit_accumulate f seqs p e)).
Proof.
  intros n k f seqs; induction seqs as [|s seqs IH]; intros p e Hn Hf Hp He; cbn [fit_accumulate]; [auto|].
  destruct (f s) as [[pc ec]|] eqn:E.
  - destruct (Hf s pc ec (or_introl eq_refl) E) as [A B]. apply IH; [exact Hn|intros; eapply Hf; [right|]; eassumption| |]; apply madd_nonneg; assumption.
  - apply IH; auto. intros; eapply Hf; [right|]; eassumption.
Qed.
Lemma div_rows_nonneg_stochastic : forall n m M, 0 < n -> nonneg_mat n m M -> (forall i, i < n -> sumn m (mget M i) <> 0q) -> row_stochastic n m (div_rows M).
Proof.
  intros n m M Hn [W N] Hs. split; [apply wf_div_rows; assumption|]. split.
  - intros i j Hi Hj. rewrite (mget_div_rows n m) by assumption. apply Qc_div_nonneg0; [apply N; assumption|apply sumn_nonneg; intros; apply N; assumption].
  - intros i Hi. rewrite (sumn_ext m _ (fun j => mget M i j / sumn m (mget M i))%Qc) by (intros; apply (mget_div_rows n m); assumption).
    rewrite sumn_div. apply Qc_div_self. apply Hs. exact Hi.
Qed.
Lemma rows_nonzero : forall n m M, 0 < n -> wf n m M -> forallb (fun i => negb (Qceqb (rowsum M i) 0)) (seq 0 n) = true -> forall i, i < n -> sumn m (mget M i) <> 0q.
Proof.
  intros n m M Hn W H i Hi. rewrite forallb_forall in H. specialize (H i ltac:(apply in_seq; lia)). apply negb_true_iff, Qceqb_neq in H.
  rewrite (rowsum_eq n m) in H by assumption. exact H.
Qed.
Lemma zeros_nonneg : forall n m, nonneg_mat n m (zeros n m).
Proof. intros. split; [apply wf_mk|]. intros i j Hi Hj. unfold zeros. rewrite mget_mk by assumption. apply Qcle_refl. Qed.

Lemma fit_loop_ok : forall ft n k x seqs conv, 0 < n -> distribution n x -> (forall s, In s seqs -> obs_ok k s) ->
  forall fuel t p e p' e', stochastic n p -> row_stochastic n k e -> fit_loop ft n k x seqs conv fuel t p e = Ok (p', e') ->
  stochastic n p' /\ row_stochastic n k e'.
Proof.
  intros ft n k x seqs conv Hn HD Hs fuel; induction fuel as [|fuel IH]; intros t p e p' e' Hp He H; [discriminate|].
  cbn [fit_loop] in H. destruct (fit_accumulate (fit_func ft n k p e x) seqs (zeros n n) (zeros n k)) as [pc ec] eqn:EA.
  assert (A : nonneg_mat n n pc /\ nonneg_mat n k ec).
  { pose proof (fit_accumulate_nonneg n k (fit_func ft n k p e x) seqs (zeros n n) (zeros n k) Hn) as Z. rewrite EA in Z. apply Z.
    - intros s pc0 ec0 Hin Hf. eapply fit_func_nonneg; [exact Hn|split; [exact Hp|split; [exact He|exact HD]]|apply Hs; exact Hin|exact Hf].
    - apply zeros_nonneg.
    - apply zeros_nonneg. }
  destruct A as [A1 A2]. destruct (forallb (fun i => negb (Qceqb (rowsum pc i) 0)) (seq 0 n)) eqn:R1; [|discriminate].
  destruct (forallb (fun i => negb (Qceqb (rowsum ec i) 0)) (seq 0 n)) eqn:R2; [|discriminate].
  pose proof (div_rows_nonneg_stochastic n n pc Hn A1 (rows_nonzero n n pc Hn (proj1 A1) R1)) as B1.
  pose proof (div_rows_nonneg_stochastic n k ec Hn A2 (rows_nonzero n k ec Hn (proj1 A2) R2)) as B2.
  destruct (conv t); [injection H as <- <-; split; assumption|]. eapply IH; [exact B1|exact B2|exact H].
Qed.
Lemma hmm_fit_ok : forall ft n k P E x seqs conv p e, 0 < n -> hmm_ok n k P E x -> (forall s, In s seqs -> obs_ok k s) ->
  hmm_fit ft P E x seqs conv = Ok (p, e) -> stochastic n p /\ row_stochastic n k e.
Proof.
  intros ft n k P E x seqs conv p e Hn [HP [HE HD]] Hs H. unfold hmm_fit in H. rewrite (st_rows n P HP), (wf_ncols n k E (proj1 HE) Hn) in H.
  eapply fit_loop_ok; eassumption.
Qed.
Lemma fit_ok : forall ft states symbols k P E seqs init conv h, stochastic (length states) P -> row_stochastic (length states) k E ->
  (forall v, init = Some v -> distribution (length states) v) ->
  fit ft states symbols P E seqs init conv = Ok h ->
  h_states h = states /\ h_symbols h = symbols /\ stochastic (length states) (h_p h) /\ row_stochastic (length states) k (h_e h).
Proof.
  intros ft states symbols k P E seqs init conv h HP HE Hi H. unfold fit in H.
  destruct (validate_labels_input states None) as [st|] eqn:E1; [|discriminate]. cbn [bind] in H.
  destruct (validate_labels_input symbols None) as [sb|] eqn:E2; [|discriminate]. cbn [bind] in H.
  destruct (labels_input_inv _ _ _ E1) as [-> [N1 L1]]. destruct (labels_input_inv _ _ _ E2) as [-> [N2 L2]].
  destruct (Nat.eqb (nrows P) _); [|discriminate]. destruct (Nat.eqb (nrows E) _); [|discriminate].
  destruct (forallb (sequence_okb _) seqs) eqn:E3; [|discriminate].
  destruct (negb (existsb (fun s => mem_str s symbols) states)) eqn:E5; [|discriminate].
  destruct (forallb (forallb (fun y => Nat.ltb y (ncols E))) seqs) eqn:E4; [|discriminate].
  rewrite (wf_ncols _ k E (proj1 HE)) in E4 by lia.
  assert (Ho : forall s, In s seqs -> obs_ok k s).
  { intros s Hs o Hin. rewrite forallb_forall in E4. specialize (E4 s Hs). rewrite forallb_forall in E4. apply Nat.ltb_lt. apply E4. exact Hin. }
  set (x := match init with None => uniform (length states) | Some v => v end) in H.
  assert (HD : distribution (length states) x).
  { unfold x. destruct init as [v|]; [apply Hi; reflexivity|]. split; [apply tab_length|]. split.
    - intros i Hlt. unfold uniform. rewrite vget_tab by exact Hlt. apply Qc_div_nonneg0; [discriminate|]. apply Qcn_nonneg.
    - rewrite (sumn_ext _ _ (fun _ => 1 / Qcn (length states))%Qc) by (intros; unfold uniform; apply vget_tab; assumption).
      rewrite sumn_const_n. field. apply Qc_lt_neq. apply Qcn_pos. lia. }
  destruct (hmm_fit ft P E x seqs conv) as [[p e]|] eqn:EF; [|discriminate]. cbn [bind fst snd] in H. unfold hmm_init in H. rewrite E5 in H. injection H as <-.
  cbn. split; [reflexivity|]. split; [reflexivity|]. eapply hmm_fit_ok; [|split; [exact HP|split; [exact HE|exact HD]]|exact Ho|exact EF]. lia.
Qed.
