(** L_Torn5: files of hidden Markov models cut short. *)
From Verif Require Import S_Disk L_Gen1 L_Valid2 L_Io1 L_Io3 L_Io4 L_Json L_Xml L_Files L_Files2 L_Torn L_Torn2 L_Torn3 L_Torn4.
Open Scope nat_scope.
Open Scope res_scope.

Lemma hmm_of_dict_ok d o : hmm_of_dict d = Ok o -> let st := hmm_diagonal d in let sy := hmm_symbols_of (nth 0 st EmptyString) d in
  2 <= length st /\ 2 <= length sy /\ exists p e, fill_hmm st sy d (nzeros (length st) (length st)) (nzeros (length st) (length sy)) = Ok (p, e) /\ rows_sum_to_one p = true /\ rows_sum_to_one e = true /\ o = mkrhobj p e st sy.
Proof.
  unfold hmm_of_dict. cbv zeta. intros H. destruct (Nat.leb_spec 2 (length (hmm_diagonal d))) as [L|L]; [|discriminate]. cbv iota in H. destruct (Nat.leb_spec 2 (length (hmm_symbols_of (nth 0 (hmm_diagonal d) EmptyString) d))) as [L2|L2]; [|discriminate]. cbv iota in H.
  apply bind_inv in H. destruct H as ([p e] & Hp & H). cbn [fst snd] in H. destruct (rows_sum_to_one p) eqn:E1; [|discriminate]. destruct (rows_sum_to_one e) eqn:E2; [|discriminate]. injection H as <-. split; [exact L|]. split; [exact L2|]. exists p, e. auto.
Qed.
Lemma fill_hmm_known states symbols d : forall p e q, fill_hmm states symbols d p e = Ok q -> forall a b v, In (["P"%string; a; b], v) d -> In a states /\ In b states.
Proof.
  induction d as [|[k v0] d IH]; intros p e q H a b v Hi; [destruct Hi|]. cbn [fill_hmm] in H. destruct k as [|r [|x [|y [|z k]]]]; try discriminate. destruct Hi as [E|Hi].
  - injection E as -> -> -> ->. cbn [String.eqb Ascii.eqb Bool.eqb] in H. apply bind_inv in H. destruct H as (i & Hx & H). apply bind_inv in H. destruct H as (j & Hy & H). apply pos_ok in Hx, Hy. destruct Hx as [Hx <-], Hy as [Hy <-]. split; apply nth_In; assumption.
  - destruct (String.eqb r "E"); apply bind_inv in H; destruct H as (i & Hx & H); apply bind_inv in H; destruct H as (j & Hy & H); exact (IH _ _ _ H a b v Hi).
Qed.
Lemma hmm_diagonal_keys d d' : map fst d = map fst d' -> hmm_diagonal d = hmm_diagonal d'.
Proof.
  revert d'. induction d as [|[k v] d IH]; intros [|[k' v'] d'] H; try discriminate; [reflexivity|]. cbn [map fst] in H. injection H as -> H. unfold hmm_diagonal. cbn [flat_map fst]. f_equal. exact (IH d' H).
Qed.
Lemma hmm_symbols_keys s d d' : map fst d = map fst d' -> hmm_symbols_of s d = hmm_symbols_of s d'.
Proof.
  revert d'. induction d as [|[k v] d IH]; intros [|[k' v'] d'] H; try discriminate; [reflexivity|]. cbn [map fst] in H. injection H as -> H. unfold hmm_symbols_of. cbn [flat_map fst]. f_equal. exact (IH d' H).
Qed.
Lemma hmm_diagonal_app d d' : hmm_diagonal (d ++ d') = hmm_diagonal d ++ hmm_diagonal d'.
Proof. apply flat_map_app. Qed.
Lemma hmm_symbols_app s d d' : hmm_symbols_of s (d ++ d') = hmm_symbols_of s d ++ hmm_symbols_of s d'.
Proof. apply flat_map_app. Qed.
Lemma diagonal_in a d : In a (hmm_diagonal d) -> In ["P"%string; a; a] (map fst d).
Proof.
  intros H. unfold hmm_diagonal in H. apply in_flat_map in H. destruct H as ([k v] & Hi & H). cbn [fst] in H. destruct k as [|r [|x [|y [|]]]]; try (destruct H; fail). destruct (String.eqb_spec r "P") as [->|]; [|destruct H]. destruct (String.eqb_spec x y) as [->|]; [|destruct H]. destruct H as [->|[]]. apply (in_fst _ _ v). exact Hi.
Qed.
Lemma diagonal_nodup d : NoDup (map fst d) -> NoDup (hmm_diagonal d).
Proof.
  intros HND. induction d as [|[k v] d IH]; [constructor|]. unfold hmm_diagonal. cbn [flat_map fst]. fold (hmm_diagonal d). cbn [map fst] in HND. inversion HND as [|? ? A1 A2]. subst. specialize (IH A2). destruct k as [|r [|a [|b [|]]]]; cbn [app]; auto.
  destruct (String.eqb_spec r "P") as [->|]; cbn [andb app]; auto. destruct (String.eqb_spec a b) as [->|]; cbn [app]; auto. constructor; [|exact IH]. intros C. apply A1. apply diagonal_in. exact C.
Qed.

Lemma flat_first {A} n (Hn : 0 < n) (f : nat -> list A) : flat_map f (seq 0 n) = f 0 ++ flat_map f (seq 1 (n - 1)).
Proof. destruct n as [|n]; [lia|]. cbn [seq flat_map Nat.sub]. rewrite Nat.sub_0_r. reflexivity. Qed.
Section Hmm.
Variable n k : nat.
Variable o : hobj.
Hypothesis HA : accepted_hmm n k o.
Notation st i := (nth i (ho_states o) EmptyString).
Notation sy j := (nth j (ho_symbols o) EmptyString).
Definition p_row (i : nat) : list (key * num) := map (fun j => (["P"%string; st i; st j], Fin (mget (ho_p o) i j))) (seq 0 n).
Definition e_row (i : nat) : list (key * num) := map (fun j => (["E"%string; st i; sy j], Fin (mget (ho_e o) i j))) (seq 0 k).
Definition hinit : list (key * num) := flat_map (fun i => p_row i ++ e_row i) (seq 0 (n - 1)) ++ p_row (n - 1).
Lemma hsizes : 2 <= n /\ 2 <= k /\ length (ho_states o) = n /\ length (ho_symbols o) = k /\ NoDup (ho_states o) /\ NoDup (ho_symbols o).
Proof. destruct HA as (Hn & Hk & _ & _ & _ & _ & _ & _ & (HL & HN & _) & (HK & HM & _) & _). auto 10. Qed.
Lemma hsplit : hmm_entries o = hinit ++ e_row (n - 1).
Proof.
  destruct hsizes as (Hn & Hk & HL & HK & _ & _). unfold hmm_entries. cbv zeta. rewrite HL, HK. unfold hinit. rewrite <- app_assoc. rewrite (flat_last n) by lia. reflexivity.
Qed.
Lemma hrow0 : exists rest, hmm_entries o = p_row 0 ++ rest.
Proof.
  destruct hsizes as (Hn & Hk & HL & HK & _ & _). unfold hmm_entries. cbv zeta. rewrite HL, HK. rewrite (flat_first n) by lia. rewrite <- app_assoc. eexists. reflexivity.
Qed.
Lemma p_row_length i : length (p_row i) = n.
Proof. unfold p_row. rewrite map_length, seq_length. reflexivity. Qed.
Lemma e_row_length i : length (e_row i) = k.
Proof. unfold e_row. rewrite map_length, seq_length. reflexivity. Qed.
Lemma hkeys_nodup : NoDup (map fst (hmm_entries o)).
Proof. destruct hsizes as (_ & _ & _ & _ & HN & HM). apply hmm_entries_nodup; assumption. Qed.
Lemma hinit_last : exists t, hinit = t ++ [(["P"%string; st (n - 1); st (n - 1)], Fin (mget (ho_p o) (n - 1) (n - 1)))].
Proof. destruct hsizes as (Hn & _). unfold hinit. unfold p_row at 2. rewrite (map_last n) by lia. rewrite app_assoc. eexists. reflexivity. Qed.
Lemma hmm_short d' m o' : map fst d' = map fst (firstn m (hmm_entries o)) -> hmm_of_dict d' = Ok o' -> length hinit <= m.
Proof.
  intros HK H. destruct (Nat.leb_spec (length hinit) m) as [L|Hm]; [exact L|]. exfalso. apply hmm_of_dict_ok in H. cbv zeta in H. destruct H as (L & _ & p & e & Hf & _).
  destruct hsizes as (Hn & Hk & HL & HKl & HN & HM). pose proof hkeys_nodup as HD. destruct hinit_last as (t & Ht).
  assert (Hlast : ~ In ["P"%string; st (n - 1); st (n - 1)] (map fst d')).
  { rewrite HK. intros C. rewrite hsplit, firstn_app in C. replace (m - length hinit) with 0 in C by lia. rewrite app_nil_r in C. rewrite Ht, app_length in Hm. cbn [length] in Hm. rewrite Ht, firstn_app in C. replace (m - length t) with 0 in C by lia. rewrite app_nil_r in C.
    rewrite hsplit, Ht, <- app_assoc, map_app in HD. cbn [map app fst] in HD. apply NoDup_remove_2 in HD. apply HD. apply in_app_iff. left. apply in_map_iff in C. destruct C as (e0 & E0 & C). rewrite <- E0. apply in_map. apply (in_firstn _ m). exact C. }
  destruct hrow0 as (rest & ER). destruct (Nat.ltb_spec m n) as [Hkn|Hkn].
  - assert (HK2 : map fst d' = map (fun j => ["P"%string; st 0; st j]) (firstn m (seq 0 n))).
    { rewrite HK, ER, firstn_app, p_row_length. replace (m - n) with 0 by lia. rewrite app_nil_r. unfold p_row. rewrite firstn_map, map_map. reflexivity. }
    assert (HS : forall s, In s (hmm_diagonal d') -> s = st 0).
    { intros s Hs. apply diagonal_in in Hs. rewrite HK2 in Hs. apply in_map_iff in Hs. destruct Hs as (j & E & _). congruence. }
    assert (HDN : NoDup (hmm_diagonal d')).
    { apply diagonal_nodup. rewrite HK. rewrite <- (firstn_skipn m (hmm_entries o)), map_app in HD. apply nodup_left in HD. exact HD. }
    destruct (hmm_diagonal d') as [|a [|b l]] eqn:ED; cbn [length] in L; try lia. inversion HDN as [|? ? A1 A2]. apply A1. left. rewrite (HS a), (HS b); [reflexivity|right; left; reflexivity|left; reflexivity].
  - assert (Hin : In (["P"%string; st 0; st (n - 1)]) (map fst d')).
    { rewrite HK, ER, firstn_app, p_row_length, map_app. apply in_app_iff. left. rewrite firstn_all2 by (rewrite p_row_length; lia). unfold p_row. rewrite map_map. apply in_map_iff. exists (n - 1). split; [reflexivity|]. apply in_seq. lia. }
    apply in_map_iff in Hin. destruct Hin as ([k' v] & E & Hin). cbn [fst] in E. subst k'. destruct (fill_hmm_known _ _ _ _ _ _ Hf _ _ _ Hin) as [_ Hb]. apply Hlast. apply diagonal_in. exact Hb.
Qed.
Lemma e_row_diagonal i : hmm_diagonal (e_row i) = [].
Proof. unfold e_row. induction (seq 0 k) as [|j l IH]; [reflexivity|]. cbn [map hmm_diagonal flat_map fst]. exact IH. Qed.
Lemma e_row_symbols : hmm_symbols_of (st 0) (e_row (n - 1)) = [].
Proof.
  destruct hsizes as (Hn & Hk & HL & HKl & HN & HM). unfold e_row. induction (seq 0 k) as [|j l IH]; [reflexivity|]. cbn [map hmm_symbols_of flat_map fst]. destruct (String.eqb_spec (st (n - 1)) (st 0)) as [E|]; [|exact IH].
  exfalso. rewrite NoDup_nth in HN. assert (n - 1 = 0) by (apply HN; [lia|lia|exact E]). lia.
Qed.
Lemma hmm_tail d' r o' : map fst d' = map fst (hinit ++ firstn r (e_row (n - 1))) -> hmm_of_dict d' = Ok o' ->
  exists P' E', o' = as_hmm_object (mkhobj P' E' (ho_states o) (ho_symbols o)) /\ wf n n P' /\ wf n k E' /\ nearly_stochastic n n P' /\ nearly_stochastic n k E' /\
    (forall i j, i < n -> j < n -> Fin (mget P' i j) = match lookup d' ["P"%string; st i; st j] with Some v => v | None => Fin 0 end) /\
    (forall i j, i < n -> j < k -> Fin (mget E' i j) = match lookup d' ["E"%string; st i; sy j] with Some v => v | None => Fin 0 end).
Proof.
  intros HK H. apply hmm_of_dict_ok in H. cbv zeta in H. destruct H as (_ & _ & p & e & Hf & Hs1 & Hs2 & ->). destruct hsizes as (Hn & Hk & HL & HKl & HN & HM). pose proof hkeys_nodup as HD.
  assert (Hsub : forall x, In x (map fst d') -> In x (map fst (hmm_entries o))).
  { intros x Hx. rewrite HK in Hx. rewrite hsplit. rewrite map_app in *. apply in_app_iff in Hx. apply in_app_iff. destruct Hx as [Hx|Hx]; [left; exact Hx|right]. rewrite <- firstn_map in Hx. apply (in_firstn _ r). exact Hx. }
  assert (Hdiag : hmm_diagonal d' = ho_states o).
  { rewrite (hmm_diagonal_keys _ _ HK). rewrite hmm_diagonal_app. rewrite <- (hmm_diagonal_entries o HN), hsplit, hmm_diagonal_app, e_row_diagonal. f_equal. destruct (hmm_diagonal (firstn r (e_row (n - 1)))) as [|a l] eqn:E; [reflexivity|]. exfalso.
    assert (Ha : In a (hmm_diagonal (firstn r (e_row (n - 1))))) by (rewrite E; left; reflexivity). apply diagonal_in in Ha. rewrite <- firstn_map in Ha. apply in_firstn in Ha. unfold e_row in Ha. rewrite map_map in Ha. apply in_map_iff in Ha. destruct Ha as (j & C & _). discriminate. }
  assert (Hsym : hmm_symbols_of (st 0) d' = ho_symbols o).
  { rewrite (hmm_symbols_keys _ _ _ HK). rewrite hmm_symbols_app. rewrite <- (hmm_symbols_entries o HN) by lia. rewrite hsplit, hmm_symbols_app, e_row_symbols. f_equal. pose proof e_row_symbols as ES. rewrite <- (firstn_skipn r (e_row (n - 1))), hmm_symbols_app in ES. apply app_eq_nil in ES. apply ES. }
  rewrite Hdiag, Hsym, HL, HKl in *.
  assert (HPK : hmm_keys (ho_states o) (ho_symbols o) d').
  { pose proof (hmm_keys_entries o) as Q. intros k1 v Hi. apply in_fst in Hi. apply Hsub in Hi. apply in_map_iff in Hi. destruct Hi as ([k2 v2] & E & Hi). cbn [fst] in E. subst k2. exact (Q _ _ Hi). }
  assert (HND : NoDup (map fst d')). { rewrite HK. rewrite <- (firstn_skipn r (e_row (n - 1))) in HD at 1 || idtac. rewrite hsplit in HD. rewrite <- (firstn_skipn r (e_row (n - 1))), app_assoc, map_app in HD. apply nodup_left in HD. exact HD. }
  destruct (fill_hmm_ok (ho_states o) (ho_symbols o) d' HN HM HPK HND (nzeros n n) (nzeros n k)) as (q & f & Hq & Sq & Sf & Gq & Gf); [rewrite HL; apply nzeros_shape|rewrite HL, HKl; apply nzeros_shape|]. rewrite Hf in Hq. injection Hq as <- <-. rewrite HL in *. rewrite HKl in *.
  assert (Gen : forall m (x : nmat), 0 < m -> shape n m x -> rows_sum_to_one x = true -> exists X, x = map (map Fin) X /\ wf n m X).
  { intros m x Hm Sx Hx. exists (mk n m (fun i j => match nget x i j with Fin y => y | _ => 0q end)). split; [|apply wf_mk]. apply (nmat_ext n m); [exact Sx|apply fin_shape; apply wf_mk|]. intros i j Hi Hj. rewrite (fin_get n m) by (auto; apply wf_mk). rewrite mget_mk by assumption.
    assert (Hr : In (nth i x []) x) by (apply nth_In; destruct Sx as [E _]; rewrite E; exact Hi). unfold rows_sum_to_one in Hx. rewrite forallb_forall in Hx. specialize (Hx _ Hr).
    assert (HF : is_fin (num_sum (nth i x [])) = true) by (destruct (num_sum (nth i x [])); [reflexivity|discriminate|discriminate|discriminate]).
    assert (Hxx : is_fin (nget x i j) = true) by (apply (num_sum_fin_all _ HF); unfold nget; apply nth_In; rewrite (proj2 Sx _ Hr); exact Hj).
    destruct (nget x i j); try discriminate. reflexivity. }
  destruct (Gen n p ltac:(lia) Sq Hs1) as (P' & -> & WP). destruct (Gen k e ltac:(lia) Sf Hs2) as (E' & -> & WE). exists P', E'. split; [reflexivity|]. split; [exact WP|]. split; [exact WE|]. split; [apply (rows_sum_fin n n P' WP); exact Hs1|]. split; [apply (rows_sum_fin n k E' WE); exact Hs2|]. split.
  - intros i j Hi Hj. rewrite <- (fin_get n n P') by assumption. rewrite Gq by assumption. destruct (lookup d' _); [reflexivity|apply nzeros_get; assumption].
  - intros i j Hi Hj. rewrite <- (fin_get n k E') by assumption. rewrite Gf by assumption. destruct (lookup d' _); [reflexivity|apply nzeros_get; assumption].
Qed.
Lemma in_hinit kv : In kv hinit <-> (exists i j, i < n /\ j < n /\ kv = (["P"%string; st i; st j], Fin (mget (ho_p o) i j))) \/ (exists i j, i < n - 1 /\ j < k /\ kv = (["E"%string; st i; sy j], Fin (mget (ho_e o) i j))).
Proof.
  destruct hsizes as (Hn & Hk & _). unfold hinit. rewrite in_app_iff, in_flat_map. split.
  - intros [(i & Hi & H)|H].
    + apply in_seq in Hi. apply in_app_iff in H. destruct H as [H|H]; apply in_map_iff in H; destruct H as (j & <- & Hj); apply in_seq in Hj; [left|right]; exists i, j; repeat split; lia.
    + apply in_map_iff in H. destruct H as (j & <- & Hj). apply in_seq in Hj. left. exists (n - 1), j. repeat split; lia.
  - intros [(i & j & Hi & Hj & ->)|(i & j & Hi & Hj & ->)].
    + destruct (Nat.eq_dec i (n - 1)) as [->|Hne]; [right|left; exists i; split; [apply in_seq; lia|]; apply in_app_iff; left]; apply in_map_iff; exists j; (split; [reflexivity|apply in_seq; lia]).
    + left. exists i. split; [apply in_seq; lia|]. apply in_app_iff. right. apply in_map_iff. exists j. split; [reflexivity|apply in_seq; lia].
Qed.
Lemma hmm_torn_tail tl r o' : map fst tl = map fst (firstn r (e_row (n - 1))) -> hmm_of_dict (hinit ++ tl) = Ok o' ->
  exists E', o' = as_hmm_object (mkhobj (ho_p o) E' (ho_states o) (ho_symbols o)) /\ wf n k E' /\ nearly_stochastic n k E' /\
    (forall i j, i < n - 1 -> j < k -> mget E' i j = mget (ho_e o) i j) /\ (forall j, j < k -> Fin (mget E' (n - 1) j) = match lookup (hinit ++ tl) ["E"%string; st (n - 1); sy j] with Some v => v | None => Fin 0 end).
Proof.
  intros HK H. assert (HK' : map fst (hinit ++ tl) = map fst (hinit ++ firstn r (e_row (n - 1)))) by (rewrite !map_app, HK; reflexivity).
  destruct (hmm_tail _ r o' HK' H) as (P' & E' & -> & WP & WE & _ & NE & GP & GE). destruct hsizes as (Hn & Hk & _).
  assert (HND : NoDup (map fst (hinit ++ tl))). { rewrite HK'. pose proof hkeys_nodup as HD. rewrite hsplit in HD. rewrite <- (firstn_skipn r (e_row (n - 1))), app_assoc, map_app in HD. apply nodup_left in HD. exact HD. }
  assert (HPP : P' = ho_p o).
  { destruct HA as (_ & _ & HW & _). apply (mat_ext n n); [exact WP|exact HW|]. intros i j Hi Hj. specialize (GP i j Hi Hj). rewrite (proj2 (lookup_in _ _ (Fin (mget (ho_p o) i j)) HND)) in GP; [congruence|]. apply in_app_iff. left. apply in_hinit. left. exists i, j. auto. }
  subst P'. exists E'. split; [reflexivity|]. split; [exact WE|]. split; [exact NE|]. split; [|intros j Hj; apply GE; [lia|exact Hj]].
  intros i j Hi Hj. specialize (GE i j ltac:(lia) Hj). rewrite (proj2 (lookup_in _ _ (Fin (mget (ho_e o) i j)) HND)) in GE; [congruence|]. apply in_app_iff. left. apply in_hinit. right. exists i, j. auto.
Qed.
End Hmm.
