(** L_Hmm2: prediction and simulation of hidden Markov models. *)
From Verif Require Export L_Hmm1.
From Coq Require Import Reals Lra.
Close Scope R_scope.
Open Scope nat_scope.
Open Scope res_scope.

(** ** argmax *)
Lemma argmax_from_spec : forall l pre b, let bi0 := length pre in
  forall bi, bi < length pre -> nth bi pre 0q = b -> (forall j, j < length pre -> (nth j pre 0q <= b)%Qc) ->
  (forall j, j < bi -> (nth j pre 0q < b)%Qc) ->
  let r := argmax_from l (length pre) bi b in
  r < length (pre ++ l) /\ (forall j, j < length (pre ++ l) -> (nth j (pre ++ l) 0q <= nth r (pre ++ l) 0q)%Qc) /\
  (forall j, j < r -> (nth j (pre ++ l) 0q < nth r (pre ++ l) 0q)%Qc).
Proof.
  induction l as [|x l IH]; intros pre b bi0 bi Hbi Hb Hle Hlt; cbn [argmax_from]; cbv zeta.
  - rewrite app_nil_r. split; [exact Hbi|]. rewrite Hb. split; assumption.
  - assert (El : length (pre ++ [x]) = S (length pre)) by (rewrite app_length; cbn; lia).
    replace (pre ++ x :: l) with ((pre ++ [x]) ++ l) by (rewrite <- app_assoc; reflexivity).
    assert (Ex : nth (length pre) (pre ++ [x]) 0q = x) by (rewrite app_nth2 by lia; rewrite Nat.sub_diag; reflexivity).
    assert (Ej : forall j, j < length pre -> nth j (pre ++ [x]) 0q = nth j pre 0q) by (intros; apply app_nth1; assumption).
    destruct (Qcltb b x) eqn:E.
    + apply Qcltb_lt in E. rewrite <- El. apply (IH (pre ++ [x]) x (length pre)); [lia|exact Ex| |].
      * intros j Hj. destruct (Nat.eq_dec j (length pre)) as [->|]; [rewrite Ex; apply Qcle_refl|].
        rewrite Ej by lia. specialize (Hle j ltac:(lia)). qclra.
      * intros j Hj. rewrite Ej by lia. specialize (Hle j ltac:(lia)). qclra.
    + apply Qcltb_ge in E. rewrite <- El. apply (IH (pre ++ [x]) b bi); [lia|rewrite Ej by exact Hbi; exact Hb| |].
      * intros j Hj. destruct (Nat.eq_dec j (length pre)) as [->|]; [rewrite Ex; exact E|]. rewrite Ej by lia. apply Hle. lia.
      * intros j Hj. rewrite Ej by lia. apply Hlt. exact Hj.
Qed.
Lemma argmax_spec : forall l, l <> [] -> argmax l < length l /\
  (forall j, j < length l -> (nth j l 0q <= nth (argmax l) l 0q)%Qc) /\
  (forall j, j < argmax l -> (nth j l 0q < nth (argmax l) l 0q)%Qc).
Proof.
  intros [|x l] H; [congruence|]. cbn [argmax]. apply (argmax_from_spec l [x] x 0); cbn; [lia|reflexivity| |intros; lia].
  intros j Hj. assert (j = 0) by lia. subst j. apply Qcle_refl.
Qed.
Lemma argmax_tab : forall n f, 0 < n -> argmax (tab n f) < n /\ forall j, j < n -> (f j <= f (argmax (tab n f)))%Qc.
Proof.
  intros n f Hn. assert (Hl : length (tab n f) = n) by apply tab_length.
  destruct (argmax_spec (tab n f)) as [A [B _]]; [intros E; rewrite E in Hl; cbn in Hl; lia|]. rewrite Hl in A, B.
  split; [exact A|]. intros j Hj. specialize (B j Hj). rewrite !tab_nth in B by assumption. exact B.
Qed.

(** ** maximum a posteriori *)
Lemma predict_map_spec : forall n k P E x obs, 0 < n -> hmm_ok n k P E x -> obs_ok k obs ->
  match predict_map P E x obs with
  | Some (lp, w) => lp = ln (Qc2R (likelihood n P E x obs)) /\ length w = length obs /\
      forall t, t < length obs -> nth t w 0 < n /\
        (forall i, i < n -> (posterior n P E x obs t i <= posterior n P E x obs t (nth t w 0%nat))%Qc) /\
        (forall i, i < nth t w 0 -> (posterior n P E x obs t i < posterior n P E x obs t (nth t w 0%nat))%Qc)
  | None => exists t, t < length obs /\ (likelihood n P E x (firstn (S t) obs) < tiny300 * likelihood n P E x (firstn t obs))%Qc
  end.
Proof.
  intros n k P E x obs Hn HM Ho. unfold predict_map. pose proof (decode_spec n k P E x obs true Hn HM Ho) as H.
  destruct (hmm_decode P E x obs true) as [d|]; [|exact H]. destruct H as [_ K].
  split; [apply (dk_log _ _ _ _ _ _ _ K)|]. split; [rewrite map_length; apply (dk_len _ _ _ _ _ _ _ K)|].
  intros t Ht. pose proof (dk_len _ _ _ _ _ _ _ K) as Hl.
  rewrite (nth_map_d argmax (d_post d) []) by (apply (Nat.lt_le_trans _ _ _ Ht); apply Nat.eq_le_incl; symmetry; exact Hl). set (c := nth t (d_post d) []).
  destruct (dk_dist _ _ _ _ _ _ _ K t Ht) as [Hc _]. fold c in Hc.
  destruct (argmax_spec c) as [A [B C]]; [intros Z; rewrite Z in Hc; cbn in Hc; lia|]. rewrite Hc in A, B.
  assert (V : forall i, i < n -> nth i c 0q = posterior n P E x obs t i) by (intros i Hi; apply (dk_post _ _ _ _ _ _ _ K t i Ht Hi)).
  split; [exact A|]. split.
  - intros i Hi. specialize (B i Hi). rewrite !V in B by assumption. exact B.
  - intros i Hi. specialize (C i Hi). rewrite !V in C by (first [exact A | apply (Nat.lt_trans _ _ _ Hi A)]). exact C.
Qed.

(** ** Viterbi *)
Section VIT.
Variables (n k : nat) (P E : mat).
Hypothesis Hn : 0 < n.
Hypothesis HP : stochastic n P.
Hypothesis HE : row_stochastic n k E.

Lemma vit_idx : forall (om : vec) j, let pr := vit_probs n P om j in argmax pr < n /\
  forall i, i < n -> (vget om i * mget P i j <= vget om (argmax pr) * mget P (argmax pr) j)%Qc.
Proof. intros om j. cbv zeta. unfold vit_probs. apply (argmax_tab n (fun i => (vget om i * mget P i j)%Qc) Hn). Qed.
Lemma vit_row_get : forall o (om : vec) j, j < n ->
  vget (vit_row n P E o om) j = (let i := argmax (vit_probs n P om j) in vget om i * mget P i j * mget E j o)%Qc.
Proof.
  intros o om j Hj. unfold vit_row. rewrite vget_tab by exact Hj. cbv zeta.
  destruct (vit_idx om j) as [A _]. cbv zeta in A. unfold vit_probs at 1. rewrite vget_tab by exact A. reflexivity.
Qed.
Lemma vit_row_nonneg : forall o (om : vec), o < k -> (forall i, i < n -> (0 <= vget om i)%Qc) -> forall j, j < n -> (0 <= vget (vit_row n P E o om) j)%Qc.
Proof.
  intros o om Ho H j Hj. rewrite vit_row_get by exact Hj. cbv zeta. destruct (vit_idx om j) as [A _].
  repeat apply Qc_mul_nonneg; [apply H; exact A|apply HP; assumption|apply HE; assumption].
Qed.
Lemma all_zero_spec : forall v, all_zero v = true <-> forall i, i < length v -> vget v i = 0q.
Proof.
  intros v. unfold all_zero. rewrite forallb_forall. split.
  - intros H i Hi. apply Qceqb_eq. apply H. apply nth_In. exact Hi.
  - intros H y Hy. destruct (In_nth _ _ 0q Hy) as [i [Hi <-]]. apply Qceqb_eq. apply H. exact Hi.
Qed.

Lemma joint_from_nonneg : forall obs, obs_ok k obs -> forall w i, i < n -> (forall s, In s w -> s < n) -> (0 <= joint_from P E i w obs)%Qc.
Proof.
  induction obs as [|o obs IH]; intros Ho w i Hi Hw; [destruct w; discriminate|].
  destruct w as [|s w]; [discriminate|]. cbn [joint_from]. assert (Hs : s < n) by (apply Hw; left; reflexivity).
  apply Qc_mul_nonneg; [apply Qc_mul_nonneg|].
  - apply HP; assumption.
  - apply HE; [exact Hs|apply Ho; left; reflexivity].
  - apply IH; [intros y Hy; apply Ho; right; exact Hy|exact Hs|intros y Hy; apply Hw; right; exact Hy].
Qed.

(** bound: no path beats the table *)
Lemma vit_bound : forall obs, obs_ok k obs -> forall (om o : vec) paths, (forall i, i < n -> (0 <= vget om i)%Qc) ->
  vit_loop n P E om obs = Some (o, paths) -> forall w i, i < n -> length w = length obs -> (forall s, In s w -> s < n) ->
  (vget om i * joint_from P E i w obs <= vget o (last w i))%Qc.
Proof.
  induction obs as [|y obs IH]; intros Ho om o paths Hom H w i Hi Hl Hw.
  - injection H as <- <-. destruct w; [|discriminate]. cbn. rewrite Qcmult_1_r. apply Qcle_refl.
  - destruct w as [|s w]; [discriminate|]. cbn [vit_loop] in H. destruct (all_zero (vit_row n P E y om)); [discriminate|].
    destruct (vit_loop n P E (vit_row n P E y om) obs) as [[o' paths']|] eqn:EL; [|discriminate]. injection H as <- <-.
    assert (Hs : s < n) by (apply Hw; left; reflexivity). assert (Hy : y < k) by (apply Ho; left; reflexivity).
    assert (Ho' : obs_ok k obs) by (intros z Hz; apply Ho; right; exact Hz).
    assert (Hw' : forall z, In z w -> z < n) by (intros z Hz; apply Hw; right; exact Hz).
    assert (B := IH Ho' (vit_row n P E y om) o' paths' (vit_row_nonneg y om Hy Hom) EL w s Hs ltac:(cbn in Hl; lia) Hw').
    replace (last (s :: w) i) with (last w s) by (destruct w as [|a w']; [reflexivity|]; cbn [last]; clear; revert a; induction w' as [|b w' IH]; intros a; [reflexivity|apply IH]).
    eapply Qcle_trans; [|exact B]. cbn [joint_from].
    replace (vget om i * (mget P i s * mget E s y * joint_from P E s w obs))%Qc with (vget om i * mget P i s * (mget E s y * joint_from P E s w obs))%Qc by ring.
    rewrite vit_row_get by exact Hs. cbv zeta. destruct (vit_idx om s) as [_ M]. cbv zeta in M.
    set (r := argmax (vit_probs n P om s)) in *.
    replace (vget om r * mget P r s * mget E s y * joint_from P E s w obs)%Qc with (vget om r * mget P r s * (mget E s y * joint_from P E s w obs))%Qc by ring.
    apply Qcmult_le_compat_r; [apply M; exact Hi|]. apply Qc_mul_nonneg; [apply HE; assumption|apply joint_from_nonneg; assumption].
Qed.
(** the backtracked path attains it *)
Lemma vit_attained : forall obs (om o : vec) paths, vit_loop n P E om obs = Some (o, paths) -> forall j, j < n ->
  length paths = length obs /\
  let st := vit_back paths j in length st = S (length obs) /\ (forall s, In s st -> s < n) /\ last st 0 = j /\
    vget o j = (vget om (hd 0%nat st) * joint_from P E (hd 0%nat st) (tl st) obs)%Qc.
Proof.
  induction obs as [|y obs IH]; intros om o paths H j Hj.
  - injection H as <- <-. split; [reflexivity|]. cbn. split; [reflexivity|]. split; [intros s [<-|[]]; exact Hj|]. split; [reflexivity|]. ring.
  - cbn [vit_loop] in H. destruct (all_zero (vit_row n P E y om)); [discriminate|].
    destruct (vit_loop n P E (vit_row n P E y om) obs) as [[o' paths']|] eqn:EL; [|discriminate]. injection H as <- <-.
    destruct (IH _ _ _ EL j Hj) as [L0 [A [B [C D]]]]. cbv zeta. cbn [vit_back]. set (st := vit_back paths' j) in *.
    destruct st as [|s st']; [cbn in A; lia|]. cbn [hd tl] in *. assert (Hs : s < n) by (apply B; left; reflexivity).
    unfold vit_path. rewrite tab_nth by exact Hs. destruct (vit_idx om s) as [Ai _]. cbv zeta in Ai.
    split; [cbn; lia|]. split; [cbn in *; lia|]. split; [intros z [<-|Hz]; [exact Ai|apply B; exact Hz]|]. split; [exact C|].
    rewrite D, vit_row_get by exact Hs. cbv zeta. cbn [joint_from]. ring.
Qed.
(** giving up means that every path has probability zero *)
Lemma vit_none : forall obs, obs_ok k obs -> forall (om : vec), (forall i, i < n -> (0 <= vget om i)%Qc) ->
  vit_loop n P E om obs = None -> forall w i, i < n -> length w = length obs -> (forall s, In s w -> s < n) ->
  (vget om i * joint_from P E i w obs = 0)%Qc.
Proof.
  induction obs as [|y obs IH]; intros Ho om Hom H w i Hi Hl Hw; [discriminate|].
  destruct w as [|s w]; [discriminate|]. cbn [vit_loop] in H.
  assert (Hs : s < n) by (apply Hw; left; reflexivity). assert (Hy : y < k) by (apply Ho; left; reflexivity).
  assert (Ho' : obs_ok k obs) by (intros z Hz; apply Ho; right; exact Hz).
  assert (Hw' : forall z, In z w -> z < n) by (intros z Hz; apply Hw; right; exact Hz).
  assert (Z : (vget (vit_row n P E y om) s * joint_from P E s w obs = 0)%Qc).
  { destruct (all_zero (vit_row n P E y om)) eqn:EZ.
    - rewrite (proj1 (all_zero_spec _) EZ s); [ring|]. unfold vit_row. rewrite tab_length. exact Hs.
    - destruct (vit_loop n P E (vit_row n P E y om) obs) as [[o' p']|] eqn:EL; [discriminate|].
      apply (IH Ho' _ (vit_row_nonneg y om Hy Hom) EL w s Hs); [cbn in Hl; lia|exact Hw']. }
  rewrite vit_row_get in Z by exact Hs. cbv zeta in Z. destruct (vit_idx om s) as [_ M]. cbv zeta in M.
  set (r := argmax (vit_probs n P om s)) in *. specialize (M i Hi). cbn [joint_from].
  assert (G : (0 <= mget E s y * joint_from P E s w obs)%Qc) by (apply Qc_mul_nonneg; [apply HE; assumption|apply joint_from_nonneg; assumption]).
  apply Qcle_antisym.
  - replace (vget om i * (mget P i s * mget E s y * joint_from P E s w obs))%Qc with (vget om i * mget P i s * (mget E s y * joint_from P E s w obs))%Qc by ring.
    apply Qcle_trans with (vget om r * mget P r s * (mget E s y * joint_from P E s w obs))%Qc; [apply Qcmult_le_compat_r; assumption|].
    replace (vget om r * mget P r s * (mget E s y * joint_from P E s w obs))%Qc with (vget om r * mget P r s * mget E s y * joint_from P E s w obs)%Qc by ring.
    rewrite Z. apply Qcle_refl.
  - apply Qc_mul_nonneg; [apply Hom; exact Hi|]. replace (mget P i s * mget E s y * joint_from P E s w obs)%Qc with (mget P i s * (mget E s y * joint_from P E s w obs))%Qc by ring.
    apply Qc_mul_nonneg; [apply HP; assumption|exact G].
Qed.
(** a table that was not given up is not all zero *)
Lemma vit_pos : forall obs (om o : vec) paths, vit_loop n P E om obs = Some (o, paths) -> obs <> [] -> all_zero o = false /\ length o = n.
Proof.
  induction obs as [|y obs IH]; intros om o paths H Hne; [congruence|]. cbn [vit_loop] in H.
  destruct (all_zero (vit_row n P E y om)) eqn:EZ; [discriminate|].
  destruct (vit_loop n P E (vit_row n P E y om) obs) as [[o' paths']|] eqn:EL; [|discriminate]. injection H as <- <-.
  destruct obs as [|z obs]; [cbn in EL; injection EL as <- <-; split; [exact EZ|apply tab_length]|].
  apply (IH _ _ _ EL). congruence.
Qed.

End VIT.

Lemma in_words : forall n k w, In w (words n k) <-> length w = k /\ (forall s, In s w -> s < n).
Proof.
  intros n k; induction k as [|k IH]; intros w; cbn [words].
  - split; [intros [<-|[]]; split; [reflexivity|intros s []]|intros [H _]; destruct w; [left; reflexivity|discriminate]].
  - rewrite in_flat_map. split.
    + intros [s [Hs H]]. apply in_map_iff in H. destruct H as [w' [<- Hw]]. apply IH in Hw. destruct Hw as [A B].
      apply in_seq in Hs. split; [cbn; lia|]. intros z [<-|Hz]; [lia|apply B; exact Hz].
    + intros [A B]. destruct w as [|s w]; [discriminate|]. exists s. split; [apply in_seq; split; [lia|]; apply B; left; reflexivity|].
      apply in_map. apply IH. split; [cbn in A; lia|intros z Hz; apply B; right; exact Hz].
Qed.

(** What the code maximises: the probability of a path with one more state in front
    that also emits the first symbol. *)

Lemma viterbi_spec : forall n k P E x obs, 0 < n -> hmm_ok n k P E x -> obs_ok k obs -> obs <> [] ->
  match viterbi P E x obs with
  | Ok (Some (v, w)) => (0 < v)%Qc /\ In w (words n (length obs)) /\
      (exists i, i < n /\ v = vit_score P E x obs i w) /\
      forall i w', i < n -> In w' (words n (length obs)) -> (vit_score P E x obs i w' <= v)%Qc
  | Ok None => forall i w', i < n -> In w' (words n (length obs)) -> vit_score P E x obs i w' = 0q
  | Err _ => False
  end.
Proof.
  intros n k P E x obs Hn [HP [HE HD]] Ho Hne. unfold viterbi. rewrite (st_rows n P HP). destruct obs as [|y obs]; [congruence|].
  set (O0 := tab n (fun i => (vget x i * mget E i y)%Qc)). set (ob := y :: obs) in *.
  assert (Hg : forall i, i < n -> vget O0 i = (vget x i * mget E i y)%Qc) by (intros; unfold O0; apply vget_tab; assumption).
  assert (Hnn : forall i, i < n -> (0 <= vget O0 i)%Qc).
  { intros i Hi. rewrite Hg by exact Hi. apply Qc_mul_nonneg; [apply HD; exact Hi|apply HE; [exact Hi|apply Ho; left; reflexivity]]. }
  assert (Hsc : forall i w, i < n -> vit_score P E x ob i w = (vget O0 i * joint_from P E i w ob)%Qc) by (intros i w Hi; rewrite Hg by exact Hi; reflexivity).
  destruct (all_zero O0) eqn:EZ.
  - intros i w Hi _. rewrite Hsc by exact Hi. rewrite (proj1 (all_zero_spec O0) EZ i); [ring|unfold O0; rewrite tab_length; exact Hi].
  - destruct (vit_loop n P E O0 ob) as [[o paths]|] eqn:EL.
    + destruct (vit_pos n P E ob O0 o paths EL ltac:(discriminate)) as [Hz Hlo].
      assert (Hon : o <> []) by (intros Z; rewrite Z in Hlo; cbn in Hlo; lia).
      destruct (argmax_spec o Hon) as [A [B _]]. rewrite Hlo in A, B. set (s := argmax o) in *. cbv zeta.
      destruct (vit_attained n P E Hn ob O0 o paths EL s A) as [L0 [C [D [F G]]]]. cbv zeta in *.
      destruct paths as [|r paths]; [discriminate|]. cbn [vit_back tl] in *. set (st := vit_back paths s) in *. cbn [hd tl] in *.
      assert (Hst : In st (words n (length ob))) by (apply in_words; split; [cbn [length] in C; lia|intros z Hz'; apply D; right; exact Hz']).
      assert (Hmax : forall i w', i < n -> In w' (words n (length ob)) -> (vit_score P E x ob i w' <= vget o s)%Qc).
      { intros i w' Hi Hw'. rewrite Hsc by exact Hi. apply in_words in Hw'. destruct Hw' as [W1 W2].
        eapply Qcle_trans; [eapply vit_bound; eassumption|]. apply B.
        destruct w' as [|a w']; [discriminate|]. assert (X : In (last (a :: w') i) (a :: w')).
        { clear. revert a; induction w' as [|b w' IH]; intros a; [left; reflexivity|]. right. apply IH. }
        apply W2. exact X. }
      split; [|split; [exact Hst|split; [|exact Hmax]]].
      * destruct (Qc_dec (vget o s) 0) as [[Hlt|Hgt]|Heq]; [| exact Hgt|].
        -- exfalso. specialize (Hmax (nth (hd 0 st) r 0) st (D _ (or_introl eq_refl)) Hst). rewrite Hsc in Hmax by (apply D; left; reflexivity).
           assert ((0 <= vget O0 (nth (hd 0%nat st) r 0%nat) * joint_from P E (nth (hd 0%nat st) r 0%nat) st ob)%Qc).
           { apply Qc_mul_nonneg; [apply Hnn; apply D; left; reflexivity|]. eapply joint_from_nonneg; [exact HP|exact HE|exact Ho|apply D; left; reflexivity|]. intros z Hz'. apply D. right. exact Hz'. }
           qclra.
        -- exfalso. assert (all_zero o = true); [|congruence]. apply all_zero_spec. intros i Hi. rewrite Hlo in Hi.
           destruct (vit_attained n P E Hn ob O0 o (r :: paths) EL i Hi) as [_ [C' [D' [F' G']]]]. cbv zeta in *.
           apply Qcle_antisym; [specialize (B i Hi); change (nth i o 0q) with (vget o i) in B; change (nth s o 0q) with (vget o s) in B; rewrite Heq in B; exact B|].
           rewrite G'. set (st' := vit_back (r :: paths) i) in *. destruct st' as [|a st'']; [discriminate C'|]. cbn [hd tl].
           apply Qc_mul_nonneg; [apply Hnn; apply D'; left; reflexivity|]. eapply joint_from_nonneg; [exact HP|exact HE|exact Ho|apply D'; left; reflexivity|]. intros z Hz'. apply D'. right. exact Hz'.
      * exists (nth (hd 0 st) r 0). split; [apply D; left; reflexivity|]. rewrite Hsc by (apply D; left; reflexivity). exact G.
    + intros i w Hi Hw. rewrite Hsc by exact Hi. apply in_words in Hw. destruct Hw as [W1 W2].
      eapply vit_none; eassumption.
Qed.

(** with a known initial state the path is a best one *)
Lemma viterbi_known_start : forall n k P E i obs v w, 0 < n -> hmm_ok n k P E (tab n (delta i)) -> i < n -> obs_ok k obs -> obs <> [] ->
  viterbi P E (tab n (delta i)) obs = Ok (Some (v, w)) ->
  best_path n P E (tab n (delta i)) obs w /\ v = (mget E i (hd 0%nat obs) * joint n P E (tab n (delta i)) w obs)%Qc.
Proof.
  intros n k P E i obs v w Hn HM Hi Ho Hne H. pose proof (viterbi_spec n k P E _ obs Hn HM Ho Hne) as S. rewrite H in S.
  destruct S as [Hv [Hw [[a [Ha Ev]] Hmax]]].
  assert (HJ : forall w', joint n P E (tab n (delta i)) w' obs = joint_from P E i w' obs).
  { intros w'. unfold joint. rewrite (sumn_single n _ i Hi).
    - rewrite vget_tab by exact Hi. rewrite delta_refl. ring.
    - intros j Hj Hji. rewrite vget_tab by exact Hj. rewrite delta_neq by congruence. ring. }
  assert (a = i).
  { destruct (Nat.eq_dec a i) as [|Hai]; [assumption|]. exfalso. unfold vit_score in Ev. rewrite vget_tab in Ev by exact Ha.
    rewrite delta_neq in Ev by congruence. rewrite Ev in Hv. replace (0q * mget E a (hd 0%nat obs) * joint_from P E a w obs)%Qc with 0q in Hv by ring. apply (Qclt_irr _ Hv). }
  subst a. assert (Es : forall w', vit_score P E (tab n (delta i)) obs i w' = (mget E i (hd 0%nat obs) * joint_from P E i w' obs)%Qc).
  { intros w'. unfold vit_score. rewrite vget_tab by exact Hi. rewrite delta_refl. ring. }
  rewrite Es in Ev. split; [|rewrite HJ; exact Ev]. split; [exact Hw|]. intros w' Hw'. rewrite !HJ.
  specialize (Hmax i w' Hi Hw'). rewrite Es, Ev in Hmax.
  destruct HM as [HP [HE _]].
  assert (He : (0 <= mget E i (hd 0%nat obs))%Qc) by (apply HE; [exact Hi|]; destruct obs; [congruence|]; apply Ho; left; reflexivity).
  assert (He' : (0 < mget E i (hd 0%nat obs))%Qc).
  { destruct (Qc_dec (mget E i (hd 0%nat obs)) 0) as [[C|C]|C]; [qclra|exact C|]. exfalso. rewrite Ev, C in Hv. replace (0 * joint_from P E i w obs)%Qc with 0q in Hv by ring. apply (Qclt_irr _ Hv). }
  apply Qcnot_lt_le. intros C. apply (Qcle_not_lt _ _ Hmax).
  rewrite !(Qcmult_comm (mget E i (hd 0%nat obs))). apply Qcmult_lt_compat_r; assumption.
Qed.

(** ** simulation *)
Lemma scan_down_spec : forall c u m, let r := scan_down c u m in r <= m /\ (forall j, r = S j -> (c j < u)%Qc) /\ (forall j, r <= j < m -> (u <= c j)%Qc).
Proof.
  intros c u m; induction m as [|m IH]; cbn [scan_down]; cbv zeta in *.
  - split; [lia|]. split; [discriminate|intros; lia].
  - destruct (Qcltb (c m) u) eqn:E.
    + apply Qcltb_lt in E. split; [lia|]. split; [intros j [= <-]; exact E|intros; lia].
    + apply Qcltb_ge in E. destruct IH as [A [B C]]. split; [lia|]. split; [exact B|]. intros j Hj.
      destruct (Nat.eq_dec j m) as [->|]; [exact E|apply C; lia].
Qed.
(** slot of a draw: open on the left, closed on the right *)
Lemma scan_slot : forall n w u, distribution n w -> (0 <= u)%Qc -> (u < 1q)%Qc ->
  let r := scan_down (cdf n w) u (n - 1) in
  r < n /\ (u <= sumn r (vget w) + vget w r)%Qc /\ ((sumn r (vget w) < u)%Qc \/ (r = 0 /\ u = 0q)).
Proof.
  intros n w u Hd H0 H1. cbv zeta. destruct (scan_down_spec (cdf n w) u (n - 1)) as [A [B C]]. set (r := scan_down (cdf n w) u (n - 1)) in *.
  assert (Hn : 0 < n) by (destruct n; [destruct Hd as [_ [_ Hs]]; discriminate|lia]).
  split; [lia|]. split.
  - change (sumn r (vget w) + vget w r)%Qc with (sumn (S r) (vget w)). destruct (Nat.eq_dec r (n - 1)) as [E|].
    + replace (S r) with n by lia. destruct Hd as [_ [_ Hs]]. change (fun i => vget w i) with (vget w) in Hs. rewrite Hs. apply Qclt_le_weak. exact H1.
    + rewrite <- (cdf_dist n w r Hd). apply C. lia.
  - destruct r as [|r'].
    + cbn [sumn]. destruct (Qc_dec u 0) as [[D|D]|D]; [qclra|left; exact D|right; split; [reflexivity|exact D]].
    + left. rewrite <- (cdf_dist n w r' Hd). apply B. reflexivity.
Qed.
Lemma scan_pos : forall n w u, distribution n w -> (0 <= u)%Qc -> (u < 1q)%Qc ->
  let r := scan_down (cdf n w) u (n - 1) in r < n /\ ((0 < vget w r)%Qc \/ (r = 0 /\ u = 0q)).
Proof.
  intros n w u Hd H0 H1. destruct (scan_slot n w u Hd H0 H1) as [A [B C]]. cbv zeta in *. split; [exact A|].
  destruct C as [C|C]; [left; qclra|right; exact C].
Qed.

Lemma erow_dist : forall n k E i, row_stochastic n k E -> i < n -> distribution k (row E i).
Proof.
  intros n k E i [Hw [Hp Hs]] Hi. split; [|split].
  - unfold row. destruct Hw as [Hl Hf]. apply Hf. apply nth_In. lia.
  - intros j Hj. apply (Hp i j Hi Hj).
  - apply (Hs i Hi).
Qed.

Lemma hsim_loop_spec : forall n k P E fs fy pr er, stochastic n P -> row_stochastic n k E -> unit_draws pr -> unit_draws er ->
  forall steps t cur, cur < n -> let l := hsim_loop n k P E fs fy pr er t steps cur in
  length l <= steps /\
  (forall q, q < length l -> step_ok n k P E (fst (nth q ((cur, 0) :: l) (0, 0))) (nth q l (0, 0)) (pr (t + q)) (er (t + q))) /\
  (forall q, S q < length l -> fs <> Some (fst (nth q l (0, 0))) /\ fy <> Some (snd (nth q l (0, 0)))) /\
  (length l = steps \/ (0 < length l /\ (fs = Some (fst (nth (length l - 1) l (0, 0))) \/ fy = Some (snd (nth (length l - 1) l (0, 0)))))).
Proof.
  intros n k P E fs fy pr er HP HE Hpr Her steps; induction steps as [|steps IH]; intros t cur Hc; cbn [hsim_loop]; cbv zeta.
  - split; [cbn; lia|]. split; [intros q Hq; cbn in Hq; lia|]. split; [intros q Hq; cbn in Hq; lia|left; reflexivity].
  - destruct (scan_pos n (row P cur) (pr t) (row_dist n P cur HP Hc) (proj1 (Hpr t)) (proj2 (Hpr t))) as [Hs1 Hs2].
    cbv zeta in *. set (s := scan_down (cdf n (row P cur)) (pr t) (n - 1)) in *.
    destruct (scan_pos k (row E s) (er t) (erow_dist n k E s HE Hs1) (proj1 (Her t)) (proj2 (Her t))) as [Hy1 Hy2].
    cbv zeta in *. set (y := scan_down (cdf k (row E s)) (er t) (k - 1)) in *.
    assert (Hok : step_ok n k P E cur (s, y) (pr t) (er t)) by (split; [exact Hs1|split; [exact Hy1|split; [exact Hs2|exact Hy2]]]).
    destruct (_ || _) eqn:EB.
    + cbn [length]. split; [lia|]. split; [|split].
      * intros q Hq. assert (q = 0) by lia. subst q. cbn. rewrite Nat.add_0_r. exact Hok.
      * intros; lia.
      * right. split; [lia|]. cbn. apply orb_true_iff in EB. destruct EB as [EB|EB]; [left; destruct fs|right; destruct fy]; try discriminate; apply Nat.eqb_eq in EB; congruence.
    + apply orb_false_iff in EB. destruct EB as [E1 E2]. specialize (IH (S t) s Hs1). cbv zeta in IH.
      set (l := hsim_loop n k P E fs fy pr er (S t) steps s) in *. destruct IH as [A [B [C D]]]. cbn [length].
      split; [lia|]. split; [|split].
      * intros q Hq. destruct q as [|q]; [cbn; rewrite Nat.add_0_r; exact Hok|].
        replace (t + S q) with (S t + q) by lia. specialize (B q ltac:(lia)). cbn [nth] in *. destruct q; exact B.
      * intros q Hq. destruct q as [|q].
        -- cbn. split; intros Z; [rewrite Z in E1|rewrite Z in E2]; rewrite Nat.eqb_refl in *; discriminate.
        -- cbn [nth]. apply C. lia.
      * destruct D as [D|[D1 D2]]; [left; lia|right]. split; [lia|]. replace (S (length l) - 1) with (S (length l - 1)) by lia. exact D2.
Qed.
