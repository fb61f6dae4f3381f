(** L_Gen4: proofs about lump and to_subchain. *)
From Verif Require Import S_Gen M_Generators S_Gen2 L_Gen1 L_Gen2 L_Gen3.
From Coq Require Import Sorted.

(** * lump *)

Lemma NoDup_concat_block (parts : list (list nat)) b : NoDup (concat parts) -> b < length parts -> NoDup (nth b parts []).
Proof.
  revert b; induction parts as [|B parts IH]; intros b H Hb; simpl in *; [lia|].
  destruct b as [|b].
  - clear - H. induction B as [|x B IH]; [constructor|]. simpl in H. inversion H; subst. constructor; [|auto].
    intros K; apply H2; apply in_or_app; left; exact K.
  - apply IH; [|lia]. clear - H. induction B as [|x B IH]; [exact H|]. simpl in H. inversion H; subst; auto.
Qed.
Lemma NoDup_concat_disj (parts : list (list nat)) b b' x : NoDup (concat parts) -> b < length parts -> b' < length parts ->
  In x (nth b parts []) -> In x (nth b' parts []) -> b = b'.
Proof.
  revert b b'; induction parts as [|B parts IH]; intros b b' H Hb Hb' H1 H2; simpl in *; [lia|].
  assert (Hc : NoDup (concat parts)).
  { clear - H. induction B as [|y B IH]; [exact H|]. simpl in H. inversion H; subst; auto. }
  assert (D : forall y, In y B -> ~ In y (concat parts)).
  { clear - H. induction B as [|y B IH]; intros z Hz; [contradiction|]. simpl in H. inversion H; subst.
    destruct Hz as [->|Hz]; [intros K; apply H2; apply in_or_app; right; exact K|auto]. }
  assert (I : forall k, k < length parts -> In x (nth k parts []) -> In x (concat parts)).
  { intros k Hk HI. apply in_concat. exists (nth k parts []). split; [apply nth_In; exact Hk|exact HI]. }
  destruct b as [|b], b' as [|b'].
  - reflexivity.
  - exfalso. apply (D x H1). apply (I b'); [lia|exact H2].
  - exfalso. apply (D x H2). apply (I b); [lia|exact H1].
  - f_equal. apply (IH b b'); try assumption; lia.
Qed.

Section Lump.
Variables (n : nat) (P : mat) (parts : list (list nat)).
Hypothesis Hn : 0 < n.
Hypothesis HW : wf n n P.
Hypothesis HB : blocks_of n parts.
Let m := length parts.
Let blk b := nth b parts [].
Let R := lump_r n parts.

Lemma lp_m : 0 < m.
Proof.
  unfold m. destruct parts as [|B l] eqn:E; [|simpl; lia]. destruct HB as [_ H]. destruct (proj2 (H 0) Hn).
Qed.
Lemma blk_nodup b : b < m -> NoDup (blk b). Proof. apply NoDup_concat_block, HB. Qed.
Lemma blk_lt b x : b < m -> In x (blk b) -> x < n.
Proof. intros Hb Hx. apply HB. apply in_concat. exists (blk b). split; [apply nth_In; exact Hb|exact Hx]. Qed.
Lemma blk_disj b b' x : b < m -> b' < m -> In x (blk b) -> In x (blk b') -> b = b'.
Proof. apply NoDup_concat_disj, HB. Qed.
Lemma blk_cover x : x < n -> exists b, b < m /\ In x (blk b).
Proof.
  intros Hx. apply HB in Hx. apply in_concat in Hx. destruct Hx as (B & H1 & H2).
  apply In_nth with (d := []) in H1. destruct H1 as (b & Hb & <-). exists b. auto.
Qed.
Lemma R_wf : wf n m R. Proof. apply wf_mk. Qed.
Lemma R_get s b : s < n -> b < m -> mget R s b = if memn s (blk b) then 1q else 0q.
Proof. intros; apply mget_mk; assumption. Qed.
Lemma sum_R b f : b < m -> sumn n (fun s => mget R s b * f s)%Qc = lsum (map f (blk b)).
Proof.
  intros Hb. rewrite (lsum_map_indicator n) by (try apply blk_nodup; try (intros x; apply blk_lt); assumption).
  apply sumn_ext. intros s Hs. rewrite R_get by assumption. destruct (memn s (blk b)); ring.
Qed.
Lemma sum_R' b f : b < m -> sumn n (fun s => f s * mget R s b)%Qc = lsum (map f (blk b)).
Proof. intros Hb. rewrite <- sum_R by exact Hb. apply sumn_ext; intros; ring. Qed.
Lemma lsum_const c (l : list nat) : lsum (map (fun _ => c) l) = (Qcn (length l) * c)%Qc.
Proof. induction l as [|x l IH]; simpl; [rewrite Qcn_0; ring|]. rewrite IH, Qcn_S. ring. Qed.

Let G := mmul (transpose R) R.
Lemma G_wf : wf m m G.
Proof. apply (wf_mmul m n m); [exact Hn| |apply R_wf]. apply wf_transpose; [exact Hn|apply R_wf]. Qed.
Lemma G_get b b' : b < m -> b' < m -> mget G b b' = (delta b b' * Qcn (length (blk b)))%Qc.
Proof.
  intros Hb Hb'. unfold G. rewrite (mget_mmul m n m) by (try (apply wf_transpose); try apply R_wf; assumption).
  rewrite (sumn_ext n _ (fun s => mget R s b * mget R s b')%Qc).
  2:{ intros s Hs. rewrite (mget_transpose n m) by (try apply R_wf; assumption). reflexivity. }
  rewrite sum_R by exact Hb.
  rewrite (lsum_map_ext _ (fun _ => delta b b')).
  - rewrite lsum_const. ring.
  - intros s Hs. rewrite R_get by (try exact (blk_lt b s Hb Hs); assumption). unfold delta.
    destruct (Nat.eqb_spec b b') as [->|Hne].
    + rewrite (proj2 (memn_In s (blk b')) Hs). reflexivity.
    + destruct (memn s (blk b')) eqn:M; [|reflexivity]. apply memn_In in M. exfalso. apply Hne. eapply blk_disj; eassumption.
Qed.

Lemma G_nonsingular : nonsingular m G <-> forall b, b < m -> blk b <> [].
Proof.
  split.
  - intros HN b Hb E. assert (X : delta b b = 0q); [|rewrite delta_refl in X; discriminate].
    apply (HN (delta b)); [|exact Hb]. intros i Hi. apply sumn_0. intros j Hj. rewrite G_get by assumption.
    unfold delta. destruct (Nat.eqb_spec i j) as [->|]; [|ring]. destruct (Nat.eqb_spec b j) as [->|]; [|ring].
    rewrite E. cbn [length]. rewrite Qcn_0. ring.
  - intros H z Hz j Hj. specialize (Hz j Hj).
    rewrite (sumn_ext m _ (fun k => delta j k * (Qcn (length (blk j)) * z k))%Qc) in Hz by (intros; rewrite G_get by assumption; ring).
    rewrite sumn_delta_l in Hz by exact Hj. apply Qc_integral in Hz. destruct Hz as [Hz|Hz]; [|exact Hz].
    exfalso. specialize (H j Hj). destruct (blk j) eqn:E; [congruence|]. revert Hz. apply Qc_lt_neq, Qcn_pos. simpl; lia.
Qed.

Hypothesis Hne : forall b, b < m -> blk b <> [].
Lemma card_ne0 b : b < m -> Qcn (length (blk b)) <> 0q.
Proof. intros Hb. specialize (Hne b Hb). destruct (blk b); [congruence|]. apply Qc_lt_neq, Qcn_pos. simpl; lia. Qed.

Variable iv : mat.
Hypothesis Hiv : minv G = Some iv.
Lemma iv_wf : wf m m iv. Proof. apply (minv_spec m G iv lp_m G_wf Hiv). Qed.
Lemma iv_get b b' : b < m -> b' < m -> mget iv b b' = (delta b b' / Qcn (length (blk b)))%Qc.
Proof.
  intros Hb Hb'. destruct (minv_spec m G iv lp_m G_wf Hiv) as (W & _ & E & _).
  assert (F : mget (mmul G iv) b b' = delta b b') by (rewrite E; apply mget_eye; assumption).
  rewrite (mget_mmul m m m) in F by (try apply G_wf; try apply lp_m; assumption).
  rewrite (sumn_ext m _ (fun k => delta b k * (Qcn (length (blk b)) * mget iv k b'))%Qc) in F by (intros; rewrite G_get by assumption; ring).
  rewrite sumn_delta_l in F by exact Hb. rewrite <- F. field. apply card_ne0; exact Hb.
Qed.
Let K := mmul iv (transpose R).
Lemma K_wf : wf m n K.
Proof. apply (wf_mmul m m n); [apply lp_m|apply iv_wf|]. apply wf_transpose; [exact Hn|apply R_wf]. Qed.
Lemma K_get b s : b < m -> s < n -> mget K b s = (mget R s b / Qcn (length (blk b)))%Qc.
Proof.
  intros Hb Hs. unfold K. rewrite (mget_mmul m m n); [|apply iv_wf|apply wf_transpose; [exact Hn|apply R_wf]|apply lp_m|assumption|assumption].
  rewrite (sumn_ext m _ (fun k => delta b k * (mget R s k / Qcn (length (blk b))))%Qc).
  - rewrite sumn_delta_l by exact Hb. reflexivity.
  - intros k Hk. rewrite iv_get, (mget_transpose n m) by (try apply R_wf; assumption). unfold Qcdiv; ring.
Qed.
(* average over a block *)
Definition avg (b : nat) (f : nat -> Qc) : Qc := (lsum (map f (blk b)) / Qcn (length (blk b)))%Qc.
Lemma KPR_get b b' : b < m -> b' < m -> mget (mmul (mmul K P) R) b b' = avg b (fun s => into P s (blk b')).
Proof.
  intros Hb Hb'. rewrite (mget_mmul m n m); [|apply (wf_mmul m n n); [exact Hn|apply K_wf|exact HW]|apply R_wf|exact Hn|assumption|assumption].
  rewrite sum_R' by exact Hb'.
  rewrite (lsum_map_ext _ (fun t => lsum (map (fun s => mget P s t) (blk b)) / Qcn (length (blk b)))%Qc).
  2:{ intros t Ht. rewrite (mget_mmul m n n); [|apply K_wf|exact HW|exact Hn|assumption|exact (blk_lt b' t Hb' Ht)].
      rewrite <- sum_R by exact Hb. rewrite <- sumn_div. apply sumn_ext. intros s Hs. rewrite K_get by assumption. unfold Qcdiv; ring. }
  unfold avg, into.
  transitivity (lsum (map (fun t => lsum (map (fun s => mget P s t) (blk b)) * / Qcn (length (blk b)))%Qc (blk b'))); [reflexivity|].
  rewrite lsum_map_mul_r. unfold Qcdiv. f_equal.
  generalize (blk b') as l'. intros l'. clear. induction (blk b) as [|s l IH]; simpl.
  - apply lsum_map_0; reflexivity.
  - rewrite lsum_map_plus, IH. reflexivity.
Qed.
Lemma PR_get s b' : s < n -> b' < m -> mget (mmul P R) s b' = into P s (blk b').
Proof.
  intros Hs Hb'. rewrite (mget_mmul n n m) by (try apply R_wf; assumption). rewrite sum_R' by exact Hb'. reflexivity.
Qed.
Lemma RKPR_get s b b' : b < m -> b' < m -> In s (blk b) -> mget (mmul (mmul (mmul R K) P) R) s b' = avg b (fun s => into P s (blk b')).
Proof.
  intros Hb Hb' Hs. assert (Hsn := blk_lt b s Hb Hs).
  assert (WKP : wf m n (mmul K P)) by (apply (wf_mmul m n n); [exact Hn|apply K_wf|exact HW]).
  rewrite (mmul_assoc n m n n R K P lp_m Hn R_wf K_wf HW).
  rewrite (mmul_assoc n m n m R (mmul K P) R lp_m Hn R_wf WKP R_wf).
  rewrite (mget_mmul n m m); [|apply R_wf|apply (wf_mmul m n m); [exact Hn|exact WKP|apply R_wf]|apply lp_m|assumption|assumption].
  rewrite (sumn_single m _ b Hb).
  - rewrite R_get, (proj2 (memn_In s (blk b)) Hs), KPR_get by assumption. ring.
  - intros i Hi Hib. rewrite R_get by assumption. destruct (memn s (blk i)) eqn:M; [|ring].
    apply memn_In in M. exfalso; apply Hib. eapply blk_disj; eassumption.
Qed.
Lemma avg_const b f c : b < m -> (forall s, In s (blk b) -> f s = c) -> avg b f = c.
Proof.
  intros Hb H. unfold avg. rewrite (lsum_map_ext _ (fun _ => c)) by exact H. rewrite lsum_const. field. apply card_ne0; exact Hb.
Qed.
Lemma eq_lumpable : mmul (mmul (mmul R K) P) R = mmul P R <-> lumpable P parts.
Proof.
  split.
  - intros E B B' H H' s t Hs Ht. apply In_nth with (d := []) in H, H'. destruct H as (b & Hb & <-), H' as (b' & Hb' & <-).
    change (nth b parts []) with (blk b) in *. change (nth b' parts []) with (blk b') in *. fold m in Hb, Hb'.
    rewrite <- (PR_get s b' (blk_lt b s Hb Hs) Hb'), <- (PR_get t b' (blk_lt b t Hb Ht) Hb'), <- E.
    rewrite (RKPR_get s b b'), (RKPR_get t b b') by assumption. reflexivity.
  - intros L. apply (mat_ext n m).
    + apply (wf_mmul n n m); [exact Hn| |apply R_wf]. apply (wf_mmul n n n); [exact Hn| |exact HW]. apply (wf_mmul n m n); [apply lp_m|apply R_wf|apply K_wf].
    + apply (wf_mmul n n m); [exact Hn|exact HW|apply R_wf].
    + intros s b' Hs Hb'. destruct (blk_cover s Hs) as (b & Hb & Hsb).
      rewrite (RKPR_get s b b'), PR_get by assumption. apply avg_const; [exact Hb|].
      intros t Ht. apply (L (blk b) (blk b')); try assumption; apply nth_In; assumption.
Qed.
Lemma lumped_get b b' s : lumpable P parts -> b < m -> b' < m -> In s (blk b) -> mget (mmul (mmul K P) R) b b' = into P s (blk b').
Proof.
  intros L Hb Hb' Hs. rewrite KPR_get by assumption. apply avg_const; [exact Hb|]. intros t Ht.
  apply (L (blk b) (blk b')); try assumption; apply nth_In; assumption.
Qed.
End Lump.

Lemma sum_blocks (f : nat -> Qc) parts : lsum (map f (concat parts)) = sumn (length parts) (fun b => lsum (map f (nth b parts []))).
Proof.
  induction parts as [|B parts IH]; [reflexivity|]. cbn [concat length]. rewrite sumn_S_front, map_app, lsum_app, IH. reflexivity.
Qed.

Lemma mc_lump_spec n p states parts : 0 < n -> wf n n p -> blocks_of n parts ->
  ((exists r, mc_lump p states parts = Ok r) <-> (forall B, In B parts -> B <> []) /\ lumpable p parts) /\
  (forall q names, mc_lump p states parts = Ok (q, names) ->
     wf (length parts) (length parts) q /\
     names = map (fun part => String.concat "," (map (fun s => nth s states ""%string) part)) parts /\
     forall b b' s, b < length parts -> b' < length parts -> In s (nth b parts []) -> mget q b b' = into p s (nth b' parts [])).
Proof.
  intros Hn HW HB. assert (NE : (forall B, In B parts -> B <> []) <-> forall b, b < length parts -> nth b parts [] <> []).
  { split; [intros H b Hb; apply H, nth_In, Hb|]. intros H B HIn. apply In_nth with (d := []) in HIn. destruct HIn as (b & Hb & <-). apply H; exact Hb. }
  unfold mc_lump. rewrite (wf_nrows _ _ _ HW).
  destruct (minv (mmul (transpose (lump_r n parts)) (lump_r n parts))) as [iv|] eqn:E.
  - assert (NS : nonsingular (length parts) (mmul (transpose (lump_r n parts)) (lump_r n parts))).
    { apply (minv_spec _ _ iv); [exact (lp_m n parts Hn HB)|exact (G_wf n parts Hn)|exact E]. }
    pose proof (proj1 (G_nonsingular n parts Hn HB) NS) as NS'. clear NS. rename NS' into NS.
    assert (L := eq_lumpable n p parts Hn HW HB NS iv E).
    split.
    + split.
      * intros (r & Hr). split; [apply NE; exact NS|]. apply L.
        destruct (meqb _ _) eqn:M in Hr; [|discriminate]. apply meqb_eq in M. exact M.
      * intros [_ HL]. apply L in HL. rewrite (proj2 (meqb_eq _ _) HL). eexists; reflexivity.
    + intros q names H. destruct (meqb _ _) eqn:M in H; [|discriminate]. inversion H; subst. apply meqb_eq, L in M.
      split; [|split; [reflexivity|]].
      * apply (wf_mmul _ n _); [exact Hn| |apply wf_mk]. apply (wf_mmul _ n n); [exact Hn| |exact HW].
        exact (K_wf n parts Hn HB iv E).
      * intros b b' s Hb Hb' Hs. exact (lumped_get n p parts Hn HW HB NS iv E b b' s M Hb Hb' Hs).
  - split.
    + split; [intros (r & Hr); discriminate|]. intros [H _]. exfalso.
      assert (NS := proj2 (G_nonsingular n parts Hn HB) (proj1 NE H)).
      destruct (minv_complete _ _ (lp_m n parts Hn HB) (G_wf n parts Hn) NS) as (X & HX). congruence.
    + intros; discriminate.
Qed.

Lemma lump_iff n c parts : valid_chain n c -> 3 <= n -> blocks_of n parts ->
  ((exists r, lump_typed c parts = Ok r) <-> (forall B, In B parts -> B <> []) /\ lumpable (ch_p c) parts).
Proof.
  intros V N3 HB. unfold lump_typed. rewrite (valid_size n c V). destruct (Nat.eqb_spec n 2); [lia|]. cbn [negb].
  destruct V as (N & (W & P & R) & NM). destruct (mc_lump_spec n (ch_p c) (ch_states c) parts ltac:(lia) W HB) as [I _].
  rewrite <- I. split.
  - intros (r & Hr). destruct (mc_lump _ _ _) as [q|]; [|discriminate]. eexists; reflexivity.
  - intros (r & ->). eexists; reflexivity.
Qed.
Lemma lump_result n c parts r : valid_chain n c -> blocks_of n parts -> lump_typed c parts = Ok r ->
  stochastic (length parts) (ch_p r) /\
  ch_states r = map (fun part => String.concat "," (map (fun s => nth s (ch_states c) ""%string) part)) parts /\
  forall b b' s, b < length parts -> b' < length parts -> In s (nth b parts []) -> mget (ch_p r) b b' = into (ch_p c) s (nth b' parts []).
Proof.
  intros V HB H. unfold lump_typed in H. destruct (negb (Nat.eqb (ch_size c) 2)); [|discriminate].
  destruct (mc_lump (ch_p c) (ch_states c) parts) as [(q, names)|] eqn:E; [|discriminate]. cbn [bind fst snd] in H. inversion H; subst r; clear H.
  cbn [ch_p ch_states]. destruct V as (N & (W & P & R) & NM).
  destruct (mc_lump_spec n (ch_p c) (ch_states c) parts ltac:(lia) W HB) as [I S].
  destruct (proj1 I (ex_intro _ _ E)) as [NE _]. destruct (S q names E) as (WQ & NMS & Q). split; [|split; [exact NMS|exact Q]].
  assert (Pick : forall b, b < length parts -> exists s, In s (nth b parts []) /\ s < n).
  { intros b Hb. assert (H := NE (nth b parts []) (nth_In _ _ Hb)). destruct (nth b parts []) as [|s l] eqn:Eb; [congruence|].
    exists s. split; [left; reflexivity|]. apply HB. apply in_concat. exists (nth b parts []). split; [apply nth_In; exact Hb|rewrite Eb; left; reflexivity]. }
  assert (BL : forall b x, b < length parts -> In x (nth b parts []) -> x < n).
  { intros b x Hb Hx. apply HB. apply in_concat. exists (nth b parts []). split; [apply nth_In; exact Hb|exact Hx]. }
  split; [exact WQ|]. split.
  - intros b b' Hb Hb'. destruct (Pick b Hb) as (s & Hs & Hsn). rewrite (Q b b' s Hb Hb' Hs). unfold into. apply lsum_nonneg.
    intros y Hy. apply in_map_iff in Hy. destruct Hy as (t & <- & Ht). apply P; [exact Hsn|apply (BL b'); assumption].
  - intros b Hb. destruct (Pick b Hb) as (s & Hs & Hsn).
    rewrite (sumn_ext _ _ (fun b' => lsum (map (fun t => mget (ch_p c) s t) (nth b' parts []))))
      by (intros b' Hb'; rewrite (Q b b' s Hb Hb' Hs); reflexivity).
    rewrite <- sum_blocks. destruct HB as [ND CV]. rewrite (lsum_map_indicator n) by (try exact ND; intros x; apply CV).
    rewrite <- (R s Hsn). apply sumn_ext. intros t Ht. rewrite (proj2 (memn_In t (concat parts)) (proj2 (CV t) Ht)). reflexivity.
Qed.

(** * to_subchain *)
Lemma nth_set_nth {A} (l : list A) i x k d : i < length l -> nth k (set_nth l i x) d = if Nat.eqb k i then x else nth k l d.
Proof.
  revert i k; induction l as [|a l IH]; intros i k Hi; simpl in Hi; [lia|].
  destruct i as [|i]; unfold set_nth; simpl.
  - destruct k; reflexivity.
  - destruct k as [|k]; [reflexivity|]. simpl. apply (IH i k). lia.
Qed.
Lemma length_set_nth {A} (l : list A) i x : length (set_nth l i x) = length l.
Proof.
  revert i; induction l as [|a l IH]; intros i; unfold set_nth; simpl.
  - destruct i; reflexivity.
  - destruct i as [|i]; simpl; [reflexivity|]. f_equal. apply (IH i).
Qed.

Section Closure.
Variables (n : nat).
Definition bwf (C : list (list bool)) := length C = n /\ forall i, i < n -> length (nth i C []) = n.

Lemma sub_row_get C i j a x : bwf C -> j < n -> x < n ->
  bget (sub_row n i j C) a x = if Nat.eqb a j then bget C j x || (bget C j i && bget C i x) else bget C a x.
Proof.
  intros [L _] Hj Hx. unfold bget at 1. unfold sub_row. rewrite nth_set_nth by lia.
  destruct (Nat.eqb a j); [|reflexivity]. rewrite tab_nth by exact Hx. reflexivity.
Qed.
Lemma sub_row_wf C i j : bwf C -> j < n -> bwf (sub_row n i j C).
Proof.
  intros [L W] Hj. unfold sub_row. split; [rewrite length_set_nth; exact L|].
  intros a Ha. rewrite nth_set_nth by lia. destruct (Nat.eqb a j); [apply tab_length|apply W; exact Ha].
Qed.
Lemma pass_get C i k : bwf C -> i < n -> k <= n ->
  bwf (fold_left (fun c j => sub_row n i j c) (seq 0 k) C) /\
  forall a x, a < n -> x < n -> bget (fold_left (fun c j => sub_row n i j c) (seq 0 k) C) a x
    = if Nat.ltb a k then bget C a x || (bget C a i && bget C i x) else bget C a x.
Proof.
  intros W Hi. induction k as [|k IH]; intros Hk.
  - split; [exact W|]. intros a x Ha Hx. reflexivity.
  - rewrite seq_S, fold_left_app. cbn [fold_left]. destruct (IH ltac:(lia)) as [W' E]. set (D := fold_left _ (seq 0 k) C) in *.
    cbn [Nat.add]. split; [apply sub_row_wf; [exact W'|lia]|]. intros a x Ha Hx.
    rewrite sub_row_get by (try assumption; lia).
    destruct (Nat.eqb_spec a k) as [->|Hne].
    + rewrite !E by (try assumption; lia). destruct (Nat.ltb_spec k k); [lia|]. destruct (Nat.ltb_spec k (S k)); [|lia].
      destruct (Nat.ltb_spec i k); [|reflexivity].
      destruct (bget C i x), (bget C k i), (bget C k x), (bget C i i); reflexivity.
    + rewrite E by assumption. destruct (Nat.ltb_spec a k); destruct (Nat.ltb_spec a (S k)); try reflexivity; lia.
Qed.

Definition transk (C : list (list bool)) (k : nat) : Prop :=
  forall i j x, i < k -> i < n -> j < n -> x < n -> bget C j i = true -> bget C i x = true -> bget C j x = true.
Variable E : nat -> nat -> Prop.
Definition soundc (C : list (list bool)) : Prop :=
  forall j x, j < n -> x < n -> bget C j x = true -> exists k, walk n E (S k) j x.

Lemma walk_app k l i j x : walk n E k i j -> walk n E l j x -> walk n E (k + l) i x.
Proof. induction 1; intros HW2; [exact HW2|]. simpl. econstructor; eauto. Qed.
Lemma walk_bounds k i j : walk n E k i j -> i < n /\ j < n.
Proof. induction 1; [auto|]. tauto. Qed.

Lemma closure_inv adj k : bwf adj -> k <= n ->
  (forall j x, j < n -> x < n -> bget adj j x = true <-> E j x) ->
  let C := fold_left (fun c i => fold_left (fun c j => sub_row n i j c) (seq 0 n) c) (seq 0 k) adj in
  bwf C /\ (forall j x, j < n -> x < n -> E j x -> bget C j x = true) /\ transk C k /\ soundc C.
Proof.
  intros W Hk HE. induction k as [|k IH]; cbv zeta.
  - split; [exact W|]. split; [intros j x Hj Hx; apply HE; assumption|]. split; [intros i j x Hi; lia|].
    intros j x Hj Hx H. exists 0. apply (walk_cons n E 0 j x x Hj Hx); [apply HE; assumption|constructor; assumption].
  - rewrite seq_S, fold_left_app. cbn [fold_left Nat.add]. destruct (IH ltac:(lia)) as (WC & CE & CT & CS).
    set (C := fold_left _ (seq 0 k) adj) in *. destruct (pass_get C k n WC ltac:(lia) ltac:(lia)) as [WD DG].
    set (D := fold_left _ (seq 0 n) C) in *.
    assert (DG' : forall a x, a < n -> x < n -> bget D a x = bget C a x || (bget C a k && bget C k x)).
    { intros a x Ha Hx. rewrite DG by assumption. destruct (Nat.ltb_spec a n); [reflexivity|lia]. }
    split; [exact WD|]. split; [|split].
    + intros j x Hj Hx HEjx. rewrite DG' by assumption. rewrite CE by assumption. reflexivity.
    + intros i j x Hi Hin Hj Hx H1 H2. rewrite DG' in * by (try assumption; lia).
      apply orb_true_iff in H1, H2. rewrite !andb_true_iff in H1, H2. apply orb_true_iff. rewrite andb_true_iff.
      destruct (Nat.eq_dec i k) as [->|Hik].
      * right. destruct H1 as [H1|[H1 _]], H2 as [H2|[_ H2]]; auto.
      * assert (i < k) by lia. destruct H1 as [H1|[H1a H1b]], H2 as [H2|[H2a H2b]].
        -- left. apply (CT i); auto.
        -- right. split; [apply (CT i); auto; lia|exact H2b].
        -- right. split; [exact H1a|]. apply (CT i); auto; lia.
        -- right. split; assumption.
    + intros j x Hj Hx H. rewrite DG' in H by assumption. apply orb_true_iff in H. destruct H as [H|H]; [apply CS; assumption|].
      apply andb_true_iff in H. destruct H as [H1 H2]. apply CS in H1, H2; try assumption; try lia.
      destruct H1 as (k1 & H1), H2 as (k2 & H2). exists (k1 + S k2).
      change (S (k1 + S k2)) with (S k1 + S k2). eapply walk_app; eassumption.
Qed.

Lemma closure_spec adj : bwf adj -> (forall j x, j < n -> x < n -> bget adj j x = true <-> E j x) ->
  forall j x, j < n -> x < n -> bget (sub_closure n adj) j x = true <-> exists k, walk n E (S k) j x.
Proof.
  intros W HE j x Hj Hx. destruct (closure_inv adj n W (le_n _) HE) as (WC & CE & CT & CS). fold (sub_closure n adj) in *.
  split; [apply CS; assumption|]. intros (k & Hw). revert j Hj Hw. induction k as [|k IH]; intros j Hj Hw.
  - inversion Hw as [|? ? y ? H1 H2 H3 H4]; subst. inversion H4; subst. apply CE; assumption.
  - inversion Hw as [|? ? y ? H1 H2 H3 H4]; subst. apply (CT y); try assumption. + apply CE; assumption. + apply IH; assumption.
Qed.
End Closure.

Lemma adjacency_get n P i j : wf n n P -> i < n -> j < n -> bget (adjacency P) i j = true <-> edge P i j.
Proof.
  intros [L W] Hi Hj. unfold bget, adjacency, edge, mget.
  rewrite (nth_indep (map (map (Qcltb 0)) P) [] (map (Qcltb 0) [])) by (rewrite map_length; lia). rewrite map_nth.
  assert (Lr : length (nth i P []) = n) by (apply W, nth_In; lia).
  rewrite (nth_indep _ false (Qcltb 0 0)) by (rewrite map_length; lia). rewrite map_nth. apply Qcltb_lt.
Qed.
Lemma adjacency_wf n P : wf n n P -> bwf n (adjacency P).
Proof.
  intros [L W]. unfold adjacency. split; [rewrite map_length; exact L|]. intros i Hi.
  rewrite (nth_indep (map (map (Qcltb 0)) P) [] (map (Qcltb 0) [])) by (rewrite map_length; lia). rewrite map_nth, map_length.
  apply W, nth_In; lia.
Qed.

Section Grow.
Variables (n : nat) (C : list (list bool)) (init : list nat).
Let succ s x := bget C s x = true.
Inductive gr : nat -> Prop :=
| gr_init x : In x init -> gr x
| gr_step s x : gr s -> x < n -> succ s x -> gr x.

Definition addl (s : nat) (l : list nat) (xs : list nat) : list nat :=
  fold_left (fun l x => if bget C s x && negb (memn x l) then l ++ [x] else l) xs l.
Lemma addl_spec s xs : forall l, NoDup l -> (forall x, In x l -> gr x) -> gr s -> (forall x, In x xs -> x < n) ->
  (exists t, addl s l xs = l ++ t) /\ NoDup (addl s l xs) /\ (forall x, In x (addl s l xs) -> gr x) /\
  (forall x, In x xs -> succ s x -> In x (addl s l xs)).
Proof.
  induction xs as [|y xs IH]; intros l ND HG HS HX; cbn [addl fold_left].
  - repeat split; try assumption. + exists []. rewrite app_nil_r; reflexivity. + intros x [].
  - set (l' := if bget C s y && negb (memn y l) then l ++ [y] else l).
    assert (Y : exists t, l' = l ++ t).
    { unfold l'. destruct (bget C s y && negb (memn y l)); [exists [y]; reflexivity|exists []; rewrite app_nil_r; reflexivity]. }
    assert (ND' : NoDup l').
    { unfold l'. destruct (bget C s y && negb (memn y l)) eqn:E; [|exact ND]. apply andb_true_iff in E. destruct E as [_ E].
      apply negb_true_iff, memn_false in E. apply (NoDup_Add (a := y) (l := l)); [|split; assumption].
      rewrite <- (app_nil_r l) at 1. apply Add_app. }
    assert (HG' : forall x, In x l' -> gr x).
    { intros x Hx. unfold l' in Hx. destruct (bget C s y && negb (memn y l)) eqn:E; [|apply HG; exact Hx].
      apply in_app_or in Hx. destruct Hx as [Hx|[<-|[]]]; [apply HG; exact Hx|]. apply andb_true_iff in E. destruct E as [E _].
      apply (gr_step s); [exact HS|apply HX; left; reflexivity|exact E]. }
    destruct (IH l' ND' HG' HS ltac:(intros; apply HX; right; assumption)) as ((t & T) & N2 & G2 & S2).
    fold (addl s l' xs). destruct Y as (t' & Y). repeat split; try assumption.
    + exists (t' ++ t). rewrite T, Y, app_assoc. reflexivity.
    + intros x [<-|Hx] Hsx; [|apply S2; assumption]. rewrite T. apply in_or_app. left.
      unfold l'. unfold succ in Hsx. rewrite Hsx. cbn [andb]. destruct (memn y l) eqn:M; cbn [negb]; [apply memn_In; exact M|].
      apply in_or_app. right; left; reflexivity.
Qed.

Lemma grow_spec fuel : forall k l, NoDup l -> (forall x, In x l -> x < n) -> (forall x, In x l -> gr x) ->
  (forall x, In x init -> In x l) ->
  (forall i s x, i < k -> nth_error l i = Some s -> x < n -> succ s x -> In x l) ->
  n + 1 <= fuel + k -> k <= n ->
  exists l', sub_grow fuel n C k l = Ok l' /\ NoDup l' /\ (forall x, In x l' <-> gr x) /\ (forall x, In x l' -> x < n).
Proof.
  assert (GB : forall l, NoDup l -> (forall x, In x l -> x < n) -> length l <= n).
  { intros l ND HB. rewrite <- (seq_length n 0). apply NoDup_incl_length; [exact ND|]. intros x Hx. apply in_seq. specialize (HB x Hx). lia. }
  induction fuel as [|fuel IH]; intros k l ND HB HG HI HD HF Hk.
  - lia.
  - cbn [sub_grow]. destruct (nth_error l k) as [s|] eqn:E.
    + assert (Hs : In s l) by (eapply nth_error_In; exact E).
      destruct (addl_spec s (seq 0 n) l ND HG (HG s Hs) ltac:(intros x Hx; apply in_seq in Hx; lia)) as ((t & T) & N2 & G2 & S2).
      fold (addl s l (seq 0 n)). set (l' := addl s l (seq 0 n)) in *.
      assert (kl : k < length l) by (apply nth_error_Some; congruence).
      assert (GL := GB l ND HB).
      assert (HB' : forall x, In x l' -> x < n).
      { intros x Hx. assert (G := G2 x Hx). destruct G as [x Hx'|? x ? Hx' _]; [apply HB, HI; exact Hx'|exact Hx']. }
      apply IH; try assumption.
      * intros x Hx. rewrite T. apply in_or_app; left; apply HI; exact Hx.
      * intros i s' x Hi Hs' Hx Hsx. rewrite T in Hs'. rewrite nth_error_app1 in Hs' by lia.
        destruct (Nat.eq_dec i k) as [->|Hne].
        -- rewrite E in Hs'. inversion Hs'; subst. apply S2; [apply in_seq; lia|exact Hsx].
        -- rewrite T. apply in_or_app; left. apply (HD i s'); try assumption. lia.
      * lia.
      * lia.
    + exists l. split; [reflexivity|]. split; [exact ND|]. split; [|exact HB].
      assert (kl : length l <= k) by (apply nth_error_None; exact E).
      intros x; split; [apply HG|]. induction 1 as [x Hx|s x Hs IHs Hx Hsx]; [apply HI; exact Hx|].
      apply In_nth_error in IHs. destruct IHs as (i & Hi). apply (HD i s); try assumption.
      assert (i < length l) by (apply nth_error_Some; congruence). lia.
Qed.
End Grow.

Lemma insert_perm x l : Permutation (x :: l) (insert_nat x l).
Proof.
  induction l as [|y l IH]; simpl; [apply Permutation_refl|]. destruct (Nat.leb x y); [apply Permutation_refl|].
  eapply perm_trans; [apply perm_swap|]. apply perm_skip, IH.
Qed.
Lemma sort_perm l : Permutation l (sort_nat l).
Proof.
  induction l as [|x l IH]; simpl; [constructor|]. eapply perm_trans; [apply perm_skip, IH|]. apply insert_perm.
Qed.
Lemma insert_sorted x l : Sorted le l -> Sorted le (insert_nat x l).
Proof.
  induction l as [|y l IH]; intros H; simpl; [repeat constructor|].
  destruct (Nat.leb_spec x y) as [L|L]; [constructor; [exact H|constructor; exact L]|].
  inversion H as [|? ? H1 H2]; subst. constructor; [apply IH; exact H1|].
  destruct l as [|z l]; simpl; [constructor; lia|]. destruct (Nat.leb x z); constructor; [lia|]. inversion H2; assumption.
Qed.
Lemma sort_sorted l : Sorted le (sort_nat l).
Proof. induction l as [|x l IH]; simpl; [constructor|]. apply insert_sorted, IH. Qed.
Lemma sorted_lt l : NoDup l -> Sorted le l -> StronglySorted lt l.
Proof.
  intros ND H. apply Sorted_StronglySorted in H; [|intros a b c; lia].
  induction H as [|x l HS IH HF]; [constructor|]. inversion ND; subst. constructor; [apply IH; assumption|].
  rewrite Forall_forall in *. intros y Hy. specialize (HF y Hy). assert (y <> x) by (intros ->; contradiction). lia.
Qed.

Lemma to_subchain_eq n c S : valid_chain n c -> S <> [] -> NoDup S -> (forall s, In s S -> s < n) ->
  exists L, StronglySorted lt L /\
    (forall x, In x L <-> exists s, In s S /\ reach n (edge (ch_p c)) s x) /\
    0 < length L /\
    (2 <= length L -> valid_chain (length L) (mkchain (mix (ch_p c) L L) (map (fun s => nth s (ch_states c) ""%string) L))) /\
    to_subchain_typed c S = if Nat.eqb (length L) 1 then Err ValueErr
      else Ok (mkchain (mix (ch_p c) L L) (map (fun s => nth s (ch_states c) ""%string) L)).
Proof.
  intros V NES NDS HS. destruct V as (N & (W & P & R) & (LN & DN & NB)).
  unfold to_subchain_typed, mc_sub. rewrite (wf_nrows _ _ _ W).
  assert (CL := closure_spec n (edge (ch_p c)) (adjacency (ch_p c)) (adjacency_wf n _ W) (fun j x Hj Hx => adjacency_get n (ch_p c) j x W Hj Hx)).
  set (C := sub_closure n (adjacency (ch_p c))) in *.
  destruct (grow_spec n C S (n + 1) 0 S NDS HS ltac:(intros; apply gr_init; assumption) ltac:(auto) ltac:(intros; lia) ltac:(lia) ltac:(lia))
    as (l & Hl & NDl & Gl & Bl).
  rewrite Hl. cbn [bind]. set (L := sort_nat l) in *.
  assert (PL : Permutation l L) by apply sort_perm.
  assert (InL : forall x, In x L <-> In x l).
  { intros x; split; intros K; [apply (Permutation_in _ (Permutation_sym PL)); exact K|apply (Permutation_in _ PL); exact K]. }
  assert (NDL : NoDup L) by (eapply Permutation_NoDup; [exact PL|exact NDl]).
  assert (BL : forall x, In x L -> x < n) by (intros x Hx; apply Bl, InL; exact Hx).
  assert (BLi : forall i, i < length L -> nth i L 0 < n) by (intros i Hi; apply BL, nth_In; exact Hi).
  assert (RC : forall x, In x L <-> exists s, In s S /\ reach n (edge (ch_p c)) s x).
  { intros x. rewrite InL, Gl. split.
    - induction 1 as [x Hx|s x Hs IH Hx Hsx].
      + exists x. split; [exact Hx|]. exists 0. constructor. apply HS; exact Hx.
      + destruct IH as (s0 & Hs0 & k & Hk). exists s0. split; [exact Hs0|].
        apply CL in Hsx; [|apply Bl, Gl; exact Hs|exact Hx]. destruct Hsx as (k' & Hk'). exists (k + Datatypes.S k'). eapply walk_app; eassumption.
    - intros (s & Hs & k & Hk). destruct k as [|k].
      + inversion Hk; subst. apply gr_init; exact Hs.
      + destruct (walk_bounds _ _ _ _ _ Hk) as [B1 B2]. apply (gr_step n C S s); [apply gr_init; exact Hs|exact B2|].
        apply CL; try assumption. exists k; exact Hk. }
  assert (CLOSED : forall i y, i < length L -> y < n -> mget (ch_p c) (nth i L 0) y <> 0q -> In y L).
  { intros i y Hi Hy NZ. apply RC. assert (HI : In (nth i L 0) L) by (apply nth_In; exact Hi). apply RC in HI.
    destruct HI as (s & Hs & k & Hk). exists s. split; [exact Hs|]. exists (k + 1). eapply walk_app; [exact Hk|].
    econstructor; [apply BLi; exact Hi|exact Hy| |constructor; exact Hy].
    assert (G := P (nth i L 0) y (BLi i Hi) Hy). apply Qcle_lt_or_eq in G. destruct G as [G|G]; [exact G|]. symmetry in G; contradiction. }
  assert (RS : forall i, i < length L -> sumn (length L) (fun j => mget (mix (ch_p c) L L) i j) = 1q).
  { intros i Hi. rewrite (sumn_ext _ _ (fun j => mget (ch_p c) (nth i L 0) (nth j L 0))) by (intros; apply mget_mix; assumption).
    rewrite <- (R (nth i L 0) (BLi i Hi)).
    transitivity (lsum (map (fun y => mget (ch_p c) (nth i L 0) y) L)).
    - rewrite lsum_nth, map_length. apply sumn_ext. intros j Hj.
      rewrite (nth_indep _ 0q (mget (ch_p c) (nth i L 0) 0)) by (rewrite map_length; exact Hj). rewrite map_nth. reflexivity.
    - rewrite (lsum_map_indicator n) by assumption. apply sumn_ext. intros y Hy. destruct (memn y L) eqn:M; [reflexivity|].
      apply memn_false in M. destruct (Qceqb_spec (mget (ch_p c) (nth i L 0) y) 0q) as [Z|Z]; [symmetry; exact Z|].
      exfalso; apply M, (CLOSED i y Hi Hy Z). }
  assert (NE : 0 < length L).
  { destruct S as [|s S']; [congruence|]. assert (K : In s L); [|destruct L; [destruct K|simpl; lia]].
    apply RC. exists s. split; [left; reflexivity|]. exists 0. constructor. apply HS. left; reflexivity. }
  exists L. split; [apply sorted_lt; [exact NDL|apply sort_sorted]|]. split; [exact RC|]. split; [exact NE|]. split.
  - intros L2. split; [exact L2|]. split.
    + split; [apply wf_mix|]. split; [|exact RS]. intros i j Hi Hj. cbn [ch_p]. rewrite mget_mix by assumption. apply P; apply BLi; assumption.
    + cbn [ch_states]. split; [apply map_length|]. split.
      * apply NoDup_map_inj; [|exact NDL]. intros a b Ha Hb E. apply BL in Ha, Hb. rewrite <- LN in Ha, Hb.
        apply (proj1 (NoDup_nth (ch_states c) ""%string) DN a b Ha Hb E).
      * intros s Hs. apply in_map_iff in Hs. destruct Hs as (i & <- & Hi). apply NB, nth_In. rewrite LN. apply BL; exact Hi.
  - rewrite (div_rows_unit (length L) (length L)) by (try exact NE; try apply wf_mix; exact RS).
    rewrite (wf_nrows (length L) (length L)), (wf_ncols (length L) (length L)) by (try apply wf_mix; exact NE).
    destruct (Nat.eqb_spec (length L * length L) 1) as [E1|E1]; destruct (Nat.eqb_spec (length L) 1) as [E2|E2]; cbn [negb bind fst snd]; try reflexivity.
    + destruct (length L) as [|[|k]]; lia.
    + rewrite E2 in E1. lia.
Qed.

Lemma to_subchain_spec n c S r : valid_chain n c -> S <> [] -> NoDup S -> (forall s, In s S -> s < n) ->
  to_subchain_typed c S = Ok r ->
  exists L, StronglySorted lt L /\
    (forall x, In x L <-> exists s, In s S /\ reach n (edge (ch_p c)) s x) /\
    valid_chain (length L) r /\
    ch_states r = map (fun s => nth s (ch_states c) ""%string) L /\
    (forall i j, i < length L -> j < length L -> mget (ch_p r) i j = mget (ch_p c) (nth i L 0) (nth j L 0)).
Proof.
  intros V NES NDS HS H. destruct (to_subchain_eq n c S V NES NDS HS) as (L & SL & RC & LP & VL & E).
  rewrite E in H. destruct (Nat.eqb_spec (length L) 1); [discriminate|]. inversion H; subst r.
  exists L. cbn [ch_p ch_states]. split; [exact SL|]. split; [exact RC|]. split; [apply VL; lia|].
  split; [reflexivity|intros; apply mget_mix; assumption].
Qed.
Lemma to_subchain_total n c S a b : valid_chain n c -> S <> [] -> NoDup S -> (forall s, In s S -> s < n) -> a <> b ->
  (exists s, In s S /\ reach n (edge (ch_p c)) s a) -> (exists s, In s S /\ reach n (edge (ch_p c)) s b) ->
  exists r, to_subchain_typed c S = Ok r.
Proof.
  intros V NES NDS HS Hab Ha Hb. destruct (to_subchain_eq n c S V NES NDS HS) as (L & SL & RC & LP & VL & E).
  rewrite E. apply RC in Ha, Hb. destruct (Nat.eqb_spec (length L) 1) as [E1|]; [|eexists; reflexivity].
  exfalso. destruct L as [|x [|y L]]; try discriminate. destruct Ha as [<-|[]], Hb as [<-|[]]. congruence.
Qed.
