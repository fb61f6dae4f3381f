(** L_Valid5: the hidden Markov model constructor, and counterexamples about
    validation. *)
From Verif Require Export L_Valid4 ExV.
From Coq Require Import Lia.

Lemma hmm_names_iff prefix v n l : 2 <= n ->
  (match v with PNone => Ok (create_labels n prefix) | _ => v_labels_input v (Some n) end = Ok l <-> hmm_names_argument prefix v n l).
Proof.
  intros Hn. unfold hmm_names_argument. split.
  - intros H. assert (HH : (v = PNone /\ create_labels n prefix = l) \/ v_labels_input v (Some n) = Ok l) by (destruct v; try (right; exact H); left; split; [reflexivity|congruence]).
    destruct HH as [[-> <-]|HH]; [left; split; reflexivity|]. apply v_labels_input_iff in HH. destruct HH as (-> & _ & HN & HL). right. split; [reflexivity|]. rewrite <- HL. exact HN.
  - intros [[-> ->]|[-> HN]]; [reflexivity|]. apply v_labels_input_iff. destruct HN as (HL & HN). rewrite HL. split; [reflexivity|]. split; [exact Hn|].
    split; [split; [exact HL|exact HN]|reflexivity].
Qed.

Lemma construct_hmm_iff caller p e st sy o : ~ In caller hmm_instance_generators ->
  (construct_hmm caller p e st sy = Ok o <->
   exists n k P E l m, 2 <= n /\ 2 <= k
     /\ real_part_matrix p n n P /\ probabilities n n P /\ nearly_stochastic n n P
     /\ real_part_matrix e n k E /\ probabilities n k E /\ nearly_stochastic n k E
     /\ hmm_names_argument "P" st n l /\ hmm_names_argument "E" sy k m /\ (forall s, In s l -> ~ In s m)
     /\ o = mkhobj P E l m).
Proof.
  intros HC. unfold construct_hmm.
  assert (E0 : existsb (String.eqb caller) hmm_instance_generators = false).
  { apply not_true_iff_false. intros H. apply existsb_exists in H. destruct H as (x & Hx & E). apply String.eqb_eq in E. subst x. contradiction. }
  rewrite E0. cbn [negb]. cbv iota.
  assert (HD : forall l m, forallb (fun s => negb (existsb (String.eqb s) m)) l = true <-> forall s : string, In s l -> ~ In s m).
  { intros l m. rewrite forallb_forall. split; intros H s Hs.
    - specialize (H s Hs). apply negb_true_iff in H. intros HI. assert (H' : existsb (String.eqb s) m = true) by (apply existsb_exists; exists s; split; [exact HI|apply String.eqb_refl]). congruence.
    - apply negb_true_iff, not_true_iff_false. intros HE. apply existsb_exists in HE. destruct HE as (x & Hx & E). apply String.eqb_eq in E. subst x. exact (H s Hs Hx). }
  split.
  - destruct (v_transition_matrix p None) as [P|] eqn:E1; [|discriminate]. apply v_transition_matrix_iff in E1. destruct E1 as (n & Hn & _ & HP1 & HP2 & HP3).
    cbn [bind]. pose proof (wf_nrows n n P (proj1 HP1)) as Hnr. rewrite Hnr.
    destruct (v_emission_matrix e n) as [E|] eqn:E2; [|discriminate]. apply v_emission_matrix_iff in E2; [|lia]. destruct E2 as (k & Hk & HE1 & HE2 & HE3).
    cbn [bind]. pose proof (wf_ncols n k E (proj1 HE1)) as Hnc. rewrite Hnc by lia.
    match goal with |- context [bind ?x _] => destruct x as [l|] eqn:El end; [|discriminate]. apply (hmm_names_iff "P" st n l Hn) in El. cbn [bind].
    match goal with |- context [bind ?x _] => destruct x as [m|] eqn:Em end; [|discriminate]. apply (hmm_names_iff "E" sy k m Hk) in Em. cbn [bind].
    destruct (forallb _ l) eqn:ED; cbv iota; [|discriminate]. intros H; injection H as <-. exists n, k, P, E, l, m. rewrite HD in ED. auto 20.
  - intros (n & k & P & E & l & m & Hn & Hk & HP1 & HP2 & HP3 & HE1 & HE2 & HE3 & Hl & Hm & HDD & ->).
    assert (E1 : v_transition_matrix p None = Ok P) by (apply v_transition_matrix_iff; exists n; auto). rewrite E1. cbn [bind].
    rewrite (wf_nrows n n P (proj1 HP1)).
    assert (E2 : v_emission_matrix e n = Ok E) by (apply v_emission_matrix_iff; [lia|exists k; auto]). rewrite E2. cbn [bind].
    rewrite (wf_ncols n k E (proj1 HE1)) by lia.
    apply (hmm_names_iff "P" st n l Hn) in Hl. rewrite Hl. cbn [bind]. apply (hmm_names_iff "E" sy k m Hk) in Hm. rewrite Hm. cbn [bind].
    rewrite (proj2 (HD l m) HDD). reflexivity.
Qed.

(** Complex entries are accepted, their imaginary parts dropped. *)
Lemma complex_accepted : exists p o, construct "main" p pyNames = Ok o /\ has_entry p [0; 0] (Fin half, Fin (Q2Qc 3)).
Proof.
  exists pyCx, (mkrobj [[Fin half; Fin half]; [Fin 0; Fin 1]] ["a"; "b"]%string). split.
  - apply construct_user; [intros H; repeat (destruct H as [H|H]; [discriminate|]); exact H|].
    exists 2, [[half; half]; [0; 1]]%Qc, ["a"; "b"]%string. split; [lia|]. split; [|split; [|split; [|split]]].
    + split; [split; [reflexivity|intros r [<-|[<-|[]]]; reflexivity]|].
      exists (fun idx => match idx with [0; 0] => (Fin half, Fin (Q2Qc 3)) | [0; 1] => (Fin half, Fin 0) | [1; 0] => (Fin (Q2Qc (inject_Z 0)), Fin 0) | _ => (Fin (Q2Qc (inject_Z 1)), Fin 0) end).
      split.
      * split; [|split].
        -- apply sh_list; [discriminate|]. intros x [<-|[<-|[]]]; (apply sh_list; [discriminate|]); intros y [<-|[<-|[]]]; apply sh_scalar; exact I.
        -- split.
           ++ intros k HK. inversion HK as [| | | | | | | | | | | |l' v k' H2 H3|l' v k' H2 H3]; subst.
              destruct H2 as [<-|[<-|[]]]; inversion H3 as [| | | | | | | | | | | |l2 v2 k2 H4 H5|l2 v2 k2 H4 H5]; subst; destruct H4 as [<-|[<-|[]]]; inversion H5; subst; try discriminate; exfalso; lia.
           ++ exists KFloat. split; [|discriminate]. eapply ki_list; [left; reflexivity|]. eapply ki_list; [right; left; reflexivity|]. constructor.
        -- intros idx HI. inversion HI as [|i n' idx' s' Hi Hi' E1 E2]; subst. inversion Hi' as [|j m' idx'' s'' Hj Hj' E3 E4]; subst. inversion Hj'; subst.
           destruct i as [|[|]]; [| |lia]; (destruct j as [|[|]]; [| |lia]); (eapply en_list; [reflexivity|eapply en_list; [reflexivity|constructor]]).
      * intros [|[|i]] [|[|j]] Hi Hj; try lia; cbn [fst]; f_equal; apply Qc_is_canon; reflexivity.
    + intros [|[|i]] [|[|j]] Hi Hj; try lia; split; apply Qcleb_le; vm_compute; reflexivity.
    + intros [|[|i]] Hi; try lia; split; apply Qcleb_le; vm_compute; reflexivity.
    + right. split; [reflexivity|]. split; [reflexivity|]. split; [repeat constructor; cbn; intuition discriminate|]. intros s [<-|[<-|[]]]; reflexivity.
    + reflexivity.
  - eapply en_list; [reflexivity|eapply en_list; [reflexivity|constructor]].
Qed.

(** A function that happens to be called "random" builds a chain from anything. *)
Lemma bypass : exists caller p st o i j, construct caller p st = Ok o /\ i < 2 /\ j < 2 /\
  prob01 (nth j (nth i (r_p o) []) NaN) = false.
Proof. exists "random"%string, pyBad, pyNames. eexists. exists 0, 0. split; [reflexivity|]. split; [lia|]. split; [lia|]. vm_compute. reflexivity. Qed.

Lemma minimum_ignored : exists labels v r, labels_ok labels /\ v_labels_current v labels true (Some 2) = Ok r /\ length r < 2.
Proof.
  exists abcd, (PStr "b"), [1]. split; [|split; [reflexivity|cbn; lia]]. split; [repeat constructor; cbn; intuition discriminate|].
  intros s HS; repeat (destruct HS as [<-|HS]; [reflexivity|]); destruct HS.
Qed.

Lemma empty_block_accepted : exists labels v blocks, labels_ok labels /\ v_partitions v labels = Ok blocks /\ In [] blocks.
Proof.
  exists abcd, (PList [PList [PStr "a"; PStr "b"]; PList []; PList [PStr "c"; PStr "d"]]%string), [[0; 1]; []; [2; 3]].
  split; [|split; [reflexivity|right; left; reflexivity]]. split; [repeat constructor; cbn; intuition discriminate|].
  intros s HS; repeat (destruct HS as [<-|HS]; [reflexivity|]); destruct HS.
Qed.

Lemma nan_boundary : v_boundary_condition (PFloat NaN) = Ok (BNumber NaN).
Proof. reflexivity. Qed.

Lemma sequences_overwritten : exists labels v r after, labels_ok labels /\ v_sequences v labels true = (Ok r, after) /\ after <> v.
Proof.
  exists abcd, (PList [PList [PStr "a"; PStr "b"]; PList [PStr "c"; PStr "a"]]%string), [[0; 1]; [2; 0]], (PList [PList [PInt 0; PInt 1]; PList [PInt 2; PInt 0]]).
  split; [|split; [reflexivity|discriminate]]. split; [repeat constructor; cbn; intuition discriminate|].
  intros s HS; repeat (destruct HS as [<-|HS]; [reflexivity|]); destruct HS.
Qed.

Lemma strict_NoDup (l : list nat) : StronglySorted lt l -> NoDup l.
Proof.
  induction 1 as [|x l H IH HF]; constructor; [|exact IH]. intros HI. rewrite Forall_forall in HF. specialize (HF x HI). lia.
Qed.

Lemma minimum_partial labels v subset minimum r : labels_ok labels -> (forall k, ~ designates1 labels v k) ->
  v_labels_current v labels subset (Some minimum) = Ok r -> minimum <= length r.
Proof.
  intros HL HN H. apply v_labels_current_iff in H; [|exact HL]. destruct H as [(k & Hk & _)|(l & ks & _ & _ & HD & _ & Hm & _ & HS & HI)]; [exfalso; eapply HN; eassumption|].
  cbn [opt_get] in Hm. assert (NoDup r) by (eapply strict_NoDup; exact HS).
  rewrite <- (Permutation_length (NoDup_Permutation HD H (fun k => iff_sym (HI k)))). exact Hm.
Qed.

Lemma construct_user_valid caller p st o : user_caller caller -> construct caller p st = Ok o ->
  exists n P, r_p o = map (map Fin) P /\ wf n n P /\ probabilities n n P /\ nearly_stochastic n n P.
Proof.
  intros HC H. apply construct_user in H; [|exact HC]. destruct H as (n & P & l & _ & HM & HP & HS & _ & ->). exists n, P. split; [reflexivity|]. split; [exact (proj1 HM)|auto].
Qed.

Lemma selection_sorted labels subset minimum v r : labels_ok labels -> v_labels_current v labels subset minimum = Ok r -> StronglySorted lt r /\ forall k, In k r -> k < length labels.
Proof.
  intros HL H. apply v_labels_current_iff in H; [|exact HL]. destruct H as [(k & [Hk _] & ->)|(l & ks & _ & [HK _] & _ & _ & _ & _ & HS & HI)].
  - split; [repeat constructor|]. intros k' [<-|[]]. exact Hk.
  - split; [exact HS|]. intros k Hk. apply HK, HI, Hk.
Qed.

Lemma v_label_designates v labels k : labels_ok labels -> (v_label v labels = Ok k <-> designates1 labels v k).
Proof. intros [H1 H2]. apply v_label_iff; assumption. Qed.
