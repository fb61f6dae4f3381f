(** L_Hmm1: decoding computes likelihoods and posteriors. *)
From Verif Require Export M_Hmm S_Hmm L_Simulation.
From Coq Require Import Reals Lra.
Close Scope R_scope.
Open Scope nat_scope.
Open Scope res_scope.

Lemma tiny300_pos : (0 < tiny300)%Qc.
Proof. vm_compute. reflexivity. Qed.
Global Opaque tiny300.

Lemma words_sum : forall n k (f : list nat -> Qc),
  lsum (map f (words n (S k))) = sumn n (fun s => lsum (map (fun w => f (s :: w)) (words n k))).
Proof.
  intros n k f. cbn [words]. rewrite lsum_flat_map.
  replace (seq 0 n) with (tab n (fun i => i)) by (unfold tab; apply map_id).
  rewrite map_tab, lsum_tab. apply sumn_ext. intros s _. rewrite map_map. reflexivity.
Qed.

Section DEC.
Variables (n : nat) (P E : mat).

Definition stepf (o : nat) (x : nat -> Qc) (s : nat) : Qc := (mget E s o * sumn n (fun i => x i * mget P i s))%Qc.
Fixpoint alpha (obs : list nat) (x : nat -> Qc) : nat -> Qc :=
  match obs with [] => x | o :: obs' => alpha obs' (stepf o x) end.
Fixpoint beta (obs : list nat) (i : nat) : Qc :=
  match obs with [] => 1q | o :: obs' => sumn n (fun j => mget P i j * mget E j o * beta obs' j)%Qc end.

Lemma stepf_ext : forall o x y, (forall i, i < n -> x i = y i) -> forall s, stepf o x s = stepf o y s.
Proof. intros o x y H s. unfold stepf. f_equal. apply sumn_ext. intros i Hi. rewrite H by exact Hi. reflexivity. Qed.
Lemma alpha_ext : forall obs x y, (forall i, i < n -> x i = y i) -> forall s, s < n -> alpha obs x s = alpha obs y s.
Proof.
  induction obs as [|o obs IH]; intros x y H s Hs; cbn [alpha]; [apply H; exact Hs|].
  apply IH; [|exact Hs]. intros i _. apply stepf_ext. exact H.
Qed.
Lemma stepf_scale : forall o c x s, stepf o (fun i => c * x i)%Qc s = (c * stepf o x s)%Qc.
Proof.
  intros o c x s. unfold stepf. rewrite (sumn_ext n _ (fun i => c * (x i * mget P i s))%Qc) by (intros; ring).
  rewrite sumn_mul_l. ring.
Qed.
Lemma alpha_scale : forall obs c x s, s < n -> alpha obs (fun i => c * x i)%Qc s = (c * alpha obs x s)%Qc.
Proof.
  induction obs as [|o obs IH]; intros c x s Hs; cbn [alpha]; [reflexivity|].
  rewrite <- IH by exact Hs. apply alpha_ext; [|exact Hs]. intros i _. apply stepf_scale.
Qed.
Lemma alpha_snoc : forall obs o x s, alpha (obs ++ [o]) x s = stepf o (alpha obs x) s.
Proof. induction obs as [|a obs IH]; intros o x s; cbn [alpha app]; [reflexivity|apply IH]. Qed.

(** sums over hidden paths with a condition that may mention the starting state *)
Definition tot (x : nat -> Qc) (obs : list nat) (c : nat -> list nat -> bool) : Qc :=
  sumn n (fun i => x i * lsum (map (fun w => if c i w then joint_from P E i w obs else 0q) (words n (length obs))))%Qc.

Lemma total_tot : forall (x : vec) obs c, paths_total n P E x obs c = tot (vget x) obs (fun _ w => c w).
Proof.
  intros x obs c. unfold paths_total, tot, joint.
  rewrite (lsum_map_ext _ (fun w => sumn n (fun i => vget x i * (if c w then joint_from P E i w obs else 0q))%Qc)).
  2:{ intros w _. destruct (c w); [reflexivity|]. symmetry. apply sumn_0. intros; ring. }
  rewrite lsum_map_sumn. apply sumn_ext. intros i _. rewrite lsum_map_mul_l. reflexivity.
Qed.
Lemma tot_step : forall x o obs c, tot x (o :: obs) (fun _ w => c w) = tot (stepf o x) obs (fun s w => c (s :: w)).
Proof.
  intros x o obs c. unfold tot. cbn [length].
  rewrite (sumn_ext n _ (fun i => sumn n (fun s => x i * mget P i s * mget E s o *
    lsum (map (fun w => if c (s :: w) then joint_from P E s w obs else 0q) (words n (length obs)))))%Qc).
  2:{ intros i _. rewrite words_sum. rewrite <- sumn_mul_l. apply sumn_ext. intros s _.
      rewrite (lsum_map_ext _ (fun w => (mget P i s * mget E s o) * (if c (s :: w) then joint_from P E s w obs else 0q))%Qc).
      - rewrite lsum_map_mul_l. ring.
      - intros w _. destruct (c (s :: w)); cbn [joint_from]; ring. }
  rewrite sumn_swap. apply sumn_ext. intros s _. unfold stepf.
  rewrite (sumn_ext n _ (fun i => x i * mget P i s * (mget E s o *
    lsum (map (fun w => if c (s :: w) then joint_from P E s w obs else 0q) (words n (length obs)))))%Qc) by (intros; ring).
  rewrite sumn_mul_r. ring.
Qed.
Lemma future_beta : forall obs i, future n P E i obs = beta obs i.
Proof.
  induction obs as [|o obs IH]; intros i; [reflexivity|].
  unfold future. cbn [length beta]. rewrite words_sum. apply sumn_ext. intros s _.
  rewrite (lsum_map_ext _ (fun w => (mget P i s * mget E s o) * joint_from P E s w obs)%Qc) by reflexivity.
  rewrite lsum_map_mul_l. f_equal. apply IH.
Qed.
Lemma tot_start : forall y obs i, i < n -> tot y obs (fun s _ => Nat.eqb s i) = (y i * beta obs i)%Qc.
Proof.
  intros y obs i Hi. unfold tot. rewrite (sumn_single n _ i Hi).
  - rewrite Nat.eqb_refl. f_equal. apply future_beta.
  - intros j Hj Hne. rewrite lsum_map_0; [ring|]. intros w _. destruct (Nat.eqb_spec j i); [congruence|reflexivity].
Qed.
Lemma tot_all : forall x obs, tot x obs (fun _ _ => true) = sumn n (alpha obs x).
Proof.
  intros x obs; revert x; induction obs as [|o obs IH]; intros x.
  - unfold tot. cbn. apply sumn_ext. intros; ring.
  - rewrite (tot_step x o obs (fun _ => true)). cbn [alpha]. apply IH.
Qed.
Lemma likelihood_alpha : forall (x : vec) obs, likelihood n P E x obs = sumn n (alpha obs (vget x)).
Proof. intros. unfold likelihood. rewrite total_tot. apply tot_all. Qed.
Lemma tot_at : forall obs x t i, t < length obs -> i < n ->
  tot x obs (fun _ w => Nat.eqb (nth t w 0) i) = (alpha (firstn (S t) obs) x i * beta (skipn (S t) obs) i)%Qc.
Proof.
  induction obs as [|o obs IH]; intros x t i Ht Hi; [cbn in Ht; lia|].
  rewrite (tot_step x o obs (fun w => Nat.eqb (nth t w 0) i)). destruct t as [|t].
  - cbn [nth firstn skipn alpha]. apply tot_start. exact Hi.
  - cbn [nth]. rewrite (IH (stepf o x) t i) by (cbn in Ht; lia). reflexivity.
Qed.
Lemma total_at : forall (x : vec) obs t i, t < length obs -> i < n ->
  paths_total n P E x obs (fun w => Nat.eqb (nth t w 0) i) = (alpha (firstn (S t) obs) (vget x) i * beta (skipn (S t) obs) i)%Qc.
Proof. intros. rewrite total_tot. apply tot_at; assumption. Qed.
Lemma alpha_beta_sum : forall obs x t, t <= length obs ->
  sumn n (fun i => alpha (firstn t obs) x i * beta (skipn t obs) i)%Qc = sumn n (alpha obs x).
Proof.
  induction obs as [|o obs IH]; intros x t Ht.
  - destruct t; cbn; apply sumn_ext; intros; ring.
  - destruct t as [|t].
    + cbn [firstn skipn alpha beta].
      rewrite (sumn_ext n _ (fun i => sumn n (fun j => x i * mget P i j * mget E j o * beta obs j))%Qc).
      2:{ intros i _. rewrite <- sumn_mul_l. apply sumn_ext. intros; ring. }
      rewrite sumn_swap. rewrite <- (IH (stepf o x) 0) by lia. cbn [firstn skipn alpha].
      apply sumn_ext. intros j _. unfold stepf.
      rewrite (sumn_ext n _ (fun i => x i * mget P i j * (mget E j o * beta obs j))%Qc) by (intros; ring).
      rewrite sumn_mul_r. ring.
    + cbn [firstn skipn alpha]. apply IH. cbn in Ht. lia.
Qed.

(** ** the forward pass *)
Fixpoint prodl (l : list Qc) : Qc := match l with [] => 1q | x :: l' => (x * prodl l')%Qc end.

Lemma vget_fwd_col : forall o x s, s < n -> vget (fwd_col n P E o x) s = stepf o (vget x) s.
Proof. intros. unfold fwd_col. rewrite vget_tab by assumption. reflexivity. Qed.

Lemma fwd_loop_spec : forall obs (x : vec),
  match fwd_loop n P E x obs with
  | Some l => length l = length obs /\
      (forall t, t < length obs -> (tiny300 <= nth t (map fst l) 0q)%Qc /\
         length (nth t (map snd l) []) = n /\
         prodl (firstn (S t) (map fst l)) = sumn n (alpha (firstn (S t) obs) (vget x)) /\
         forall i, i < n -> (vget (nth t (map snd l) []) i * prodl (firstn (S t) (map fst l)) = alpha (firstn (S t) obs) (vget x) i)%Qc)
  | None => exists t c, t < length obs /\ (0 < c)%Qc /\ (t = 0 -> c = 1q) /\ (0 < t -> c = sumn n (alpha (firstn t obs) (vget x))) /\
      (sumn n (alpha (firstn (S t) obs) (vget x)) < tiny300 * c)%Qc
  end.
Proof.
  induction obs as [|o obs IH]; intros x; cbn [fwd_loop].
  - split; [reflexivity|]. intros t Ht. cbn in Ht. lia.
  - set (c := fwd_col n P E o x). set (s := sumn n (vget c)).
    assert (Es : s = sumn n (stepf o (vget x))).
    { unfold s. apply sumn_ext. intros i Hi. apply vget_fwd_col. exact Hi. }
    destruct (Qcltb s tiny300) eqn:Ec.
    + apply Qcltb_lt in Ec. exists 0, 1q. split; [cbn; lia|]. split; [reflexivity|]. split; [auto|]. split; [lia|].
      cbn [firstn alpha]. rewrite <- Es. replace (tiny300 * 1q)%Qc with tiny300 by ring. exact Ec.
    + apply Qcltb_ge in Ec. pose proof tiny300_pos as Ht. assert (Hs : (0 < s)%Qc) by (eapply Qclt_le_trans; eassumption).
      assert (Hs0 : s <> 0q) by (apply Qc_lt_neq; exact Hs).
      set (c' := map (fun x => (x / s)%Qc) c).
      assert (Hlc : length c = n) by apply tab_length.
      assert (Hc' : forall i, i < n -> vget c' i = (/ s * stepf o (vget x) i)%Qc).
      { intros i Hi. unfold c'. rewrite vget_map_0 by lia. unfold c. rewrite vget_fwd_col by exact Hi. unfold Qcdiv. ring. }
      assert (Ha : forall obs' i, i < n -> alpha obs' (vget c') i = (/ s * alpha obs' (stepf o (vget x)) i)%Qc).
      { intros obs' i Hi. rewrite <- alpha_scale by exact Hi. apply alpha_ext; [|exact Hi]. exact Hc'. }
      assert (Hsum : forall obs', (sumn n (alpha obs' (vget c')) = / s * sumn n (alpha obs' (stepf o (vget x))))%Qc).
      { intros obs'. rewrite <- sumn_mul_l. apply sumn_ext. intros i Hi. apply Ha. exact Hi. }
      specialize (IH c'). destruct (fwd_loop n P E c' obs) as [l|].
      * destruct IH as [Hl Hi]. split; [cbn; lia|]. intros t Htl. destruct t as [|t].
        -- cbn [map nth fst snd firstn prodl alpha]. split; [exact Ec|]. split; [unfold c'; rewrite map_length; exact Hlc|].
           split; [rewrite <- Es; ring|]. intros i Hi'. rewrite Hc' by exact Hi'. field. exact Hs0.
        -- cbn in Htl. destruct (Hi t ltac:(lia)) as [A [B [C D]]].
           change (nth (S t) (map fst ((s, c') :: l)) 0q) with (nth t (map fst l) 0q).
           change (nth (S t) (map snd ((s, c') :: l)) []) with (nth t (map snd l) []).
           change (firstn (S (S t)) (map fst ((s, c') :: l))) with (s :: firstn (S t) (map fst l)).
           change (firstn (S (S t)) (o :: obs)) with (o :: firstn (S t) obs). cbn [alpha prodl].
           split; [exact A|]. split; [exact B|]. split.
           ++ rewrite C, Hsum. field. exact Hs0.
           ++ intros i Hi'. replace (vget (nth t (map snd l) []) i * (s * prodl (firstn (S t) (map fst l))))%Qc
                with (s * (vget (nth t (map snd l) []) i * prodl (firstn (S t) (map fst l))))%Qc by ring.
              rewrite D by exact Hi'. rewrite Ha by exact Hi'. field. exact Hs0.
      * destruct IH as [t [d [A [B [C1 [C2 D]]]]]].
        exists (S t), (sumn n (alpha (firstn (S t) (o :: obs)) (vget x))).
        split; [cbn; lia|].
        assert (Ed : (sumn n (alpha (firstn (S t) (o :: obs)) (vget x)) = s * d)%Qc).
        { cbn [firstn alpha]. destruct t as [|t].
          - rewrite (C1 eq_refl). cbn [firstn alpha]. rewrite <- Es. ring.
          - rewrite (C2 ltac:(lia)), Hsum. field. exact Hs0. }
        rewrite Ed. split; [apply Qc_mul_pos; assumption|]. split; [lia|]. split; [intros _; reflexivity|].
        change (firstn (S (S t)) (o :: obs)) with (o :: firstn (S t) obs). cbn [alpha].
        rewrite Hsum in D. set (Z := sumn n (alpha (firstn (S t) obs) (stepf o (vget x)))) in *.
        assert (Hm : (s * (/ s * Z) < s * (tiny300 * d))%Qc) by (rewrite (Qcmult_comm s (/ s * Z)), (Qcmult_comm s (tiny300 * d)); apply Qcmult_lt_compat_r; assumption).
        replace (s * (/ s * Z))%Qc with Z in Hm by (field; exact Hs0).
        replace (tiny300 * (s * d))%Qc with (s * (tiny300 * d))%Qc by ring. exact Hm.
Qed.

(** ** the backward pass *)
Lemma bwd_loop_len : forall l, length (bwd_loop n P E l) = S (length l).
Proof. induction l as [|[o s] l IH]; cbn [bwd_loop length]; [reflexivity|rewrite IH; reflexivity]. Qed.
Lemma bwd_loop_spec : forall obs sf, length sf = length obs -> (forall x, In x sf -> (0 < x)%Qc) -> forall t, t <= length obs ->
  length (nth t (bwd_loop n P E (combine obs sf)) []) = n /\
  forall i, i < n -> (vget (nth t (bwd_loop n P E (combine obs sf)) []) i * prodl (skipn t sf) = beta (skipn t obs) i)%Qc.
Proof.
  induction obs as [|o obs IH]; intros sf Hl Hp t Ht.
  - destruct sf; [|discriminate]. cbn in Ht. assert (t = 0) by lia. subst t. cbn [combine bwd_loop nth skipn prodl beta].
    split; [apply tab_length|]. intros i Hi. rewrite vget_tab by exact Hi. ring.
  - destruct sf as [|s sf]; [discriminate|]. cbn [combine bwd_loop].
    assert (Hl' : length sf = length obs) by (cbn in Hl; lia).
    assert (Hp' : forall x, In x sf -> (0 < x)%Qc) by (intros; apply Hp; right; assumption).
    destruct t as [|t].
    + cbn [nth skipn prodl beta]. split; [apply tab_length|]. intros i Hi. rewrite vget_tab by exact Hi.
      set (T := bwd_loop n P E (combine obs sf)). destruct (IH sf Hl' Hp' 0 ltac:(lia)) as [_ H0]. fold T in H0.
      assert (Eh : hd [] T = nth 0 T []) by (destruct T; reflexivity). rewrite Eh.
      assert (Hs : s <> 0q) by (apply Qc_lt_neq; apply Hp; left; reflexivity).
      rewrite (sumn_ext n (fun j => mget P i j * mget E j o * beta obs j)%Qc (fun j => mget P i j * vget (nth 0 T []) j * mget E j o * prodl sf)%Qc).
      2:{ intros j Hj. specialize (H0 j Hj). cbn [skipn] in H0. rewrite <- H0. ring. }
      rewrite sumn_mul_r. field. exact Hs.
    + cbn [nth skipn]. apply IH; [exact Hl'|exact Hp'|cbn in Ht; lia].
Qed.

Lemma prodl_app : forall a b, prodl (a ++ b) = (prodl a * prodl b)%Qc.
Proof. induction a as [|x a IH]; intros b; cbn [prodl app]; [ring|rewrite IH; ring]. Qed.
Lemma prodl_pos : forall l, (forall x, In x l -> (0 < x)%Qc) -> (0 < prodl l)%Qc.
Proof.
  induction l as [|a l IH]; intros H; cbn [prodl]; [reflexivity|].
  apply Qc_mul_pos; [apply H; left; reflexivity|apply IH; intros; apply H; right; assumption].
Qed.
Lemma sum_ln_prodl : forall l, (forall x, In x l -> (0 < x)%Qc) -> sum_ln l = ln (Qc2R (prodl l)).
Proof.
  induction l as [|a l IH]; intros H; cbn [sum_ln fold_right prodl].
  - rewrite Qc2R_1, ln_1. reflexivity.
  - change (fold_right _ _ l) with (sum_ln l). rewrite IH by (intros; apply H; right; assumption).
    rewrite Qc2R_mul, ln_mult; [reflexivity| |]; apply Qc2R_pos; [apply H; left; reflexivity|].
    apply prodl_pos. intros; apply H; right; assumption.
Qed.
Lemma prodl_rev : forall l, prodl (rev l) = prodl l.
Proof. induction l as [|a l IH]; cbn [rev]; [reflexivity|]. rewrite prodl_app, IH. cbn [prodl]. ring. Qed.
Lemma cumprod_len : forall l a, length (cumprod a l) = length l.
Proof. induction l as [|x l IH]; intros a; cbn [cumprod length]; [reflexivity|rewrite IH; reflexivity]. Qed.
Lemma cumprod_nth : forall l a t, t < length l -> nth t (cumprod a l) 0q = (a * prodl (firstn (S t) l))%Qc.
Proof.
  induction l as [|x l IH]; intros a t Ht; [cbn in Ht; lia|]. cbn [cumprod]. destruct t as [|t].
  - cbn [nth firstn prodl]. ring.
  - cbn [nth]. rewrite IH by (cbn in Ht; lia). change (firstn (S (S t)) (x :: l)) with (x :: firstn (S t) l). cbn [prodl]. ring.
Qed.
Lemma back_scale_nth : forall l t, t <= length l -> nth t (rev (1q :: cumprod 1q (rev l))) 0q = prodl (skipn t l).
Proof.
  intros l t Ht. rewrite rev_nth; [|cbn [length]; rewrite cumprod_len, rev_length; lia].
  cbn [length]. rewrite cumprod_len, rev_length. replace (S (length l) - S t) with (length l - t) by lia.
  destruct (Nat.eq_dec t (length l)) as [->|Hne].
  - rewrite Nat.sub_diag. cbn [nth]. rewrite skipn_all. reflexivity.
  - replace (length l - t) with (S (length l - t - 1)) by lia. cbn [nth].
    rewrite cumprod_nth by (rewrite rev_length; lia). replace (S (length l - t - 1)) with (length l - t) by lia.
    rewrite firstn_rev. replace (length l - (length l - t)) with t by lia. rewrite prodl_rev. ring.
Qed.

End DEC.

Lemma nth_map_d : forall {A B} (f : A -> B) l d d' t, t < length l -> nth t (map f l) d' = f (nth t l d).
Proof. intros A B f l d d' t Ht. rewrite (nth_indep _ d' (f d)) by (rewrite map_length; exact Ht). apply map_nth. Qed.
Lemma vget_vmulp : forall u v i, i < length u -> i < length v -> vget (vmulp u v) i = (vget u i * vget v i)%Qc.
Proof.
  intros u v i Hu Hv. unfold vmulp, vget at 1. rewrite (nth_map_d _ _ (0q, 0q)) by (rewrite combine_length; lia).
  assert (E : nth i (combine u v) (0q, 0q) = (vget u i, vget v i)).
  { unfold vget. revert v i Hu Hv. induction u as [|a u IH]; intros v i Hu Hv; [cbn in Hu; lia|].
    destruct v as [|b v]; [cbn in Hv; lia|]. destruct i; [reflexivity|]. cbn. apply IH; cbn in *; lia. }
  rewrite E. reflexivity.
Qed.
Lemma nth_combine : forall {A B} (l : list A) (l' : list B) d d' t, t < length l -> t < length l' ->
  nth t (combine l l') (d, d') = (nth t l d, nth t l' d').
Proof.
  induction l as [|a l IH]; intros l' d d' t H1 H2; [cbn in H1; lia|]. destruct l' as [|b l']; [cbn in H2; lia|].
  destruct t; [reflexivity|]. cbn. apply IH; cbn in *; lia.
Qed.
Lemma vget_vscale : forall c v i, i < length v -> vget (vscale c v) i = (c * vget v i)%Qc.
Proof. intros. unfold vscale. rewrite vget_map_0 by assumption. reflexivity. Qed.

Lemma stepf_nonneg : forall n k P E o x, stochastic n P -> row_stochastic n k E -> o < k -> (forall i, i < n -> (0 <= x i)%Qc) ->
  forall s, s < n -> (0 <= stepf n P E o x s)%Qc.
Proof.
  intros n k P E o x HP HE Ho Hx s Hs. unfold stepf. apply Qc_mul_nonneg; [apply HE; assumption|].
  apply sumn_nonneg. intros i Hi. apply Qc_mul_nonneg; [apply Hx; exact Hi|apply HP; assumption].
Qed.
Lemma alpha_nonneg : forall n k P E, stochastic n P -> row_stochastic n k E -> forall obs, obs_ok k obs -> forall x, (forall i, i < n -> (0 <= x i)%Qc) ->
  forall s, s < n -> (0 <= alpha n P E obs x s)%Qc.
Proof.
  intros n k P E HP HE obs; induction obs as [|o obs IH]; intros Ho x Hx s Hs; cbn [alpha]; [apply Hx; exact Hs|].
  apply IH; [intros y Hy; apply Ho; right; exact Hy| |exact Hs].
  intros i Hi. eapply stepf_nonneg; [exact HP|exact HE|apply Ho; left; reflexivity|exact Hx|exact Hi].
Qed.
Lemma beta_nonneg : forall n k P E, stochastic n P -> row_stochastic n k E -> forall obs, obs_ok k obs ->
  forall s, s < n -> (0 <= beta n P E obs s)%Qc.
Proof.
  intros n k P E HP HE obs; induction obs as [|o obs IH]; intros Ho s Hs; cbn [beta]; [discriminate|].
  apply sumn_nonneg. intros j Hj. apply Qc_mul_nonneg; [apply Qc_mul_nonneg|].
  - apply HP; assumption.
  - apply HE; [exact Hj|apply Ho; left; reflexivity].
  - apply IH; [intros y Hy; apply Ho; right; exact Hy|exact Hj].
Qed.
Lemma obs_ok_firstn : forall k obs t, obs_ok k obs -> obs_ok k (firstn t obs).
Proof. intros k obs t H o Ho. apply H. rewrite <- (firstn_skipn t obs). apply in_or_app. left. exact Ho. Qed.
Lemma obs_ok_skipn : forall k obs t, obs_ok k obs -> obs_ok k (skipn t obs).
Proof. intros k obs t H o Ho. apply H. rewrite <- (firstn_skipn t obs). apply in_or_app. right. exact Ho. Qed.

(** Probability of having emitted the first t symbols and of being in i then. *)
Lemma prefix_alpha : forall n P E (x : vec) obs t i, t < length obs -> i < n ->
  paths_total n P E x (firstn (S t) obs) (fun w => Nat.eqb (nth t w 0) i) = alpha n P E (firstn (S t) obs) (vget x) i.
Proof.
  intros n P E x obs t i Ht Hi. rewrite total_at by (try rewrite firstn_length; lia).
  rewrite firstn_firstn, Nat.min_id. rewrite skipn_all2 by (rewrite firstn_length; lia). cbn [beta]. ring.
Qed.

Definition decodable (n : nat) (P E : mat) (x : vec) (obs : list nat) : Prop :=
  forall t, t < length obs -> (tiny300 * likelihood n P E x (firstn t obs) <= likelihood n P E x (firstn (S t) obs))%Qc.

Record decode_ok (n : nat) (P E : mat) (x : vec) (obs : list nat) (b : bool) (d : decoding) : Prop := {
  dk_pos : (0 < likelihood n P E x obs)%Qc;
  dk_log : d_log d = ln (Qc2R (likelihood n P E x obs));
  dk_len : length (d_post d) = length obs;
  dk_post : forall t i, t < length obs -> i < n -> vget (nth t (d_post d) []) i = posterior n P E x obs t i;
  dk_dist : forall t, t < length obs -> distribution n (nth t (d_post d) []);
  dk_fwd : length (d_fwd d) = S (length obs) /\ nth 0 (d_fwd d) [] = x /\ forall t i, t < length obs -> i < n ->
    vget (nth (S t) (d_fwd d) []) i =
      (let a := paths_total n P E x (firstn (S t) obs) (fun w => Nat.eqb (nth t w 0%nat) i) in
       if b then a / likelihood n P E x (firstn (S t) obs) else a)%Qc;
  dk_bwd : length (d_back d) = S (length obs) /\ forall t i, t <= length obs -> i < n ->
    vget (nth t (d_back d) []) i =
      (let f := future n P E i (skipn t obs) in
       if b then f * likelihood n P E x (firstn t obs) / likelihood n P E x obs else f)%Qc;
  dk_scale : if b then exists sf, d_scale d = Some sf /\ length sf = S (length obs) /\ nth 0 sf 0q = 1q /\
       forall t, t < length obs -> (nth (S t) sf 0q * likelihood n P E x (firstn t obs) = likelihood n P E x (firstn (S t) obs))%Qc
     else d_scale d = None
}.

Lemma decode_spec : forall n k P E x obs b, 0 < n -> hmm_ok n k P E x -> obs_ok k obs ->
  match hmm_decode P E x obs b with
  | Some d => decodable n P E x obs /\ decode_ok n P E x obs b d
  | None => exists t, t < length obs /\ (likelihood n P E x (firstn (S t) obs) < tiny300 * likelihood n P E x (firstn t obs))%Qc
  end.
Proof.
  intros n k P E x obs b Hn [HP [HE HD]] Ho. unfold hmm_decode. rewrite (st_rows n P HP).
  pose proof (fwd_loop_spec n P E obs x) as HF. destruct (fwd_loop n P E x obs) as [l|].
  2:{ destruct HF as [t [c [H1 [H2 [H3 [H4 H5]]]]]]. exists t. split; [exact H1|]. rewrite !likelihood_alpha.
      destruct t as [|t].
      - rewrite (H3 eq_refl) in H5. cbn [firstn alpha] in *. destruct HD as [_ [_ Hs]]. rewrite Hs. exact H5.
      - rewrite <- (H4 ltac:(lia)). exact H5. }
  destruct HF as [Hl HF].
  assert (L0 : likelihood n P E x [] = 1q) by (rewrite likelihood_alpha; cbn [alpha]; apply HD).
  set (sfs := map fst l). set (fs := map snd l).
  assert (Hls : length sfs = length obs) by (unfold sfs; rewrite map_length; exact Hl).
  assert (Hlf : length fs = length obs) by (unfold fs; rewrite map_length; exact Hl).
  assert (Hpos : forall s, In s sfs -> (0 < s)%Qc).
  { intros s Hs. destruct (In_nth _ _ 0q Hs) as [t [Ht <-]]. eapply Qclt_le_trans; [apply tiny300_pos|]. apply (HF t). lia. }
  assert (Hprod : forall t, t <= length obs -> prodl (firstn t sfs) = likelihood n P E x (firstn t obs)).
  { intros t Ht. destruct t as [|t]; [cbn [firstn prodl]; symmetry; exact L0|]. rewrite likelihood_alpha. apply (HF t). lia. }
  assert (Hall : prodl sfs = likelihood n P E x obs).
  { rewrite <- (firstn_all sfs) at 1. rewrite <- (firstn_all obs). rewrite Hls. apply Hprod. lia. }
  assert (HLp : forall t, t <= length obs -> (0 < likelihood n P E x (firstn t obs))%Qc).
  { intros t Ht. rewrite <- Hprod by exact Ht. apply prodl_pos. intros s Hs. apply Hpos. rewrite <- (firstn_skipn t sfs). apply in_or_app; left; exact Hs. }
  assert (HL : (0 < likelihood n P E x obs)%Qc) by (rewrite <- (firstn_all obs) at 1; apply HLp; lia).
  assert (HLn : likelihood n P E x obs <> 0q) by (apply Qc_lt_neq; exact HL).
  assert (Hstep : forall t, t < length obs -> (nth t sfs 0q * likelihood n P E x (firstn t obs) = likelihood n P E x (firstn (S t) obs))%Qc).
  { intros t Ht. rewrite <- !Hprod by lia.
    assert (E1 : firstn (S t) sfs = firstn t sfs ++ [nth t sfs 0q]).
    { clear - Ht Hls. revert t Ht Hls. generalize (length obs). intros m t Ht Hls. subst m. revert t Ht.
      induction sfs as [|a r IH]; intros t Ht; [cbn in Ht; lia|]. destruct t; [reflexivity|]. cbn [firstn nth app]. f_equal. apply IH. cbn in Ht. lia. }
    rewrite E1, prodl_app. cbn [prodl]. ring. }
  assert (Hf : forall t i, t < length obs -> i < n -> (vget (nth t fs []) i * likelihood n P E x (firstn (S t) obs) =
     paths_total n P E x (firstn (S t) obs) (fun w => Nat.eqb (nth t w 0%nat) i))%Qc).
  { intros t i Ht Hi. rewrite prefix_alpha by assumption. rewrite <- Hprod by lia. apply (HF t Ht). exact Hi. }
  assert (Hfl : forall t, t < length obs -> length (nth t fs []) = n) by (intros t Ht; apply (HF t Ht)).
  set (bw := bwd_loop n P E (combine obs sfs)).
  assert (Hbl : length bw = S (length obs)) by (unfold bw; rewrite bwd_loop_len, combine_length, Hls; lia).
  assert (Hb : forall t, t <= length obs -> length (nth t bw []) = n /\ forall i, i < n ->
     (vget (nth t bw []) i * likelihood n P E x obs = future n P E i (skipn t obs) * likelihood n P E x (firstn t obs))%Qc).
  { intros t Ht. destruct (bwd_loop_spec n P E obs sfs Hls Hpos t Ht) as [A B]. split; [exact A|]. intros i Hi.
    rewrite future_beta, <- (B i Hi). fold bw. rewrite <- Hall, <- Hprod by exact Ht.
    rewrite <- (firstn_skipn t sfs) at 1. rewrite prodl_app. ring. }
  set (post := tl (map (fun y => vmulp (fst y) (snd y)) (combine bw (x :: fs)))).
  assert (Hpl : length post = length obs).
  { unfold post. destruct bw as [|b0 bw']; [discriminate|]. cbn [combine map tl]. rewrite map_length, combine_length. cbn in Hbl. lia. }
  assert (Hpn : forall t, t < length obs -> nth t post [] = vmulp (nth (S t) bw []) (nth t fs [])).
  { intros t Ht. unfold post. destruct bw as [|b0 bw']; [discriminate|]. cbn [combine map tl]. cbn in Hbl.
    rewrite (nth_map_d _ _ (([] : vec), ([] : vec))) by (rewrite combine_length; lia). rewrite nth_combine by lia. reflexivity. }
  assert (Hpost : forall t i, t < length obs -> i < n -> vget (nth t post []) i = posterior n P E x obs t i).
  { intros t i Ht Hi. rewrite Hpn by exact Ht. destruct (Hb (S t) ltac:(lia)) as [A B].
    rewrite vget_vmulp by (try rewrite A; try rewrite Hfl by exact Ht; exact Hi).
    unfold posterior. rewrite total_at by assumption.
    apply (Qc_mul_cancel_r _ _ (likelihood n P E x obs)); [exact HLn|].
    rewrite Qc_div_mul by exact HLn. specialize (B i Hi). specialize (Hf t i Ht Hi). rewrite prefix_alpha in Hf by assumption.
    rewrite future_beta in B. rewrite <- Hf.
    replace (vget (nth (S t) bw []) i * vget (nth t fs []) i * likelihood n P E x obs)%Qc
      with (vget (nth t fs []) i * (vget (nth (S t) bw []) i * likelihood n P E x obs))%Qc by ring.
    rewrite B. ring. }
  assert (Hdist : forall t, t < length obs -> distribution n (nth t post [])).
  { intros t Ht. destruct (Hb (S t) ltac:(lia)) as [A _]. split; [|split].
    - rewrite Hpn by exact Ht. unfold vmulp. rewrite map_length, combine_length, A, Hfl by exact Ht. lia.
    - intros i Hi. rewrite Hpost by assumption. unfold posterior. rewrite total_at by assumption.
      apply Qc_div_nonneg; [|exact HL]. apply Qc_mul_nonneg.
      + eapply alpha_nonneg; [exact HP|exact HE|apply obs_ok_firstn; exact Ho|intros; apply HD; assumption|exact Hi].
      + eapply beta_nonneg; [exact HP|exact HE|apply obs_ok_skipn; exact Ho|exact Hi].
    - rewrite (sumn_ext n _ (fun i => alpha n P E (firstn (S t) obs) (vget x) i * beta n P E (skipn (S t) obs) i * / likelihood n P E x obs)%Qc).
      2:{ intros i Hi. rewrite Hpost by assumption. unfold posterior. rewrite total_at by assumption. reflexivity. }
      rewrite sumn_mul_r, alpha_beta_sum by lia. rewrite <- likelihood_alpha. apply Qcmult_inv_r. exact HLn. }
  assert (Hlog : sum_ln (1q :: sfs) = ln (Qc2R (likelihood n P E x obs))).
  { rewrite sum_ln_prodl by (intros s [<-|Hs]; [reflexivity|apply Hpos; exact Hs]). cbn [prodl]. rewrite Hall. f_equal. f_equal. ring. }
  assert (Hdec : decodable n P E x obs).
  { intros t Ht. rewrite <- Hstep by exact Ht. apply Qcmult_le_compat_r; [apply (HF t Ht)|apply Qclt_le_weak; apply HLp; lia]. }
  destruct b; (split; [exact Hdec|]); constructor; cbn [d_log d_post d_back d_fwd d_scale];
    try exact HL; try exact Hlog; try exact Hpl; try exact Hpost; try exact Hdist.
  - split; [cbn [length]; lia|]. split; [reflexivity|]. intros t i Ht Hi. cbn [nth]. cbv zeta.
    rewrite <- Hf by assumption. field. apply Qc_lt_neq. apply HLp. lia.
  - split; [exact Hbl|]. intros t i Ht Hi. cbv zeta. destruct (Hb t Ht) as [_ B]. rewrite <- B by exact Hi. field. exact HLn.
  - exists (1q :: sfs). split; [reflexivity|]. split; [cbn [length]; lia|]. split; [reflexivity|]. intros t Ht. cbn [nth]. apply Hstep. exact Ht.
  - assert (Hcl : length (cumprod 1q (1q :: sfs)) = S (length obs)) by (rewrite cumprod_len; cbn [length]; lia).
    assert (Hc0 : nth 0 (cumprod 1q (1q :: sfs)) 0q = 1q) by (rewrite cumprod_nth by (cbn [length]; lia); cbn; reflexivity).
    split; [rewrite map_length, combine_length, Hcl; cbn [length]; lia|]. split.
    + rewrite (nth_map_d _ _ (0q, ([] : vec))) by (rewrite combine_length, Hcl; cbn [length]; lia).
      rewrite nth_combine by (try rewrite Hcl; cbn [length]; lia). rewrite Hc0. cbn [nth fst snd]. unfold vscale.
      rewrite <- (map_id x) at 2. apply map_ext. intros; ring.
    + intros t i Ht Hi. cbv zeta. rewrite (nth_map_d _ _ (0q, ([] : vec))) by (rewrite combine_length, Hcl; cbn [length]; lia).
      rewrite nth_combine by (try rewrite Hcl; cbn [length]; lia). cbn [nth fst snd].
      rewrite vget_vscale by (rewrite Hfl by exact Ht; exact Hi). rewrite cumprod_nth by (cbn [length]; lia).
      change (firstn (S (S t)) (1q :: sfs)) with (1q :: firstn (S t) sfs). cbn [prodl]. rewrite Hprod by lia. rewrite <- Hf by assumption. ring.
  - cbn [tl]. assert (Hrl : length (rev (1q :: cumprod 1q (rev sfs))) = S (length obs)).
    { rewrite rev_length. cbn [length]. rewrite cumprod_len, rev_length. lia. }
    split; [rewrite map_length, combine_length, Hrl, Hbl; lia|]. intros t i Ht Hi. cbv zeta.
    rewrite (nth_map_d _ _ (0q, ([] : vec))) by (rewrite combine_length, Hrl, Hbl; lia).
    rewrite nth_combine by lia. cbn [fst snd]. destruct (Hb t Ht) as [A B].
    rewrite vget_vscale by (rewrite A; exact Hi). rewrite back_scale_nth by lia.
    apply (Qc_mul_cancel_r _ _ (likelihood n P E x (firstn t obs))); [apply Qc_lt_neq; apply HLp; exact Ht|].
    rewrite <- (B i Hi). rewrite <- (Hprod t Ht), <- Hall. rewrite <- (firstn_skipn t sfs) at 3. rewrite prodl_app. ring.
  - reflexivity.
Qed.
