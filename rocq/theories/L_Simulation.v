(** L_Simulation: proofs about simulation, prediction and sequence probabilities. *)
From Verif Require Export M_Simulation S_Simulation L_MeasuresR.
From Coq Require Import Reals Qreals Lra.
Close Scope Q_scope.
Close Scope R_scope.
Open Scope nat_scope.
Open Scope res_scope.

Lemma first_gt_spec : forall c u k i, let r := first_gt c u i k in
  i <= r <= i + k /\ (forall j, i <= j < r -> (c j <= u)%Qc) /\ (r < i + k -> (u < c r)%Qc).
Proof.
  intros c u k; induction k as [|k IH]; intros i; cbn [first_gt].
  - split; [lia|]. split; [intros; lia|intros; lia].
  - destruct (Qcltb u (c i)) eqn:E.
    + apply Qcltb_lt in E. split; [lia|]. split; [intros; lia|auto].
    + apply Qcltb_ge in E. specialize (IH (S i)). cbv zeta in IH. destruct IH as [Ha [Hb Hc]].
      split; [lia|]. split.
      * intros j Hj. destruct (Nat.eq_dec j i) as [->|]; [exact E|apply Hb; lia].
      * intros Hr. apply Hc. lia.
Qed.

Lemma cdf_dist : forall n w i, distribution n w -> cdf n w i = sumn (S i) (vget w).
Proof.
  intros n w i [_ [_ H1]]. unfold cdf. change (fun i => vget w i) with (vget w) in H1. rewrite H1.
  unfold Qcdiv. change (/ 1q)%Qc with 1q. ring.
Qed.

Lemma sumn_mono : forall f m n, m <= n -> (forall i, i < n -> (0 <= f i)%Qc) -> (sumn m f <= sumn n f)%Qc.
Proof.
  intros f m n Hmn Hf. replace n with (m + (n - m)) by lia. rewrite sumn_split.
  assert (0 <= sumn (n - m) (fun i => f (m + i)%nat))%Qc by (apply sumn_nonneg; intros; apply Hf; lia).
  qclra.
Qed.

Lemma choice_spec : forall n w u, distribution n w -> (0 <= u)%Qc -> (u < 1q)%Qc ->
  choice n w u < n /\ (sumn (choice n w u) (vget w) <= u)%Qc /\ (u < sumn (choice n w u) (vget w) + vget w (choice n w u))%Qc.
Proof.
  intros n w u Hd H0 H1. unfold choice.
  destruct (first_gt_spec (cdf n w) u n 0) as [Ha [Hb Hc]]. set (r := first_gt (cdf n w) u 0 n) in *.
  assert (Hr : r < n).
  { destruct (Nat.eq_dec r n) as [E|]; [|lia]. exfalso.
    destruct n as [|n']. { destruct Hd as [_ [_ Hs]]. cbn in Hs. discriminate. }
    assert (Hl : (cdf (S n') w n' <= u)%Qc) by (apply Hb; lia).
    rewrite cdf_dist in Hl by exact Hd. destruct Hd as [_ [_ Hs]]. rewrite Hs in Hl. qclra. }
  split; [exact Hr|]. split.
  - destruct r as [|r']; [cbn; exact H0|]. rewrite <- (cdf_dist n w r' Hd). apply Hb. lia.
  - specialize (Hc ltac:(lia)). rewrite cdf_dist in Hc by exact Hd. cbn [sumn] in Hc. qclra.
Qed.

Lemma slot_unique : forall n f u a b, (forall i, i < n -> (0 <= f i)%Qc) -> a < n -> b < n ->
  (sumn a f <= u)%Qc -> (u < sumn a f + f a)%Qc -> (sumn b f <= u)%Qc -> (u < sumn b f + f b)%Qc -> a = b.
Proof.
  assert (X : forall n f u a b, (forall i, i < n -> (0 <= f i)%Qc) -> a < b -> b < n ->
    (u < sumn a f + f a)%Qc -> (sumn b f <= u)%Qc -> False).
  { intros n f u a b Hf Hab Hb H1 H2.
    assert (sumn (S a) f <= sumn b f)%Qc by (apply sumn_mono; [lia|intros; apply Hf; lia]).
    cbn [sumn] in H. qclra. }
  intros n f u a b Hf Ha Hb A1 A2 B1 B2.
  destruct (Nat.lt_trichotomy a b) as [C|[C|C]]; [exfalso; eapply (X n f u a b); eauto|exact C|exfalso; eapply (X n f u b a); eauto].
Qed.

Lemma row_dist : forall n P i, stochastic n P -> i < n -> distribution n (row P i).
Proof.
  intros n P i [Hw [Hp Hs]] Hi. split; [|split].
  - unfold row. destruct Hw as [Hl Hf]. apply Hf. apply nth_In. lia.
  - intros j Hj. apply (Hp i j Hi Hj).
  - apply (Hs i Hi).
Qed.
Lemma row_get : forall P i j, vget (row P i) j = mget P i j.
Proof. reflexivity. Qed.

Lemma choice_row : forall n P i u, stochastic n P -> i < n -> (0 <= u)%Qc -> (u < 1q)%Qc ->
  choice n (row P i) u < n /\ in_slot P i (choice n (row P i) u) u.
Proof. intros n P i u HS Hi H0 H1. exact (choice_spec n (row P i) u (row_dist n P i HS Hi) H0 H1). Qed.

Lemma slot_edge : forall P i j u, in_slot P i j u -> edge P i j.
Proof. unfold in_slot, edge. intros P i j u [A B]. qclra. Qed.

Lemma st_rows : forall n P, stochastic n P -> nrows P = n.
Proof. intros n P HS. apply (proj1 (proj1 HS)). Qed.


(** the loop, as a relation between the walk and the draws *)
Lemma sim_loop_spec : forall n P final u, stochastic n P -> unit_draws u -> forall k t cur, cur < n ->
  exists w, sim_loop P final u k t cur = Ok w /\ possible_walk n P (cur :: w) /\
    (forall q, q < length w -> in_slot P (nth q (cur :: w) 0) (nth (S q) (cur :: w) 0) (u (t + q))) /\
    stops_at k final (cur :: w).
Proof.
  intros n P final u HS Hu k; induction k as [|k IH]; intros t cur Hc.
  - exists []. split; [reflexivity|]. split; [|split].
    + split; cbn; intros q Hq; [destruct q; [exact Hc|lia]|lia].
    + cbn; intros; lia.
    + destruct final; cbn; [split; [intros; lia|split; [lia|left; lia]]|reflexivity].
  - cbn [sim_loop]. rewrite (st_rows n P HS). destruct (Nat.ltb_spec cur n) as [_|]; [|lia]. cbv iota.
    destruct (choice_row n P cur (u t) HS Hc (proj1 (Hu t)) (proj2 (Hu t))) as [Hs Hsl].
    set (s := choice n (row P cur) (u t)) in *.
    destruct (match final with Some f => Nat.eqb s f | None => false end) eqn:E.
    + exists [s]. split; [reflexivity|]. split; [|split].
      * split; cbn [length]; intros q Hq.
        -- destruct q as [|[|q]]; cbn; [exact Hc|exact Hs|lia].
        -- destruct q as [|q]; [cbn; eapply slot_edge; exact Hsl|lia].
      * cbn [length]. intros q Hq. destruct q; [|lia]. cbn. rewrite Nat.add_0_r. exact Hsl.
      * destruct final as [f|]; [|discriminate]. apply Nat.eqb_eq in E. cbn [stops_at length].
        split; [intros; lia|]. split; [lia|]. right. split; [lia|exact E].
    + destruct (IH (S t) s Hs) as [w [Hw [[Hp1 Hp2] [Hsl2 Hst]]]]. rewrite Hw. cbn [bind].
      exists (s :: w). split; [reflexivity|]. split; [|split].
      * split.
        -- intros q Hq. destruct q; [exact Hc|]. apply Hp1. cbn in Hq |- *. lia.
        -- intros q Hq. destruct q; [cbn; eapply slot_edge; exact Hsl|]. apply (Hp2 q). cbn in Hq |- *. lia.
      * intros q Hq. destruct q; [cbn; rewrite Nat.add_0_r; exact Hsl|].
        replace (t + S q) with (S t + q) by lia. apply (Hsl2 q). cbn in Hq. lia.
      * destruct final as [f|]; cbn [stops_at length] in *; [|lia].
        destruct Hst as [A [B C]]. apply Nat.eqb_neq in E. split; [|split; [lia|]].
        -- intros q H1 H2. destruct q as [|[|q]]; [lia|exact E|]. apply (A (S q)); lia.
        -- destruct C as [C|[C1 C2]]; [left; lia|]. right. split; [lia|].
           replace (S (S (length w)) - 1) with (S (length w)) by lia.
           replace (S (length w) - 1) with (length w) in C2 by lia. exact C2.
Qed.

Lemma simulate_spec : forall n P steps init final r u, 0 < n -> stochastic n P -> unit_draws u -> 2 <= steps ->
  (forall i, init = Some i -> i < n) -> (forall f, final = Some f -> f < n) ->
  exists w, simulate P steps init final r u = Ok w /\ possible_walk n P w /\ 2 <= length w <= steps + 1 /\
    (forall i, init = Some i -> nth 0 w 0 = i) /\ stops_at steps final w /\
    forall q, S q < length w -> in_slot P (nth q w 0) (nth (S q) w 0) (u q).
Proof.
  intros n P steps init final r u Hn HS Hu Hst Hi Hf. unfold simulate. rewrite (st_rows n P HS).
  destruct (Nat.leb_spec 2 steps) as [_|]; [|lia]. cbv iota.
  set (i := match init with Some i => i | None => r mod n end).
  assert (Hin : i < n). { unfold i. destruct init; [apply Hi; reflexivity|apply Nat.mod_upper_bound; lia]. }
  destruct (Nat.ltb_spec i n) as [_|]; [|lia]. cbv iota.
  assert (E : match final with Some f => Nat.ltb f n | None => true end = true).
  { destruct final; [apply Nat.ltb_lt; apply Hf; reflexivity|reflexivity]. }
  rewrite E. cbv iota. unfold mc_simulate.
  destruct (sim_loop_spec n P final u HS Hu steps 0 i Hin) as [w [Hw [Hp [Hsl Hs]]]]. rewrite Hw. cbn [bind].
  exists (i :: w). split; [reflexivity|]. split; [exact Hp|]. split; [|split; [|split]].
  - destruct final; cbn [stops_at length] in *; [|lia]. destruct Hs as [_ [B [C|[C _]]]]; lia.
  - intros i' Ei. unfold i. rewrite Ei. reflexivity.
  - exact Hs.
  - intros q Hq. apply (Hsl q). cbn in Hq. lia.
Qed.

(** conversely every possible walk is produced, exactly by the draws in its slots *)
Lemma sim_loop_complete : forall n P u, stochastic n P -> unit_draws u -> forall w t cur, cur < n ->
  (forall k, k < length w -> nth k w 0 < n) ->
  (forall q, q < length w -> in_slot P (nth q (cur :: w) 0) (nth (S q) (cur :: w) 0) (u (t + q))) ->
  sim_loop P None u (length w) t cur = Ok w.
Proof.
  intros n P u HS Hu w; induction w as [|s w IH]; intros t cur Hc Hr Hsl; [reflexivity|].
  cbn [length sim_loop]. rewrite (st_rows n P HS). destruct (Nat.ltb_spec cur n) as [_|]; [|lia]. cbv iota.
  destruct (choice_row n P cur (u t) HS Hc (proj1 (Hu t)) (proj2 (Hu t))) as [Hs [Ha Hb]].
  assert (Hs' : s < n) by (apply (Hr 0); cbn; lia).
  destruct (Hsl 0) as [Ga Gb]; [cbn; lia|]. cbn in Ga, Gb. rewrite Nat.add_0_r in Ga, Gb.
  assert (E : choice n (row P cur) (u t) = s).
  { apply (slot_unique n (mget P cur) (u t)); auto. intros j Hj. apply (proj1 (proj2 HS)); auto. }
  rewrite E. rewrite (IH (S t) s Hs').
  - reflexivity.
  - intros k Hk. apply (Hr (S k)). cbn; lia.
  - intros q Hq. replace (S t + q) with (t + S q) by lia. apply (Hsl (S q)). cbn; lia.
Qed.

Lemma simulate_iff : forall n P steps i r u w, stochastic n P -> unit_draws u -> 2 <= steps -> i < n ->
  length w = steps -> (forall k, k < steps -> nth k w 0 < n) ->
  (simulate P steps (Some i) None r u = Ok (i :: w) <->
   forall q, q < steps -> in_slot P (nth q (i :: w) 0) (nth (S q) (i :: w) 0) (u q)).
Proof.
  intros n P steps i r u w HS Hu Hst Hi Hl Hr. split.
  - intros H. destruct (simulate_spec n P steps (Some i) None r u ltac:(lia) HS Hu Hst) as [w' [Hw [_ [_ [_ [_ Hq]]]]]].
    + intros ? [= <-]; exact Hi.
    + discriminate.
    + rewrite H in Hw. injection Hw as <-. intros q Hlt. apply Hq. cbn. lia.
  - intros H. unfold simulate. rewrite (st_rows n P HS).
    destruct (Nat.leb_spec 2 steps) as [_|]; [|lia]. cbv iota.
    destruct (Nat.ltb_spec i n) as [_|]; [|lia]. cbv iota. unfold mc_simulate. rewrite <- Hl.
    rewrite (sim_loop_complete n P u HS Hu w 0 i Hi); [reflexivity| |].
    + rewrite Hl. exact Hr.
    + rewrite Hl. exact H.
Qed.

(** every walk of positive probability is produced by some draws *)
Lemma walk_has_draws : forall n P steps i w, stochastic n P -> 2 <= steps -> i < n -> length w = steps ->
  possible_walk n P (i :: w) -> exists u, unit_draws u /\ forall r, simulate P steps (Some i) None r u = Ok (i :: w).
Proof.
  intros n P steps i w HS Hst Hi Hl [Hr He].
  set (u := fun q => if Nat.ltb q steps then sumn (nth (S q) (i :: w) 0) (mget P (nth q (i :: w) 0)) else 0q).
  assert (Hu : unit_draws u).
  { intros t. unfold u. destruct (Nat.ltb_spec t steps) as [Ht|]; [|split; [apply Qcle_refl|reflexivity]].
    assert (Ha : nth t (i :: w) 0 < n) by (apply Hr; cbn; lia).
    assert (Hb : nth (S t) (i :: w) 0 < n) by (apply Hr; cbn; lia).
    assert (Hab : edge P (nth t (i :: w) 0) (nth (S t) (i :: w) 0)) by (apply He; cbn; lia).
    set (a := nth t (i :: w) 0) in *. set (b := nth (S t) (i :: w) 0) in *.
    assert (Hp : forall k, k < n -> (0 <= mget P a k)%Qc) by (intros; apply (proj1 (proj2 HS)); auto).
    split; [apply sumn_nonneg; intros; apply Hp; lia|].
    assert (sumn (S b) (mget P a) <= sumn n (mget P a))%Qc by (apply sumn_mono; [lia|exact Hp]).
    assert (E1 : sumn n (mget P a) = 1q) by (apply (proj2 (proj2 HS) a Ha)).
    rewrite E1 in H. cbn [sumn] in H. unfold edge in Hab. qclra. }
  exists u. split; [exact Hu|]. intros r. apply (simulate_iff n P steps i r u w HS Hu Hst Hi Hl).
  - intros k Hk. apply (Hr (S k)). cbn; lia.
  - intros q Hq. unfold in_slot, u. destruct (Nat.ltb_spec q steps); [|lia].
    assert (Hab : edge P (nth q (i :: w) 0) (nth (S q) (i :: w) 0)) by (apply He; cbn; lia).
    unfold edge in Hab. split; [apply Qcle_refl|qclra].
Qed.

Lemma next_spec : forall n P i u, stochastic n P -> unit_draws u -> i < n ->
  exists s, next P i u = Ok s /\ s < n /\ edge P i s /\ in_slot P i s (u 0).
Proof.
  intros n P i u HS Hu Hi. unfold next. rewrite (st_rows n P HS). destruct (Nat.ltb_spec i n) as [_|]; [|lia]. cbv iota.
  unfold mc_simulate. cbn [sim_loop]. rewrite (st_rows n P HS). destruct (Nat.ltb_spec i n) as [_|]; [|lia]. cbv iota; cbn [bind].
  destruct (choice_row n P i (u 0) HS Hi (proj1 (Hu 0)) (proj2 (Hu 0))) as [Hs Hsl].
  exists (choice n (row P i) (u 0)). split; [reflexivity|]. split; [exact Hs|]. split; [eapply slot_edge; exact Hsl|exact Hsl].
Qed.

(** ** predict *)
Lemma lmax_ge : forall l x, In x l -> (x <= lmax l)%Qc.
Proof.
  induction l as [|a l IH]; intros x [].
  - subst. cbn [lmax]. destruct l as [|b l]; [apply Qcle_refl|]. cbv zeta. set (m := lmax (b :: l)).
    destruct (Qcltb m x) eqn:E; [apply Qcle_refl|apply Qcltb_ge in E; exact E].
  - cbn [lmax]. destruct l as [|b l]; [destruct H|]. cbv zeta. specialize (IH x H). set (m := lmax (b :: l)) in *.
    destruct (Qcltb m a) eqn:E; [apply Qcltb_lt in E; qclra|exact IH].
Qed.
Lemma lmax_in : forall l, l <> [] -> In (lmax l) l.
Proof.
  induction l as [|a l IH]; intros H; [congruence|]. cbn [lmax]. destruct l as [|b l]; [left; reflexivity|].
  cbv zeta. set (m := lmax (b :: l)) in *. destruct (Qcltb m a); [left; reflexivity|right; apply IH; congruence].
Qed.
Lemma in_argmaxima : forall d j, In j (argmaxima d) <-> j < length d /\ vget d j = lmax d.
Proof.
  intros d j. unfold argmaxima. rewrite filter_In, in_seq, Qceqb_eq. intuition lia.
Qed.
Lemma argmaxima_nonempty : forall d, d <> [] -> argmaxima d <> [].
Proof.
  intros d Hd E. destruct (In_nth d (lmax d) 0q (lmax_in d Hd)) as [j [Hj Hv]].
  assert (In j (argmaxima d)) by (apply in_argmaxima; split; [exact Hj|exact Hv]). rewrite E in H. destruct H.
Qed.
Lemma argmaxima_nodup : forall d, NoDup (argmaxima d).
Proof. intros. unfold argmaxima. apply NoDup_filter, seq_NoDup. Qed.

Lemma argmax_single : forall n P i s, stochastic n P -> i < n -> (argmaxima (row P i) = [s] <-> strict_best n P i s).
Proof.
  intros n P i s HS Hi. destruct (row_dist n P i HS Hi) as [Hl _]. split.
  - intros E. assert (Hin : In s (argmaxima (row P i))) by (rewrite E; left; reflexivity).
    apply in_argmaxima in Hin. destruct Hin as [Hs Hv]. rewrite Hl in Hs. split; [exact Hs|].
    intros k Hk Hne. rewrite row_get in Hv. rewrite Hv.
    assert (Hle : (mget P i k <= lmax (row P i))%Qc) by (apply lmax_ge; apply nth_In; rewrite Hl; exact Hk).
    destruct (Qc_dec (mget P i k) (lmax (row P i))) as [[C|C]|C]; [exact C|qclra|].
    exfalso. assert (In k (argmaxima (row P i))) by (apply in_argmaxima; rewrite Hl; split; [exact Hk|exact C]).
    rewrite E in H. destruct H as [H|[]]. congruence.
  - intros [Hs Hb].
    assert (Hne : row P i <> []) by (intros E; rewrite E in Hl; cbn in Hl; lia).
    assert (Hall : forall k, In k (argmaxima (row P i)) -> k = s).
    { intros k Hk. apply in_argmaxima in Hk. rewrite Hl in Hk. destruct Hk as [Hk Hv]. rewrite row_get in Hv.
      destruct (Nat.eq_dec k s) as [|Hn]; [assumption|]. exfalso. specialize (Hb k Hk Hn). rewrite Hv in Hb.
      assert ((mget P i s <= lmax (row P i))%Qc) by (apply lmax_ge; apply nth_In; rewrite Hl; exact Hs). qclra. }
    pose proof (argmaxima_nonempty _ Hne) as Hx. pose proof (argmaxima_nodup (row P i)) as Hd.
    destruct (argmaxima (row P i)) as [|a [|b l]]; [congruence| |].
    + rewrite (Hall a); [reflexivity|left; reflexivity].
    + exfalso. inversion Hd as [|? ? Hn _]; subst. apply Hn. left. rewrite (Hall a), (Hall b); cbn; auto.
Qed.


Lemma predict_loop_spec : forall n P, stochastic n P -> forall k cur, cur < n ->
  exists o, predict_loop P k cur = Ok o /\
    (forall w, o = Some w <-> length w = k /\ greedy n P (cur :: w)).
Proof.
  intros n P HS k; induction k as [|k IH]; intros cur Hc.
  - exists (Some []). split; [reflexivity|]. intros w; split.
    + intros [= <-]. split; [reflexivity|]. intros q Hq. cbn in Hq. lia.
    + intros [Hl _]. destruct w; [reflexivity|discriminate].
  - cbn [predict_loop]. rewrite (st_rows n P HS). destruct (Nat.ltb_spec cur n) as [_|]; [|lia]. cbv iota.
    destruct (row_dist n P cur HS Hc) as [Hl _].
    assert (Hne : row P cur <> []) by (intros E; rewrite E in Hl; cbn in Hl; lia).
    destruct (argmaxima (row P cur)) as [|a [|b l]] eqn:E.
    + exfalso. eapply argmaxima_nonempty; eauto.
    + apply (argmax_single n P cur a HS Hc) in E. destruct (IH a (proj1 E)) as [o [Ho Hi]]. rewrite Ho. cbn [bind].
      eexists. split; [reflexivity|]. intros w. split.
      * destruct o as [w'|]; [|discriminate]. intros [= <-]. destruct (proj1 (Hi w') eq_refl) as [H1 H2].
        split; [cbn; lia|]. intros q Hq. destruct q; [exact E|]. apply (H2 q). cbn in Hq |- *. lia.
      * intros [H1 H2]. destruct w as [|s w]; [discriminate|].
        assert (s = a).
        { destruct E as [E1 E2]. destruct (H2 0) as [F1 F2]; [cbn; lia|]. cbn in F1, F2.
          destruct (Nat.eq_dec s a) as [|Hn]; [assumption|]. specialize (E2 s F1 Hn). specialize (F2 a E1 (not_eq_sym Hn)). qclra. }
        subst s. assert (Ho' : o = Some w).
        { apply Hi. split; [cbn in H1; lia|]. intros q Hq. apply (H2 (S q)). cbn in Hq |- *. lia. }
        rewrite Ho'. reflexivity.
    + exists None. split; [reflexivity|]. intros w. split; [discriminate|]. intros [H1 H2]. exfalso.
      destruct w as [|s w]; [discriminate|]. assert (Hs : strict_best n P cur s) by (apply (H2 0); cbn; lia).
      apply (argmax_single n P cur s HS Hc) in Hs. congruence.
Qed.

Lemma predict_spec : forall n P steps i, stochastic n P -> 1 <= steps -> i < n ->
  exists o, predict P steps i = Ok o /\
    forall w, o = Some w <-> length w = steps + 1 /\ nth 0 w 0 = i /\ greedy n P w.
Proof.
  intros n P steps i HS Hst Hi. unfold predict. rewrite (st_rows n P HS).
  destruct (Nat.leb_spec 1 steps) as [_|]; [|lia]. destruct (Nat.ltb_spec i n) as [_|]; [|lia]. cbv iota.
  destruct (predict_loop_spec n P HS steps i Hi) as [o [Ho Hi']]. rewrite Ho. cbn [bind].
  eexists. split; [reflexivity|]. intros w. split.
  - destruct o as [w'|]; [|discriminate]. intros [= <-]. destruct (proj1 (Hi' w') eq_refl) as [A B].
    split; [cbn; lia|]. split; [reflexivity|exact B].
  - intros [A [B C]]. destruct w as [|x w]; [cbn in A; lia|]. cbn in B. subst x.
    assert (E : o = Some w) by (apply Hi'; split; [cbn in A; lia|exact C]). rewrite E. reflexivity.
Qed.

Lemma strict_best_ge : forall n P i j k, strict_best n P i j -> k < n -> (mget P i k <= mget P i j)%Qc.
Proof.
  intros n P i j k [_ H] Hk. destruct (Nat.eq_dec k j) as [->|Hn]; [apply Qcle_refl|apply Qclt_le_weak; auto].
Qed.

Lemma predict_one : forall n P i w, stochastic n P -> i < n -> predict P 1 i = Ok (Some w) -> most_probable n P w.
Proof.
  intros n P i w HS Hi H. destruct (predict_spec n P 1 i HS ltac:(lia) Hi) as [o [Ho Hw]]. rewrite H in Ho. injection Ho as <-.
  destruct (proj1 (Hw w) eq_refl) as [Hl [H0 Hg]]. intros w' Hl' H0' Hr. cbn in Hl.
  destruct w as [|a [|b [|c w]]]; cbn in Hl; try lia. destruct w' as [|a' [|b' [|c' w']]]; cbn in Hl'; try lia.
  cbn in H0'. subst a'. cbn [walk_prob]. 
  assert ((mget P a b' <= mget P a b)%Qc) by (eapply strict_best_ge; [apply (Hg 0); cbn; lia|apply (Hr 1); cbn; lia]).
  qclra.
Qed.

(** the greedy walk dominates whenever the best transition of every state has the
    same probability *)
Lemma walk_prob_nonneg : forall n P w, stochastic n P -> (forall k, k < length w -> nth k w 0 < n) -> (0 <= walk_prob P w)%Qc.
Proof.
  intros n P w HS; induction w as [|i w IH]; intros H; [discriminate|].
  destruct w as [|j w]; [discriminate|]. cbn [walk_prob].
  apply Qc_mul_nonneg; [|apply IH; intros k Hk; apply (H (S k)); cbn in Hk |- *; lia].
  apply (proj1 (proj2 HS)); [apply (H 0); cbn; lia|apply (H 1); cbn; lia].
Qed.
Lemma walk_prob_le_pow : forall n P c, stochastic n P -> (forall i j, i < n -> j < n -> (mget P i j <= c)%Qc) -> (0 <= c)%Qc ->
  forall w, (forall k, k < length w -> nth k w 0 < n) -> (walk_prob P w <= c ^ (length w - 1))%Qc.
Proof.
  intros n P c HS Hc H0 w; induction w as [|i w IH]; intros H; [discriminate|].
  destruct w as [|j w]; [discriminate|]. cbn [walk_prob]. replace (length (i :: j :: w) - 1) with (S (length (j :: w) - 1)) by (cbn; lia).
  cbn [Qcpower]. assert (Hr : forall k, k < length (j :: w) -> nth k (j :: w) 0 < n) by (intros k Hk; apply (H (S k)); cbn in Hk |- *; lia).
  specialize (IH Hr).
  assert (A : (0 <= mget P i j)%Qc) by (apply (proj1 (proj2 HS)); [apply (H 0); cbn; lia|apply (H 1); cbn; lia]).
  assert (B : (mget P i j <= c)%Qc) by (apply Hc; [apply (H 0); cbn; lia|apply (H 1); cbn; lia]).
  pose proof (walk_prob_nonneg n P (j :: w) HS Hr) as D.
  set (x := walk_prob P (j :: w)) in *. set (y := (c ^ (length (j :: w) - 1))%Qc) in *.
  apply Qcle_trans with (c * x)%Qc; [apply Qcmult_le_compat_r; assumption|].
  rewrite (Qcmult_comm c x), (Qcmult_comm c y). apply Qcmult_le_compat_r; assumption.
Qed.
Lemma walk_prob_const : forall (n : nat) P c w, (forall k, S k < length w -> mget P (nth k w 0) (nth (S k) w 0) = c) ->
  walk_prob P w = (c ^ (length w - 1))%Qc.
Proof.
  intros n P c w; induction w as [|i w IH]; intros H; [reflexivity|].
  destruct w as [|j w]; [reflexivity|]. change (walk_prob P (i :: j :: w)) with (mget P i j * walk_prob P (j :: w))%Qc. replace (length (i :: j :: w) - 1) with (S (length (j :: w) - 1)) by (cbn; lia).
  cbn [Qcpower]. rewrite IH by (intros k Hk; apply (H (S k)); cbn in Hk |- *; lia). f_equal. apply (H 0). cbn; lia.
Qed.
Lemma predict_level : forall n P steps i w c, stochastic n P -> 1 <= steps -> i < n ->
  (forall a b, a < n -> b < n -> (mget P a b <= c)%Qc) -> (forall a, a < n -> exists b, b < n /\ mget P a b = c) ->
  predict P steps i = Ok (Some w) -> most_probable n P w.
Proof.
  intros n P steps i w c HS Hst Hi Hc Ha H. destruct (predict_spec n P steps i HS Hst Hi) as [o [Ho Hw]]. rewrite H in Ho. injection Ho as <-.
  destruct (proj1 (Hw w) eq_refl) as [Hl [H0 Hg]]. intros w' Hl' H0' Hr.
  assert (H0c : (0 <= c)%Qc).
  { destruct (Ha i Hi) as [b [Hb E]]. rewrite <- E. apply (proj1 (proj2 HS)); assumption. }
  assert (Hrange : forall k, k < length w -> nth k w 0 < n).
  { intros k Hk. destruct k; [rewrite H0; exact Hi|]. apply (Hg k); lia. }
  rewrite (walk_prob_const n P c w).
  - rewrite <- Hl'. eapply walk_prob_le_pow; eassumption.
  - intros k Hk. destruct (Ha (nth k w 0)) as [b [Hb E]]; [apply Hrange; lia|].
    apply Qcle_antisym; [apply Hc; apply Hrange; lia|]. rewrite <- E at 1. eapply strict_best_ge; [apply Hg; exact Hk|exact Hb].
Qed.

(** ** sequence probability *)
Lemma Qc2R_mul : forall a b, Qc2R (a * b)%Qc = (Qc2R a * Qc2R b)%R.
Proof. intros a b. unfold Qc2R. rewrite <- Q2R_mult. apply Qeq_eqR. unfold Qcmult. cbn [this]. apply Qred_correct. Qed.
Lemma Qc2R_plus : forall a b, Qc2R (a + b)%Qc = (Qc2R a + Qc2R b)%R.
Proof. intros a b. unfold Qc2R. rewrite <- Q2R_plus. apply Qeq_eqR. unfold Qcplus. cbn [this]. apply Qred_correct. Qed.
Lemma Qc2R_0 : Qc2R 0q = 0%R.
Proof. unfold Qc2R. replace (this 0q) with (0#1)%Q by reflexivity. apply RMicromega.Q2R_0. Qed.
Lemma Qc2R_1 : Qc2R 1q = 1%R.
Proof. unfold Qc2R. replace (this 1q) with (1#1)%Q by reflexivity. apply RMicromega.Q2R_1. Qed.
Lemma Qc2R_lt : forall a b, (a < b)%Qc -> (Qc2R a < Qc2R b)%R.
Proof. intros a b H. unfold Qc2R. apply Qlt_Rlt. exact H. Qed.
Lemma Qc2R_le : forall a b, (a <= b)%Qc -> (Qc2R a <= Qc2R b)%R.
Proof. intros a b H. unfold Qc2R. apply Qle_Rle. exact H. Qed.
Lemma Qc2R_inj : forall a b, Qc2R a = Qc2R b -> a = b.
Proof. intros a b H. apply Qc_is_canon. apply eqR_Qeq. exact H. Qed.
Lemma Qc2R_lt_inv : forall a b, (Qc2R a < Qc2R b)%R -> (a < b)%Qc.
Proof. intros a b H. unfold Qc2R in H. apply Rlt_Qlt. exact H. Qed.
Lemma Qc2R_pos : forall a, (0 < a)%Qc -> (0 < Qc2R a)%R.
Proof. intros a H. rewrite <- Qc2R_0. apply Qc2R_lt. exact H. Qed.

Lemma wp_loop_spec : forall n P, stochastic n P -> forall w a wp, (forall k, k < S (length w) -> nth k (a :: w) 0 < n) ->
  match wp_loop P (zip (removelast (a :: w)) w) wp with
  | Some x => (x = wp + ln (Qc2R (walk_prob P (a :: w))))%R /\ (0 < walk_prob P (a :: w))%Qc
  | None => walk_prob P (a :: w) = 0q
  end.
Proof.
  intros n P HS w; induction w as [|b w IH]; intros a wp Hr.
  - cbn. rewrite Qc2R_1, ln_1. split; [lra|reflexivity].
  - change (removelast (a :: b :: w)) with (a :: removelast (b :: w)). cbn [zip combine wp_loop].
    assert (Hab : (0 <= mget P a b)%Qc) by (apply (proj1 (proj2 HS)); [apply (Hr 0); cbn; lia|apply (Hr 1); cbn; lia]).
    destruct (Qcltb 0 (mget P a b)) eqn:E.
    + apply Qcltb_lt in E. specialize (IH b (wp + ln (Qc2R (mget P a b)))%R).
      unfold zip in IH. destruct (wp_loop P _ _) as [x|].
      * destruct IH as [IH1 IH2]; [intros k Hk; apply (Hr (S k)); cbn in Hk |- *; lia|].
        change (walk_prob P (a :: b :: w)) with (mget P a b * walk_prob P (b :: w))%Qc.
        rewrite Qc2R_mul, ln_mult by (apply Qc2R_pos; assumption). split; [lra|].
        apply Qc_mul_pos; assumption.
      * change (walk_prob P (a :: b :: w)) with (mget P a b * walk_prob P (b :: w))%Qc.
        rewrite IH; [ring|intros k Hk; apply (Hr (S k)); cbn in Hk |- *; lia].
    + apply Qcltb_ge in E. change (walk_prob P (a :: b :: w)) with (mget P a b * walk_prob P (b :: w))%Qc.
      replace (mget P a b) with 0q by (apply Qcle_antisym; assumption). ring.
Qed.

Lemma sequence_probability_spec : forall n P w, stochastic n P -> w <> [] -> (forall k, k < length w -> nth k w 0 < n) ->
  sequence_probability P w = Qc2R (walk_prob P w).
Proof.
  intros n P w HS Hne Hr. destruct w as [|a w]; [congruence|]. unfold sequence_probability. cbn [tl].
  pose proof (wp_loop_spec n P HS w a 0%R Hr) as H. destruct (wp_loop P _ _) as [x|].
  - destruct H as [H1 H2]. rewrite H1, Rplus_0_l. apply exp_ln. apply Qc2R_pos. exact H2.
  - rewrite H. symmetry. apply Qc2R_0.
Qed.

(** Greedy prediction is not optimal. *)
From Verif Require Import ExS.
Lemma predict_not_optimal : exists n P steps i w, stochastic n P /\ i < n /\ 1 <= steps /\
  predict P steps i = Ok (Some w) /\ ~ most_probable n P w.
Proof.
  exists 3, (ch_p cU), 2, 0, [0; 1; 0]. split; [apply stochasticb_ok; vm_compute; reflexivity|].
  split; [lia|]. split; [lia|]. split; [vm_compute; reflexivity|]. intros H.
  specialize (H [0; 2; 2] eq_refl eq_refl). assert (X : (walk_prob (ch_p cU) [0; 2; 2]%nat <= walk_prob (ch_p cU) [0; 1; 0]%nat)%Qc).
  { apply H. intros k Hk. do 3 (destruct k as [|k]; [cbn; lia|]). cbn in Hk. lia. }
  apply Qcle_not_lt in X. apply X. vm_compute. reflexivity.
Qed.
