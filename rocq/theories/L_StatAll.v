(** L_StatAll: every stationary distribution is a mixture of the listed ones. *)
From Verif Require Export L_Sens.
Open Scope nat_scope.

Lemma stationary_kstep n P v k : stochastic n P -> distribution n v -> stationary n P v -> forall j, j < n ->
  sumn n (fun i => vget v i * kstep n P k i j)%Qc = vget v j.
Proof.
  intros St Dv [_ Sv]. induction k as [|k IH]; intros j Hj.
  - rewrite (sumn_single n _ j Hj).
    + unfold kstep, prob_paths, words. cbn. rewrite Nat.eqb_refl. ring.
    + intros i Hi Ne. unfold kstep, prob_paths, words. cbn. destruct (Nat.eqb_spec i j); [congruence|]. ring.
  - change (step_dist n P v (S k) j = vget v j). rewrite step_dist_S by exact Hj. rewrite <- (Sv j Hj). apply sumn_ext. intros i Hi.
    unfold step_dist. rewrite (IH i Hi). reflexivity.
Qed.
(** Stationary distributions charge recurrent states only. *)
Lemma stationary_support n P v x : 0 < n -> stochastic n P -> distribution n v -> stationary n P v -> x < n ->
  (0 < vget v x)%Qc -> recurrent n (edge P) x.
Proof.
  intros Hn St Dv Sv Hx Px. pose proof St as (W & Pos & Row). pose proof Dv as (Lv & Nv & S1).
  pose proof (sccs_enum n P W) as HE. set (comps := sccs P) in *.
  destruct (some_recurrent n P comps x W Hx HE) as (r & Hr & [k Wk]).
  assert (RI : forall y, In y (recurrent_states_indices P comps) <-> recurrent n (edge P) y).
  { intros y. rewrite (recurrent_state_in n P comps y W HE). reflexivity. }
  set (g := fun j : nat => memn j (recurrent_states_indices P comps)).
  destruct (g x) eqn:Gx; [apply RI, memn_In, Gx|]. exfalso.
  set (ka := fun i : nat => sumn n (fun j => if g j then kstep n P k i j else 0q)).
  assert (Kn : forall i, i < n -> (0 <= ka i)%Qc).
  { intros i Hi. apply sumn_nonneg. intros j Hj. destruct (g j); [apply kstep_nonneg; assumption|apply Qcle_refl]. }
  assert (K1 : forall i, i < n -> g i = true -> ka i = 1q).
  { intros i Hi Gi. rewrite <- (kstep_sum n P k St i Hi). apply sumn_ext. intros j Hj. destruct (g j) eqn:Gj; [reflexivity|].
    destruct (Qc_eq_dec (kstep n P k i j) 0q) as [E|E]; [symmetry; exact E|]. exfalso.
    assert (Kp : (0 < kstep n P k i j)%Qc).
    { pose proof (kstep_nonneg n P k Pos i j Hi Hj) as K. destruct (pos_or_0 _ K); [assumption|congruence]. }
    apply (kstep_walk n P k Pos i j Hi Hj) in Kp. apply memn_In in Gi. apply RI in Gi. destruct Gi as [_ Ri].
    apply memn_false in Gj. apply Gj. apply RI. split; [exact Hj|]. intros y Hy.
    assert (Rj : reach n (edge P) i j) by (exists k; exact Kp).
    apply (reach_trans n (edge P) y i j); [|exact Rj]. apply Ri. apply (reach_trans n (edge P) i j y); assumption. }
  assert (E : sumn n (fun i => vget v i * ka i)%Qc = sumn n (fun i => if g i then vget v i else 0q)).
  { unfold ka. rewrite (sumn_ext n _ (fun i => sumn n (fun j => if g j then vget v i * kstep n P k i j else 0))%Qc).
    - rewrite sumn_swap. apply sumn_ext. intros j Hj. destruct (g j).
      + apply stationary_kstep; assumption.
      + apply sumn_0. reflexivity.
    - intros i Hi. rewrite <- sumn_mul_l. apply sumn_ext. intros j Hj. destruct (g j); ring. }
  assert (Lt : (sumn n (fun i => if g i then vget v i else 0q) < sumn n (fun i => vget v i * ka i))%Qc).
  { apply (sumn_lt n _ _ x Hx).
    - rewrite Gx. apply Qc_mul_pos; [exact Px|]. apply (sumn_pos n _ r).
      + apply RI in Hr. apply Hr.
      + replace (g r) with true by (symmetry; apply memn_In; exact Hr). apply (kstep_walk n P k Pos x r Hx); [apply RI in Hr; apply Hr|exact Wk].
      + intros j Hj. destruct (g j); [apply kstep_nonneg; assumption|apply Qcle_refl].
    - intros i Hi. destruct (g i) eqn:Gi.
      + rewrite (K1 i Hi Gi). rewrite Qcmult_1_r. apply Qcle_refl.
      + apply Qc_mul_nonneg; [apply Nv; exact Hi|apply Kn; exact Hi]. }
  rewrite E in Lt. exact (Qclt_irr _ Lt).
Qed.

Lemma restrict_stationary n P B v : stochastic n P -> NoDup B -> (forall x, In x B -> x < n) -> stationary n P v ->
  (forall i j, i < n -> ~ In i B -> In j B -> (vget v i * mget P i j)%Qc = 0q) ->
  stationary (length B) (mix P B B) (tab (length B) (fun k => vget v (nth k B 0))).
Proof.
  intros St ND LB [_ Sv] Z. split; [apply tab_length|]. intros b Hb. rewrite vget_tab by exact Hb.
  assert (Ib : In (nth b B 0) B) by (apply nth_In; exact Hb).
  rewrite <- (Sv _ (LB _ Ib)). rewrite <- (sumn_block n B (fun i => vget v i * mget P i (nth b B 0%nat))%Qc ND LB (fun i Hi Ni => Z i _ Hi Ni Ib)).
  apply sumn_ext. intros a Ha. rewrite vget_tab, mget_mix by assumption. reflexivity.
Qed.
Definition mass (v : vec) (B : list nat) : Qc := lsum (map (vget v) B).
(** On a closed communicating class a stationary distribution is proportional to the
    one that lives there. *)
Lemma class_proportional n P B x v : 0 < n -> stochastic n P -> NoDup B -> B <> [] -> (forall i, In i B -> i < n) -> closed n (edge P) B ->
  (forall i j, In i B -> In j B -> reach n (edge P) i j) -> pi_ok n P B x -> distribution n v -> stationary n P v ->
  forall i, In i B -> vget v i = (mass v B * vget x i)%Qc.
Proof.
  intros Hn St ND NE LB Cl Com ((Lx & Nx & S1x) & Sx & Px) Dv Sv.
  pose proof Dv as (Lv & Nv & S1v). pose proof St as (W & Pos & Row).
  assert (B0 : 0 < length B) by (destruct B; [congruence|cbn; lia]).
  assert (Zx : forall i, i < n -> ~ In i B -> vget x i = 0q).
  { intros i Hi Ni. destruct (pos_or_0 _ (Nx i Hi)) as [H|H]; [exfalso; apply Ni, Px; assumption|exact H]. }
  assert (Zv : forall i j, i < n -> ~ In i B -> In j B -> (vget v i * mget P i j)%Qc = 0q).
  { intros i j Hi Ni Hj. destruct (pos_or_0 _ (Nv i Hi)) as [H|H]; [|rewrite H; ring].
    pose proof (stationary_support n P v i Hn St Dv Sv Hi H) as [_ Rc].
    destruct (pos_or_0 _ (Pos i j Hi (LB j Hj))) as [H2|H2]; [|rewrite H2; ring]. exfalso. apply Ni.
    assert (Rij : reach n (edge P) i j) by (exists 1; apply (walk_cons n _ 0 i j j Hi (LB j Hj) H2), walk_nil, LB, Hj).
    destruct (Rc j Rij) as [k Wk]. revert Wk Hj. clear - Cl. revert j. induction k as [|k IH]; intros j Wk Hj; inversion Wk; subst; [exact Hj|].
    eapply IH; [eassumption|]. eapply Cl; eassumption. }
  set (vB := tab (length B) (fun k => vget v (nth k B 0))). set (xB := tab (length B) (fun k => vget x (nth k B 0))).
  assert (SvB : stationary (length B) (mix P B B) vB) by (apply (restrict_stationary n); assumption).
  assert (SxB : stationary (length B) (mix P B B) xB).
  { apply (restrict_stationary n); try assumption. intros i j Hi Ni _. rewrite (Zx i Hi Ni). ring. }
  assert (StB := closed_stochastic n P B St ND LB Cl). assert (IB := closed_irreducible n P B ND Cl Com).
  assert (Mv : sumn (length B) (vget vB) = mass v B).
  { unfold mass. rewrite <- sumn_nth_lsum. apply sumn_ext. intros k Hk. unfold vB. rewrite vget_tab by exact Hk. reflexivity. }
  assert (Mx : sumn (length B) (vget xB) = 1q).
  { rewrite <- S1x. rewrite <- (sumn_block n B (vget x) ND LB Zx). apply sumn_ext. intros k Hk. unfold xB. rewrite vget_tab by exact Hk. reflexivity. }
  assert (Dx : distribution (length B) xB).
  { split; [apply tab_length|]. split; [|exact Mx]. intros i Hi. unfold xB. rewrite vget_tab by exact Hi. apply Nx, LB, nth_In, Hi. }
  assert (PxB : forall i, i < length B -> (0 < vget xB i)%Qc).
  { intros i Hi. unfold xB. rewrite vget_tab by exact Hi. apply Px; [apply LB|]; apply nth_In; exact Hi. }
  assert (Mn : (0 <= mass v B)%Qc).
  { rewrite <- Mv. apply sumn_nonneg. intros i Hi. unfold vB. rewrite vget_tab by exact Hi. apply Nv, LB, nth_In, Hi. }
  intros i Hi. destruct (In_nth B i 0 Hi) as (k & Hk & Ek).
  destruct (pos_or_0 _ Mn) as [Mp|M0].
  - assert (U : tab (length B) (fun k => vget vB k / mass v B)%Qc = xB).
    { apply (stationary_unique (length B) (mix P B B) xB); try assumption.
      - apply tab_length.
      - rewrite (sumn_ext _ _ (fun k => vget vB k / mass v B)%Qc) by (intros; rewrite vget_tab by assumption; reflexivity).
        rewrite sumn_div, Mv. apply Qc_div_self, Qc_lt_neq, Mp.
      - split; [apply tab_length|]. intros j Hj. rewrite vget_tab by exact Hj. destruct SvB as [_ Sb]. rewrite <- (Sb j Hj), <- sumn_div.
        apply sumn_ext. intros a Ha. rewrite vget_tab by exact Ha. unfold Qcdiv. ring. }
    assert (Uk : vget xB k = (vget vB k / mass v B)%Qc) by (rewrite <- U, vget_tab by exact Hk; reflexivity).
    unfold xB, vB in Uk. rewrite !vget_tab, Ek in Uk by exact Hk. rewrite Uk. field. apply Qc_lt_neq, Mp.
  - rewrite M0, Qcmult_0_l. rewrite <- Mv in M0.
    assert (Z := sumn_eq0_inv (length B) (vget vB) k ltac:(intros a Ha; unfold vB; rewrite vget_tab by exact Ha; apply Nv, LB, nth_In, Ha) M0 Hk).
    unfold vB in Z. rewrite vget_tab, Ek in Z by exact Hk. exact Z.
Qed.

Lemma NoDup_app_intro {A} (l1 l2 : list A) : NoDup l1 -> NoDup l2 -> (forall x, In x l1 -> In x l2 -> False) -> NoDup (l1 ++ l2).
Proof.
  induction l1 as [|a l1 IH]; intros H1 H2 D; [exact H2|]. inversion H1; subst. cbn. constructor.
  - rewrite in_app_iff. intros [C|C]; [contradiction|]. apply (D a); [left; reflexivity|exact C].
  - apply IH; auto. intros x X1 X2. apply (D x); [right; exact X1|exact X2].
Qed.
Lemma lsum_concat_map {A} (f : A -> Qc) ls : lsum (map f (concat ls)) = lsum (map (fun l => lsum (map f l)) ls).
Proof. induction ls as [|l ls IH]; [reflexivity|]. cbn [concat map lsum fold_right]. rewrite map_app, lsum_app, IH. reflexivity. Qed.

Lemma stationary_span n P comps : 0 < n -> stochastic n P -> scc_enum n (edge P) comps ->
  exists pis, stationary_distributions P comps = Ok pis /\ forall v,
    (distribution n v /\ stationary n P v) <-> exists c, distribution (length pis) c /\ v = mixture n c pis.
Proof.
  intros Hn St HE. destruct (pi_spec n P comps Hn St HE) as (pis & E & F). exists pis. split; [exact E|].
  pose proof St as (W & Pos & Row). set (Rs := recurrent_classes_indices P comps) in *.
  destruct (recurrent_listing_ok n P comps St HE) as (NDR & RB & RC & RU). fold Rs in NDR, RB, RC, RU.
  destruct (classes_enum n _ comps HE) as [[HP HM] HS].
  assert (LF : length pis = length Rs) by (clear - F; induction F; cbn; congruence).
  assert (FN : forall k, k < length Rs -> pi_ok n P (nth k Rs []) (nth k pis [])).
  { clear - F. induction F as [|a b la lb H F IH]; intros [|k] Hk; cbn in *; try lia; [exact H|apply IH; lia]. }
  assert (BI : forall B, In B Rs -> In B (classes_indices comps) /\ closed n (edge P) B) by (intros B HB; apply (recurrent_in n P comps B W HE); exact HB).
  assert (BN : forall B, In B Rs -> NoDup B) by (intros B HB; eapply part_block_nodup; [exact HP|apply BI; exact HB]).
  assert (BL : forall B x, In B Rs -> In x B -> x < n) by (intros B x HB Hx; eapply part_lt; [exact HP|apply BI; exact HB|exact Hx]).
  assert (BC : forall B i j, In B Rs -> In i B -> In j B -> reach n (edge P) i j).
  { intros B i j HB Hi Hj. apply (proj1 (HM B i j (proj1 (BI B HB)) Hi (BL B j HB Hj)) Hj). }
  intros v. split.
  - intros (Dv & Sv). pose proof Dv as (Lv & Nv & S1).
    exists (map (mass v) Rs).
    assert (VM : forall k, k < length Rs -> vget (map (mass v) Rs) k = mass v (nth k Rs [])).
    { intros k Hk. unfold vget. rewrite (nth_indep _ 0q (mass v [])) by (rewrite map_length; exact Hk). apply map_nth. }
    assert (Zt : forall i, i < n -> ~ In i (concat Rs) -> vget v i = 0q).
    { intros i Hi Ni. destruct (pos_or_0 _ (Nv i Hi)) as [H|H]; [|exact H]. exfalso. apply Ni.
      destruct (RC i (stationary_support n P v i Hn St Dv Sv Hi H)) as (B & HB & HiB). apply in_concat. exists B. split; assumption. }
    assert (NDC : NoDup (concat Rs)).
    { clear - NDR BN RU. revert NDR BN RU. induction Rs as [|B Rs IH]; intros NDR BN RU; [constructor|]. cbn [concat]. inversion NDR; subst.
      apply NoDup_app_intro; [apply BN; left; reflexivity|apply IH; auto|].
      - intros B1 HB1. apply BN. right. exact HB1.
      - intros B1 B2 x H3 H4. apply RU; right; assumption.
      - intros x Hx Hc. apply in_concat in Hc. destruct Hc as (B' & HB' & HxB').
        rewrite (RU B B' x) in H1 by (auto; try (left; reflexivity); try (right; exact HB')). contradiction. }
    assert (LC : forall x, In x (concat Rs) -> x < n) by (intros x Hx; apply in_concat in Hx; destruct Hx as (B & HB & HxB); eapply BL; eassumption).
    split; [|].
    + split; [rewrite map_length, LF; reflexivity|]. rewrite LF. split.
      * intros k Hk. rewrite VM by exact Hk. apply lsum_nonneg. intros y Hy. apply in_map_iff in Hy. destruct Hy as (i & <- & Hi).
        apply Nv. eapply BL; [apply nth_In; exact Hk|exact Hi].
      * rewrite <- S1. rewrite <- (sumn_block n (concat Rs) (vget v) NDC LC Zt), sumn_nth_lsum, lsum_concat_map.
        rewrite (lsum_nth (map _ Rs)), map_length. apply sumn_ext. intros k Hk. reflexivity.
    + apply (vec_ext _ _ n Lv (tab_length _ _)). intros j Hj. unfold mixture. rewrite vget_tab, LF by exact Hj.
      destruct (in_dec Nat.eq_dec j (concat Rs)) as [Ij|Nj].
      * apply in_concat in Ij. destruct Ij as (B & HB & HjB). destruct (In_nth Rs B [] HB) as (k & Hk & Ek).
        rewrite (sumn_single _ _ k Hk).
        -- rewrite VM, Ek by exact Hk. pose proof (FN k Hk) as Fk. rewrite Ek in Fk.
           apply (class_proportional n P B (nth k pis []) v); try assumption; [apply BN; exact HB|apply RB; exact HB|intros; eapply BL; eassumption|apply BI; exact HB|intros; eapply BC; eassumption].
        -- intros k' Hk' Ne. destruct (FN k' Hk') as ((_ & Nx & _) & _ & Px).
           destruct (pos_or_0 _ (Nx j Hj)) as [H|H]; [|rewrite H; ring]. exfalso. apply Ne.
           apply Px in H; [|exact Hj]. assert (E2 : nth k' Rs [] = nth k Rs []).
           { rewrite Ek. apply (RU _ _ j); [apply nth_In; exact Hk'|exact HB|exact H|exact HjB]. }
           apply (proj1 (NoDup_nth Rs []) NDR); assumption.
      * rewrite (Zt j Hj Nj). symmetry. apply sumn_0. intros k Hk. destruct (FN k Hk) as ((_ & Nx & _) & _ & Px).
        destruct (pos_or_0 _ (Nx j Hj)) as [H|H]; [|rewrite H; ring]. exfalso. apply Nj. apply in_concat. exists (nth k Rs []).
        split; [apply nth_In; exact Hk|]. apply Px; assumption.
  - intros (c & (Lc & Nc & Sc) & ->). rewrite LF in *. unfold mixture. rewrite LF. split.
    + split; [apply tab_length|]. split.
      * intros j Hj. rewrite vget_tab by exact Hj. apply sumn_nonneg. intros k Hk. apply Qc_mul_nonneg; [apply Nc; exact Hk|]. destruct (FN k Hk) as ((_ & Nx & _) & _). apply Nx, Hj.
      * rewrite (sumn_ext n _ (fun j => sumn (length Rs) (fun k => vget c k * vget (nth k pis []) j))%Qc) by (intros; rewrite vget_tab by assumption; reflexivity).
        rewrite sumn_swap. rewrite <- Sc. apply sumn_ext. intros k Hk. rewrite sumn_mul_l. destruct (FN k Hk) as ((_ & _ & S1) & _).
        rewrite S1. ring.
    + split; [apply tab_length|]. intros j Hj. rewrite vget_tab by exact Hj.
      rewrite (sumn_ext n _ (fun i => sumn (length Rs) (fun k => vget c k * (vget (nth k pis []) i * mget P i j)))%Qc).
      * rewrite sumn_swap. apply sumn_ext. intros k Hk. rewrite sumn_mul_l. destruct (FN k Hk) as (_ & (_ & Sx) & _). rewrite (Sx j Hj). reflexivity.
      * intros i Hi. rewrite vget_tab by exact Hi. rewrite <- sumn_mul_r. apply sumn_ext. intros; ring.
Qed.
