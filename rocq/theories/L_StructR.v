(** L_StructR: absorbing states, periods of reducible chains, and the concrete
    counterexamples of the structural properties. *)
From Coq Require Import Permutation.
From Verif Require Export L_LumpEnum Dec Ex.

(* ---------- absorbing states ---------- *)
Lemma isclose_one_gap x : (x <= 1 - Q2Qc (2 # 100000))%Qc -> isclose x 1 = false.
Proof.
  intros H. destruct (isclose x 1) eqn:E; [|reflexivity]. exfalso. unfold isclose in E. apply Qcleb_le in E. apply Qcabs_le in E. destruct E as [E _].
  assert (E1 : (atol + rtol * Qcabs 1 = Q2Qc (1001 # 100000000))%Qc) by (apply Qc_is_canon; vm_compute; reflexivity). rewrite E1 in E. 
  assert (L : (Q2Qc (1001 # 100000000) < Q2Qc (2 # 100000))%Qc) by (vm_compute; reflexivity). qclra.
Qed.
Lemma absorbing_recurrent_gap n P comps i : stochastic n P -> scc_enum n (edge P) comps ->
  (forall k, k < n -> mget P k k = 1q \/ (mget P k k <= 1 - Q2Qc (2 # 100000))%Qc) ->
  In i (absorbing_indices P) <-> In [i] (recurrent_classes_indices P comps).
Proof.
  intros HS HC HG. pose proof HS as (Hp & Hnn & Hrow). rewrite (absorbing_in n) by exact Hp. rewrite (recurrent_in n) by assumption. split.
  - intros [Hi Hcl]. destruct (HG i Hi) as [H1|H1]; [|rewrite isclose_one_gap in Hcl by exact H1; discriminate].
    assert (Hz : forall j, j < n -> edge P i j -> j = i).
    { intros j Hj He. destruct (Nat.eq_dec j i) as [E|E]; [exact E|]. exfalso. unfold edge in He. rewrite (row_one n P i HS Hi H1 j Hj E) in He. exact (Qclt_irr _ He). }
    assert (Hr : forall y, reach n (edge P) i y -> y = i).
    { intros y [k Hk]. assert (G : forall k a b, walk n (edge P) k a b -> a = i -> b = i).
      { intros k' a b Hw. induction Hw as [a Ha|k' a b c Ha Hb He Hw IH]; intros E; [exact E|]. apply IH. subst a. apply Hz; assumption. }
      eapply G; [exact Hk|reflexivity]. }
    destruct (classes_enum n (edge P) comps HC) as [[HP HM] HSs].
    destruct (part_cover n _ i HP Hi) as (B & HB & HiB). assert (B = [i]).
    { apply sorted_lt_unique; [apply HSs; exact HB|repeat constructor|]. intros x. split.
      - intros Hx. left. symmetry. apply Hr. destruct (proj1 (HM B i x HB HiB (part_lt n _ B x HP HB Hx)) Hx) as [A _]. exact A.
      - intros [<-|[]]; exact HiB. }
    subst B. split; [exact HB|]. intros a b [<-|[]] Hb He. left. symmetry. apply Hz; assumption.
  - intros [HB Hcl]. destruct (classes_enum n (edge P) comps HC) as [[HP HM] HSs].
    assert (Hi : i < n) by (apply (part_lt n _ [i] i HP HB); left; reflexivity). split; [exact Hi|].
    assert (E : mget P i i = 1q); [|rewrite E; apply isclose_refl].
    rewrite <- (Hrow i Hi). symmetry. rewrite (sumn_single n _ i Hi); [reflexivity|].
    intros j Hj Hne. destruct (Qcle_lt_or_eq _ _ (Hnn i j Hi Hj)) as [C|C]; [|symmetry; exact C]. exfalso. apply Hne.
    destruct (Hcl i j (or_introl eq_refl) Hj C) as [->|[]]. reflexivity.
Qed.
Lemma recurrent_single_absorbing n P comps i : stochastic n P -> scc_enum n (edge P) comps ->
  In [i] (recurrent_classes_indices P comps) -> In i (absorbing_indices P).
Proof.
  intros HS HC H. pose proof HS as (Hp & Hnn & Hrow). rewrite (absorbing_in n) by exact Hp. rewrite (recurrent_in n) in H by assumption. destruct H as [HB Hcl].
  destruct (classes_enum n (edge P) comps HC) as [[HP HM] HSs].
  assert (Hi : i < n) by (apply (part_lt n _ [i] i HP HB); left; reflexivity). split; [exact Hi|].
  assert (E : mget P i i = 1q); [|rewrite E; apply isclose_refl].
  rewrite <- (Hrow i Hi). symmetry. rewrite (sumn_single n _ i Hi); [reflexivity|].
  intros j Hj Hne. destruct (Qcle_lt_or_eq _ _ (Hnn i j Hi Hj)) as [C|C]; [|symmetry; exact C]. exfalso. apply Hne.
  destruct (Hcl i j (or_introl eq_refl) Hj C) as [->|[]]. reflexivity.
Qed.
Lemma absorbing_not_transient_gap n P comps i : stochastic n P -> scc_enum n (edge P) comps ->
  (forall k, k < n -> mget P k k = 1q \/ (mget P k k <= 1 - Q2Qc (2 # 100000))%Qc) ->
  In i (absorbing_indices P) -> ~ In i (transient_states_indices P comps).
Proof.
  intros HS HC HG Hi Ht. pose proof HS as (Hp & _ & _).
  apply (absorbing_recurrent_gap n P comps i HS HC HG) in Hi. apply (recurrent_in n) in Hi; [|assumption..]. destruct Hi as [_ Hcl].
  apply (transient_state_in n) in Ht; [|assumption..]. destruct Ht as (Hin & y & Hy & Hny). apply Hny.
  assert (y = i); [|subst; exact Hy]. destruct Hy as [k Hk].
  assert (G : forall k a b, walk n (edge P) k a b -> a = i -> b = i).
  { intros k' a b Hw. induction Hw as [a Ha|k' a b c Ha Hb He Hw IH]; intros E; [exact E|]. apply IH. subst a. destruct (Hcl i b (or_introl eq_refl) Hb He) as [->|[]]. reflexivity. }
  eapply G; [exact Hk|reflexivity].
Qed.

(* ---------- least common multiple ---------- *)
Lemma list_index_of (x : list nat) l : In x l -> exists k, index_of list_nat_eqb x l = Some k /\ k < length l /\ nth k l [] = x.
Proof.
  intros H. destruct (index_of list_nat_eqb x l) as [k|] eqn:Ek.
  - exists k. apply index_of_Some in Ek; [|apply list_nat_eqb_eq]. destruct Ek as [Hk _]. split; [reflexivity|]. split; [apply nth_error_Some; rewrite Hk; discriminate|]. apply (nth_error_nth _ _ [] Hk).
  - apply index_of_None in Ek; [contradiction|apply list_nat_eqb_eq].
Qed.
Lemma lcm_step a b : (1 <= a)%Z -> (1 <= b)%Z -> (a * b / Z.gcd a b)%Z = Z.lcm a b.
Proof.
  intros Ha Hb. assert (Hg : Z.gcd a b <> 0%Z) by (intros C; apply Z.gcd_eq_0_l in C; lia).
  unfold Z.lcm. rewrite Z.divide_div_mul_exact by (try exact Hg; apply Z.gcd_divide_r).
  symmetry. apply Z.abs_eq. apply Z.mul_nonneg_nonneg; [lia|]. apply Z.div_pos; [lia|]. pose proof (Z.gcd_nonneg a b). lia.
Qed.
Lemma period_positive n P x d : stochastic n P -> recurrent n (edge P) x -> period_of n (edge P) x d -> (1 <= d)%Z.
Proof.
  intros HS (Hx & Hb) (Hnn & Hdiv & _). destruct (stochastic_total n P HS x Hx) as (j & Hj & He).
  destruct (Hb j) as [k Hk]; [apply reach_step; assumption|].
  assert (W : walk n (edge P) (S k) x x) by (econstructor; eassumption). apply Hdiv in W. destruct (Z.eq_dec d 0) as [->|]; [|lia]. apply Z.divide_0_l in W. lia.
Qed.
Section Lcm.
Context (n : nat) (P : mat) (names : list string) (o : nxorder).
Hypothesis (HS : stochastic n P) (HLn : length names = n) (HNn : NoDup names) (HA : names_ascending n names) (HO : nx_ok n P o).
Let comm := communicating_indices (nx_comps o).
Lemma class_recurrent B x : In B comm -> closed n (edge P) B -> In x B -> recurrent n (edge P) x.
Proof.
  intros HB Hc Hx. pose proof HS as (Hp & _ & _). destruct (communicating_listing n (edge P) (nx_comps o) (proj1 HO)) as ((HP & HM) & _).
  assert (Hxn : x < n) by (apply (part_lt n _ B x HP HB Hx)). split; [exact Hxn|]. intros y [k Hk].
  assert (Hy : In y B).
  { assert (G : forall k a b, walk n (edge P) k a b -> In a B -> In b B); [|exact (G k x y Hk Hx)].
    intros k' a b Hw. induction Hw as [a Ha|k' a b c Ha Hb He Hw IH]; intros E; [exact E|]. apply IH. apply (Hc a b E Hb He). }
  apply (HM B x y HB Hx (part_lt n _ B y HP HB Hy)). exact Hy.
Qed.
Lemma period_reducible : 0 < n ->
  exists D, period P names o false = Ok D /\ is_aperiodic P names o false = Ok (Z.eqb D 1) /\ (1 <= D)%Z /\ lcm_of_periods n (edge P) D.
Proof.
  intros Hn. pose proof HS as (Hp & _ & _).
  destruct (periods_ascending n P names o Hp HLn HNn HA HO) as (per & Hper & HL & Hk). fold comm in HL, Hk.
  destruct (communicating_listing n (edge P) (nx_comps o) (proj1 HO)) as ((HP & HM) & HSs & _). fold comm in HP, HM, HSs.
  (* value attached to every recurrent class *)
  assert (Hval : forall B, In B (recurrent_classes_indices P (nx_comps o)) ->
     exists k, index_of list_nat_eqb B comm = Some k /\ k < length per /\ (1 <= nth k per 0)%Z /\ (forall x, In x B -> recurrent n (edge P) x /\ period_of n (edge P) x (nth k per 0%Z))).
  { intros B HB. apply (recurrent_in n) in HB; [|exact Hp|apply HO]. destruct HB as [HB Hc]. apply in_communicating in HB. fold comm in HB.
    destruct (list_index_of B comm HB) as (k & Hik & Hkl & Hkn). exists k. split; [exact Hik|]. assert (Hkp : k < length per) by lia. split; [exact Hkp|].
    destruct (Hk k Hkp) as [A _]. rewrite Hkn in A. specialize (A Hc).
    assert (G : forall x, In x B -> recurrent n (edge P) x /\ period_of n (edge P) x (nth k per 0%Z)) by (intros x Hx; split; [apply (class_recurrent B x HB Hc Hx)|apply A; exact Hx]).
    split; [|exact G]. destruct B as [|b B']; [exfalso; apply (proj1 HP _ HB); reflexivity|]. destruct (G b (or_introl eq_refl)) as [R1 R2]. eapply period_positive; eassumption. }
  assert (Hrec : forall x, recurrent n (edge P) x -> exists B, In B (recurrent_classes_indices P (nx_comps o)) /\ In x B).
  { intros x [Hx Hb]. destruct (part_cover n _ x HP Hx) as (B & HB & HxB). exists B. split; [|exact HxB]. apply (recurrent_in n); [exact Hp|apply HO|]. split; [apply in_communicating; exact HB|].
    intros a b Ha Hb' He. apply (HM B x b HB HxB Hb'). assert (Hxb : reach n (edge P) x b).
    { apply reach_trans with a; [apply (HM B x a HB HxB (part_lt n _ B a HP HB Ha)); exact Ha|]. apply reach_step; [apply (part_lt n _ B a HP HB Ha)|exact Hb'|exact He]. }
    split; [exact Hxb|apply Hb; exact Hxb]. }
  set (step := fun (acc : res Z) (rc : list nat) => per0 <- acc ;; match index_of list_nat_eqb rc comm with None => Err ValueErr | Some k => let q := nth k per 0%Z in Ok (Z.div (per0 * q) (Z.gcd per0 q)) end).
  assert (Hfold : forall rcs, (forall B, In B rcs -> In B (recurrent_classes_indices P (nx_comps o))) -> forall a, (1 <= a)%Z ->
     exists D, fold_left step rcs (Ok a) = Ok D /\ (1 <= D)%Z /\ (a | D)%Z /\
       (forall B k, In B rcs -> index_of list_nat_eqb B comm = Some k -> (nth k per 0 | D)%Z) /\
       (forall e, (a | e)%Z -> (forall B k, In B rcs -> index_of list_nat_eqb B comm = Some k -> (nth k per 0 | e)%Z) -> (D | e)%Z)).
  { induction rcs as [|B rcs IH]; intros HIn a Ha.
    - exists a. split; [reflexivity|]. split; [exact Ha|]. split; [apply Z.divide_refl|]. split; [intros B k []|]. intros e He _. exact He.
    - destruct (Hval B (HIn B (or_introl eq_refl))) as (k & Hik & _ & Hpos & _).
      cbn [fold_left]. unfold step at 2. cbn [bind]. rewrite Hik. cbv zeta. rewrite lcm_step by assumption.
      assert (Hl : (1 <= Z.lcm a (nth k per 0))%Z).
      { pose proof (Z.lcm_nonneg a (nth k per 0%Z)). destruct (Z.eq_dec (Z.lcm a (nth k per 0%Z)) 0) as [C|]; [|lia]. apply Z.lcm_eq_0 in C. lia. }
      destruct (IH (fun B0 H => HIn B0 (or_intror H)) _ Hl) as (D & HD & HD1 & HDa & HDk & HDm). exists D. split; [exact HD|]. split; [exact HD1|].
      split; [etransitivity; [apply Z.divide_lcm_l|exact HDa]|]. split.
      + intros B0 k0 [<-|H0] Hk0; [|eapply HDk; eassumption]. rewrite Hik in Hk0. inversion Hk0; subst. etransitivity; [apply Z.divide_lcm_r|exact HDa].
      + intros e He Hall. apply HDm; [apply Z.lcm_least; [exact He|apply (Hall B k (or_introl eq_refl) Hik)]|]. intros B0 k0 H0 Hk0. apply (Hall B0 k0 (or_intror H0) Hk0). }
  destruct (Hfold (recurrent_classes_indices P (nx_comps o)) (fun _ H => H) 1%Z ltac:(lia)) as (D & HD & HD1 & _ & HDk & HDm).
  assert (HLcm : lcm_of_periods n (edge P) D).
  { split.
    - intros x d Hx Hd. destruct (Hrec x Hx) as (B & HB & HxB). destruct (Hval B HB) as (k & Hik & _ & _ & G). destruct (G x HxB) as [_ Hp2].
      rewrite (period_of_unique n (edge P) x d (nth k per 0%Z)) by assumption. eapply HDk; eassumption.
    - intros e He. apply HDm; [apply Z.divide_1_l|]. intros B k HB Hik. destruct (Hval B HB) as (k' & Hik' & _ & _ & G). rewrite Hik in Hik'. inversion Hik'; subst k'.
      pose proof HB as HB2. apply (recurrent_in n) in HB2; [|exact Hp|apply HO]. destruct HB2 as [HB2 _]. apply in_communicating in HB2.
      destruct B as [|b B']; [exfalso; apply (proj1 HP _ HB2); reflexivity|]. destruct (G b (or_introl eq_refl)) as [R1 R2]. eapply He; eassumption. }
  (* all periods one iff D = 1 *)
  assert (Hones : forallb (Z.eqb 1) per = true <-> D = 1%Z).
  { rewrite forallb_forall. split.
    - intros H1. assert (Hd : (D | 1)%Z).
      { apply HDm; [apply Z.divide_refl|]. intros B k HB Hik. destruct (Hval B HB) as (k' & Hik' & Hkl & _). rewrite Hik in Hik'. inversion Hik'; subst k'.
        specialize (H1 (nth k per 0%Z) (nth_In _ _ Hkl)). apply Z.eqb_eq in H1. rewrite <- H1. apply Z.divide_refl. }
      apply Z.divide_1_r_nonneg in Hd; lia.
    - intros -> z Hz. apply (In_nth _ _ 0%Z) in Hz. destruct Hz as (k & Hkl & <-). apply Z.eqb_eq. symmetry.
      destruct (Hk k Hkl) as [A1 A2]. destruct (closed_dec n P (nth k comm [])) as [Hc|Hc]; [|apply A2; exact Hc].
      assert (HBin : In (nth k comm []) comm) by (apply nth_In; lia).
      assert (HB : In (nth k comm []) (recurrent_classes_indices P (nx_comps o))) by (apply (recurrent_in n); [exact Hp|apply HO|]; split; [apply in_communicating; exact HBin|exact Hc]).
      destruct (nth k comm []) as [|b B'] eqn:EB; [exfalso; apply (proj1 HP [] HBin); reflexivity|].
      specialize (A1 Hc b (or_introl eq_refl)). assert (Hd : (nth k per 0 | 1)%Z) by (apply (proj1 HLcm b); [apply (class_recurrent (b :: B') b HBin Hc (or_introl eq_refl))|exact A1]).
      destruct A1 as (A0 & _). apply Z.divide_1_r_nonneg in Hd; lia. }
  destruct (is_irreducible (nx_comps o)) eqn:EI.
  - assert (Hlen1 : length per = 1) by (rewrite HL; apply Nat.eqb_eq; exact EI).
    destruct per as [|d0 [|]]; simpl in Hlen1; try lia.
    assert (HDd : D = d0).
    { (* the single class is everything, hence closed *)
      assert (Hc0 : closed n (edge P) (nth 0 comm [])).
      { intros i j Hi Hj He. destruct (part_cover n _ j HP Hj) as (B & HB & HjB). destruct comm as [|B0 [|]] eqn:Ec; simpl in HL; try lia. destruct HB as [<-|[]]. exact HjB. }
      assert (HBin : In (nth 0 comm []) comm) by (apply nth_In; rewrite <- HL; simpl; lia).
      assert (HB : In (nth 0 comm []) (recurrent_classes_indices P (nx_comps o))) by (apply (recurrent_in n); [exact Hp|apply HO|]; split; [apply in_communicating; exact HBin|exact Hc0]).
      destruct (Hval _ HB) as (k & Hik & Hkl & Hpos & G). simpl in Hkl. assert (k = 0) by lia. subst k. simpl in Hpos.
      apply Z.divide_antisym_nonneg; [lia|lia| |].
      - apply HDm; [apply Z.divide_1_l|]. intros B k HB' Hik'. destruct (Hval B HB') as (k' & Hik2 & Hkl2 & _). simpl in Hkl2. rewrite Hik' in Hik2. inversion Hik2; subst. assert (k' = 0) by lia. subst. apply Z.divide_refl.
      - apply (HDk _ _ HB Hik). }
    subst d0. exists D. assert (Ha : is_aperiodic P names o false = Ok (Z.eqb D 1)) by (unfold is_aperiodic; rewrite Hper; cbn [bind]; rewrite EI; reflexivity).
    split; [|split; [exact Ha|split; [exact HD1|exact HLcm]]]. unfold period. rewrite Ha. cbn [bind]. destruct (Z.eqb_spec D 1) as [->|]; [reflexivity|]. rewrite Hper. cbn [bind]. rewrite EI. reflexivity.
  - exists D. assert (Ha : is_aperiodic P names o false = Ok (Z.eqb D 1)).
    { unfold is_aperiodic. rewrite Hper. cbn [bind]. rewrite EI. destruct (forallb (Z.eqb 1) per) eqn:Ef.
      - rewrite (proj1 Hones eq_refl). reflexivity.
      - destruct (Z.eqb_spec D 1) as [E1|]; [|reflexivity]. apply Hones in E1. congruence. }
    split; [|split; [exact Ha|split; [exact HD1|exact HLcm]]]. unfold period. rewrite Ha. cbn [bind]. destruct (Z.eqb_spec D 1) as [->|]; [reflexivity|]. rewrite Hper. cbn [bind]. rewrite EI. exact HD.
Qed.
End Lcm.

(* ---------- counterexamples ---------- *)
(** 0 keeps itself or moves to 1; 1 and 2 alternate. *)
Definition pRed : mat := qm [[1 # 2; 1 # 2; 0]; [0; 0; 1]; [0; 1; 0]]%Q.
Lemma period_reducible_refuted : exists n p names, stochastic n p /\ length names = n /\ names_ascending n names /\
  forall nxa, nx_aperiodic_doc n (edge p) nxa ->
    period p names (nx_default p) nxa = Ok 1%Z /\ is_aperiodic p names (nx_default p) nxa = Ok true /\
    exists x, recurrent n (edge p) x /\ period_of n (edge p) x 2.
Proof.
  exists 3, pRed, ["1"; "2"; "3"]%string.
  assert (HS : stochastic 3 pRed) by (apply stochasticb_ok; vm_compute; reflexivity). pose proof HS as (Hp & _).
  split; [exact HS|]. split; [reflexivity|]. split.
  { intros i j Hij Hj. destruct i as [|[|i]], j as [|[|[|j]]]; try lia; vm_compute; reflexivity. }
  intros nxa Hnx.
  assert (nxa = true) as ->.
  { apply Hnx. intros k Hk. exists 0, 1. split; [lia|]. split.
    - assert (He : edge pRed 0 0) by (apply edgeb_spec; vm_compute; reflexivity). econstructor; [| |exact He|constructor]; lia.
    - intros C. apply Z.divide_1_r_nonneg in C; lia. }
  split; [vm_compute; reflexivity|]. split; [vm_compute; reflexivity|].
  pose proof (nx_default_ok 3 pRed Hp) as HO.
  assert (HB : In [1; 2] (nx_comps (nx_default pRed))) by (vm_compute; right; left; reflexivity).
  destruct (scc_period_spec 3 pRed (nx_default pRed) Hp HO [1; 2] HB) as (d & Hd & Hc & _).
  assert (d = 2%Z) by (vm_compute in Hd; congruence). subst d.
  assert (Hcl : closed 3 (edge pRed) [1; 2]) by (apply (scc_closed_spec 3 pRed (nx_default pRed) Hp HO [1; 2] HB); vm_compute; reflexivity).
  exists 1. split; [|apply Hc; [exact Hcl|left; reflexivity]].
  assert (HR : In 1 (recurrent_states_indices pRed (sccs pRed))) by (vm_compute; left; reflexivity).
  exact (proj1 (recurrent_state_in 3 pRed (sccs pRed) 1 Hp (sccs_enum 3 pRed Hp)) HR).
Qed.

(** Eleven states with the default names "1" ... "11": positions 1 and 2 alternate,
    positions 9 and 10 form an aperiodic pair, all the others are absorbing. *)
Definition p11 : mat := mk 11 11 (fun i j =>
  if Nat.eqb i 1 then (if Nat.eqb j 2 then 1q else 0q)
  else if Nat.eqb i 2 then (if Nat.eqb j 1 then 1q else 0q)
  else if Nat.eqb i 9 || Nat.eqb i 10 then (if Nat.eqb j 9 || Nat.eqb j 10 then Q2Qc (1 # 2) else 0q)
  else if Nat.eqb i j then 1q else 0q).
Lemma periods_order_refuted : exists n p per k B x, stochastic n p /\
  calculate_periods p (create_labels n "") (nx_default p) = Ok per /\
  nth_error (communicating_indices (sccs p)) k = Some B /\ In x B /\ recurrent n (edge p) x /\ period_of n (edge p) x 2 /\ nth_error per k = Some 1%Z.
Proof.
  exists 11, p11, [1; 2; 1; 1; 1; 1; 1; 1; 1]%Z, 0, [1; 2], 1.
  assert (HS : stochastic 11 p11) by (apply stochasticb_ok; vm_compute; reflexivity). pose proof HS as (Hp & _).
  split; [exact HS|]. split; [vm_compute; reflexivity|]. split; [vm_compute; reflexivity|]. split; [left; reflexivity|].
  pose proof (nx_default_ok 11 p11 Hp) as HO.
  assert (HB : In [1; 2] (nx_comps (nx_default p11))) by (vm_compute; right; left; reflexivity).
  destruct (scc_period_spec 11 p11 (nx_default p11) Hp HO [1; 2] HB) as (d & Hd & Hc & _).
  assert (d = 2%Z) by (vm_compute in Hd; congruence). subst d.
  assert (Hcl : closed 11 (edge p11) [1; 2]) by (apply (scc_closed_spec 11 p11 (nx_default p11) Hp HO [1; 2] HB); vm_compute; reflexivity).
  assert (HR : In 1 (recurrent_states_indices p11 (sccs p11))) by (vm_compute; right; left; reflexivity).
  pose proof (proj1 (recurrent_state_in 11 p11 (sccs p11) 1 Hp (sccs_enum 11 p11 Hp)) HR) as HR'.
  split; [exact HR'|]. split; [apply Hc; [exact Hcl|left; reflexivity]|]. reflexivity.
Qed.

Definition pAlmost : mat := qm [[999995 # 1000000; 5 # 1000000]; [0; 1]]%Q.
Lemma absorbing_transient_refuted : exists n P i, stochastic n P /\ In i (absorbing_indices P) /\ In i (transient_states_indices P (sccs P)) /\
  forall B, In B (recurrent_classes_indices P (sccs P)) -> ~ In i B.
Proof.
  exists 2, pAlmost, 0. split; [apply stochasticb_ok; vm_compute; reflexivity|]. split; [vm_compute; left; reflexivity|]. split; [vm_compute; left; reflexivity|].
  intros B HB. replace (recurrent_classes_indices pAlmost (sccs pAlmost)) with [[1]] in HB by (vm_compute; reflexivity). destruct HB as [<-|[]]. intros [C|[]]. discriminate.
Qed.

Definition pLumpGap : mat := qm [[0; 1; 0]; [1 # 2; 0; 1 # 2]; [0; 1; 0]]%Q.
Lemma lumping_missed_refuted : exists n P parts, stochastic n P /\ partition_of n parts /\ 2 <= length parts < n /\ lumpable P parts /\
  forall parts', In parts' (find_lumping_partitions P) -> exists B, In B parts /\ forall B', In B' parts' -> ~ (forall x, In x B <-> In x B').
Proof.
  exists 3, pLumpGap, [[0; 2]; [1]]. split; [apply stochasticb_ok; vm_compute; reflexivity|]. split.
  { split; [intros B [<-|[<-|[]]]; discriminate|]. split; [repeat constructor; simpl; intuition discriminate|]. intros x; simpl; lia. }
  split; [simpl; lia|]. split.
  { intros B B' [<-|[<-|[]]] [<-|[<-|[]]] s t Hs Ht; simpl in Hs, Ht; destruct Hs as [<-|Hs], Ht as [<-|Ht]; try reflexivity;
    repeat match goal with H : _ \/ _ |- _ => destruct H as [<-|H] | H : False |- _ => destruct H end; try reflexivity; apply Qc_is_canon; vm_compute; reflexivity. }
  intros parts' H. replace (find_lumping_partitions pLumpGap) with (@nil (list (list nat))) in H by (vm_compute; reflexivity). destruct H.
Qed.

(* ---------- wrappers ---------- *)
Lemma communicating_spec n E comps : scc_enum n E comps ->
  let cs := communicating_indices comps in
  partition_of n cs /\
  (forall B i j, In B cs -> In i B -> j < n -> (In j B <-> reach n E i j /\ reach n E j i)) /\
  (forall B, In B cs -> StronglySorted lt B) /\ StronglySorted class_before cs.
Proof. intros H. destruct (communicating_listing n E comps H) as ((A & B) & C & D). exact (conj A (conj B (conj C D))). Qed.
Lemma communicating_order_free n E comps comps' : scc_enum n E comps -> scc_enum n E comps' -> communicating_indices comps = communicating_indices comps'.
Proof. intros H H'. eapply listing_unique; apply communicating_listing; eassumption. Qed.
Lemma recurrent_transient_spec n p comps B : wf n n p -> scc_enum n (edge p) comps ->
  (In B (recurrent_classes_indices p comps) <-> In B (communicating_indices comps) /\ closed n (edge p) B) /\
  (In B (transient_classes_indices p comps) <-> In B (communicating_indices comps) /\ ~ closed n (edge p) B).
Proof. intros Hp HC. rewrite in_communicating. split; [apply recurrent_in|apply transient_in]; assumption. Qed.
Lemma exactly_one_kind n p comps B : wf n n p -> scc_enum n (edge p) comps -> In B (communicating_indices comps) ->
  (In B (recurrent_classes_indices p comps) /\ ~ In B (transient_classes_indices p comps)) \/
  (In B (transient_classes_indices p comps) /\ ~ In B (recurrent_classes_indices p comps)).
Proof.
  intros Hp HC HB. destruct (recurrent_transient_spec n p comps B Hp HC) as [R T]. rewrite R, T. destruct (closed_dec n p B); [left|right]; tauto.
Qed.
Lemma recurrent_class_exists n p comps : 0 < n -> wf n n p -> scc_enum n (edge p) comps -> exists B, In B (recurrent_classes_indices p comps).
Proof.
  intros Hn Hp HC. destruct (some_recurrent n p comps 0 Hp Hn HC) as (x & Hx & _). apply (proj1 (in_sort _ _)) in Hx. apply in_concat in Hx. destruct Hx as (B & HB & _). exists B; exact HB.
Qed.
Lemma access_small n P i j : wf n n P -> n <= 17 -> i < n -> j < n -> (is_accessible P j i = true <-> reach n (edge P) i j).
Proof. intros Hp Hn. apply access_bool; [exact Hp|]. intros; apply small_no_overflow; assumption. Qed.
Lemma access_matrix_small n P i j : wf n n P -> n <= 17 -> i < n -> j < n ->
  (zget (accessibility_matrix P) i j = 1%Z /\ reach n (edge P) i j) \/ (zget (accessibility_matrix P) i j = 0%Z /\ ~ reach n (edge P) i j).
Proof. intros Hp Hn. apply accessibility_get; [exact Hp|]. intros; apply small_no_overflow; assumption. Qed.
Lemma access_sparse n P d i j : wf n n P -> (forall k, k < n -> outdeg n P k <= d) -> ((Z.of_nat d + 1) ^ Z.of_nat (n - 1) < 2 ^ 63)%Z -> i < n -> j < n ->
  (is_accessible P j i = true <-> reach n (edge P) i j).
Proof.
  intros Hp Hd Hb. apply access_bool; [exact Hp|]. intros k a b Hk Ha Hb'. eapply Z.le_lt_trans; [apply (cnt_sparse n P d); assumption|].
  eapply Z.le_lt_trans; [|exact Hb]. apply Z.pow_le_mono_r; lia.
Qed.
Lemma communicating_small n P i j : wf n n P -> n <= 17 -> i < n -> j < n -> (are_communicating P i j = true <-> reach n (edge P) i j /\ reach n (edge P) j i).
Proof. intros Hp Hn. apply communicating_bool; [exact Hp|]. intros; apply small_no_overflow; assumption. Qed.
Lemma access_refuted : exists n P, stochastic n P /\ exists i j, i < n /\ j < n /\ reach n (edge P) i j /\ is_accessible P j i = false.
Proof.
  exists 18, uniform18. destruct uniform18_overflow as (A & B & C). split; [exact A|]. exists 0, 1. split; [lia|]. split; [lia|]. split; [apply reach_step; [lia|lia|exact B]|exact C].
Qed.
Lemma absorbing_exact_spec n P : 0 < n -> stochastic n P ->
  (forall k, k < n -> mget P k k = 1q \/ (mget P k k <= 1 - Q2Qc (2 # 100000))%Qc) ->
  exists b, is_absorbing P = Ok b /\ (b = true <-> forall i, i < n -> exists a, a < n /\ mget P a a = 1q /\ reach n (edge P) i a).
Proof.
  intros Hn HS HG. pose proof HS as (Hp & _). destruct (is_absorbing_spec n P Hn Hp) as (b & Hb & Hs). exists b. split; [exact Hb|]. rewrite Hs.
  assert (G : forall a, In a (absorbing_indices P) <-> a < n /\ mget P a a = 1q).
  { intros a. rewrite (absorbing_in n) by exact Hp. split; intros [A B]; split; try exact A; [|rewrite B; apply isclose_refl].
    destruct (HG a A) as [C|C]; [exact C|]. rewrite isclose_one_gap in B by exact C. discriminate. }
  split; intros H i Hi; destruct (H i Hi) as (a & Ha).
  - exists a. destruct Ha as [Ha Hr]. apply G in Ha. destruct Ha. split; [assumption|split; assumption].
  - exists a. destruct Ha as (A & B & C). split; [apply G; split; assumption|exact C].
Qed.
Lemma cyclic_classes_periodic n p names o nxa d : 2 <= n -> stochastic n p -> length names = n -> NoDup names -> nx_ok n p o -> irreducible n (edge p) ->
  (forall x, x < n -> period_of n (edge p) x d) -> (2 <= d)%Z ->
  exists cs, cyclic_classes_indices p names o nxa = Ok cs /\ length cs = Z.to_nat d /\ partition_of n cs /\
    exists cyc, Permutation cs cyc /\ cyclic_order n (edge p) cyc.
Proof.
  intros Hn HS HL HN HO HI Hd Hd2. destruct (period_irreducible n p names o nxa Hn HS HL HN HO HI) as (d' & Hpd & _ & Hper & _).
  assert (d' = d) by (apply (period_of_unique n (edge p) 0); [apply Hper|apply Hd]; lia). subst d'.
  destruct (cyclic_classes_spec n p names o nxa Hn HS HL HN HO HI) as (d' & cs & Hd' & Hcs & Hlen & HP & _ & _ & cyc & Hperm & Hcyc).
  assert (d' = d) by congruence. subst d'. exists cs. repeat split; try assumption; try apply HP. exists cyc. split; assumption.
Qed.
Lemma is_canonical_reach n p comps : wf n n p -> scc_enum n (edge p) comps ->
  (is_canonical p comps = true <-> forall a b, a < n -> ~ recurrent n (edge p) a -> recurrent n (edge p) b -> a < b).
Proof.
  intros Hp HC. rewrite is_canonical_spec. split.
  - intros H a b Ha Hna Hb. apply H; [|apply (recurrent_state_in n p comps b Hp HC); exact Hb].
    destruct (TR_cover n p comps Hp HC a Ha) as [T|R]; [exact T|]. exfalso. apply Hna. apply (recurrent_state_in n p comps a Hp HC). exact R.
  - intros H a b Ha Hb. pose proof (proj1 (transient_state_in n p comps a Hp HC) Ha) as (Han & y & Hy & Hny). apply H; [exact Han| |apply (recurrent_state_in n p comps b Hp HC); exact Hb].
    intros [_ R]. apply Hny, R, Hy.
Qed.
