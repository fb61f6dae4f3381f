(** L_Closest2: what closest_reversible returns. *)
From Verif Require Export L_Closest.
Open Scope nat_scope.

(** ** Uniqueness *)
Lemma weight_pos weighted n d i j : weights_for weighted n d -> i < n -> j < n -> (0 < cell_weight weighted d i j)%Qc.
Proof.
  intros (L & P & NZ) Hi Hj. unfold cell_weight. destruct weighted; [|reflexivity].
  assert (G : forall k, k < n -> (0 < vget d k)%Qc). { intros k Hk. specialize (P k Hk). apply Qcle_lt_or_eq in P. destruct P as [|E]; [assumption|]. exfalso. apply (NZ eq_refl k Hk). congruence. }
  apply Qc_div_pos; apply G; assumption.
Qed.
Lemma dist2_zero weighted n d A B : weights_for weighted n d -> (dist2 weighted n d A B <= 0)%Qc -> forall i j, i < n -> j < n -> mget A i j = mget B i j.
Proof.
  intros W H i j Hi Hj.
  assert (C : forall i j, i < n -> j < n -> (0 <= cell_weight weighted d i j * ((mget A i j - mget B i j) * (mget A i j - mget B i j)))%Qc).
  { intros k l Hk Hl. assert (Wp := weight_pos weighted n d k l W Hk Hl). apply Qc_mul_nonneg; [qclra|]. generalize (mget A k l - mget B k l)%Qc. intros t. qcnra. }
  assert (Z : dist2 weighted n d A B = 0q). { apply Qcle_antisym; [exact H|]. unfold dist2. apply sumn_nonneg. intros k Hk. apply sumn_nonneg. intros l Hl. apply C; assumption. }
  unfold dist2 in Z. pose proof (sumn_eq0_inv n _ i (fun k Hk => sumn_nonneg n _ (fun l Hl => C k l Hk Hl)) Z Hi) as Z1. cbv beta in Z1.
  pose proof (sumn_eq0_inv n _ j (fun l Hl => C i l Hi Hl) Z1 Hj) as Z2. cbv beta in Z2.
  assert (Wp := weight_pos weighted n d i j W Hi Hj). set (t := (mget A i j - mget B i j)%Qc) in *.
  assert (T : t = 0q). { apply Qcmult_integral in Z2. destruct Z2 as [Z2|Z2]; [rewrite Z2 in Wp; discriminate|]. apply Qcmult_integral in Z2. tauto. }
  unfold t in T. transitivity (mget A i j - mget B i j + mget B i j)%Qc; [ring|]. rewrite T. ring.
Qed.
Lemma closest_unique weighted n d P Q Q' : weights_for weighted n d -> closest_for weighted n d P Q -> closest_for weighted n d P Q' -> Q = Q'.
Proof.
  intros W [[S1 B1] C1] [[S2 B2] C2].
  set (M := mk n n (fun i j => ((mget Q i j + mget Q' i j) / (1 + 1))%Qc)).
  assert (GM : forall i j, i < n -> j < n -> mget M i j = ((mget Q i j + mget Q' i j) / (1 + 1))%Qc) by (intros; unfold M; apply mget_mk; assumption).
  assert (RM : reversible_for n d M).
  { destruct S1 as (W1 & P1 & R1), S2 as (W2 & P2 & R2). split; [split; [apply wf_mk|split]|].
    - intros i j Hi Hj. rewrite GM by assumption. apply Qc_div_nonneg; [|reflexivity]. specialize (P1 i j Hi Hj). specialize (P2 i j Hi Hj). qclra.
    - intros i Hi. rewrite (sumn_ext n _ (fun j => (mget Q i j + mget Q' i j) / (1 + 1))%Qc) by (intros j Hj; apply GM; assumption).
      rewrite sumn_div, sumn_plus, R1, R2 by exact Hi. field. discriminate.
    - intros i j Hi Hj. rewrite !GM by assumption. specialize (B1 i j Hi Hj). specialize (B2 i j Hi Hj).
      transitivity ((vget d i * mget Q i j + vget d i * mget Q' i j) / (1 + 1))%Qc; [field; discriminate|]. rewrite B1, B2. field. discriminate. }
  assert (E : dist2 weighted n d M P = ((dist2 weighted n d Q P + dist2 weighted n d Q' P) / (1 + 1) - dist2 weighted n d Q Q' / (1 + 1 + 1 + 1))%Qc).
  { unfold dist2. rewrite <- sumn_plus, <- !sumn_div, <- sumn_minus. apply sumn_ext. intros i Hi.
    rewrite <- sumn_plus, <- !sumn_div, <- sumn_minus. apply sumn_ext. intros j Hj. rewrite GM by assumption. field. split; discriminate. }
  specialize (C1 M RM). specialize (C2 M RM). rewrite E in C1, C2.
  assert (Z : (dist2 weighted n d Q Q' <= 0)%Qc).
  { revert C1 C2. generalize (dist2 weighted n d Q P), (dist2 weighted n d Q' P), (dist2 weighted n d Q Q'). intros a b c H1 H2.
    assert (E1 : ((a + b) / (1 + 1) + (a + b) / (1 + 1) = a + b)%Qc) by (field; discriminate). assert (E2 : ((1 + 1 + 1 + 1) * (c / (1 + 1 + 1 + 1)) = c)%Qc) by (field; discriminate).
    set (u := ((a + b) / (1 + 1))%Qc) in *. set (v := (c / (1 + 1 + 1 + 1))%Qc) in *. clearbody u v. qclra. }
  apply (mat_ext n n); [apply S1|apply S2|]. apply dist2_zero with (weighted := weighted) (d := d); assumption.
Qed.

(** ** The solution found *)
Lemma mc_closest_cases slsqp n P d weighted : 0 < n -> stochastic n P -> weights_for weighted n d -> exact_optimiser slsqp ->
  mc_closest_reversible slsqp P d weighted = Err ValueErr \/
  exists q, mc_closest_reversible slsqp P d weighted = Ok q /\ closest_for weighted n d P q.
Proof.
  intros Hn (HP & _) W Ex. unfold mc_closest_reversible. rewrite (wf_nrows _ _ _ HP).
  destruct (cr_z_spec n d weighted Hn W) as (z & -> & Hz). cbn [bind].
  destruct (slsqp _ _ _) as [x|] eqn:E; [|left; reflexivity]. right. apply Ex in E.
  destruct (best_closest n d weighted P Hn W HP z Hz x E) as [C ->]. eexists. split; [reflexivity|exact C].
Qed.
Lemma closest_returned slsqp n P d weighted q : 0 < n -> stochastic n P -> weights_for weighted n d -> exact_optimiser slsqp ->
  mc_closest_reversible slsqp P d weighted = Ok q -> closest_for weighted n d P q.
Proof.
  intros Hn HP W Ex H. destruct (mc_closest_cases slsqp n P d weighted Hn HP W Ex) as [E|(q' & E & C)]; rewrite E in H; [discriminate|]. injection H as <-. exact C.
Qed.
Lemma closest_attained n P d weighted Q : 0 < n -> stochastic n P -> weights_for weighted n d -> closest_for weighted n d P Q ->
  exists slsqp, exact_optimiser slsqp /\ mc_closest_reversible slsqp P d weighted = Ok Q.
Proof.
  intros Hn (HP & _) W C. destruct (cr_z_spec n d weighted Hn W) as (z & Ez & Hz).
  destruct (closest_best n d weighted P Hn W HP z Hz Q C) as (x & B & EQ).
  set (h0 := cr_h _ _ _) in B. set (f0 := cr_f _ _ _ _ _) in B. set (a0 := cr_a _ _ _) in B.
  exists (fun h f a => if meqb h h0 && veqb f f0 && meqb a a0 then Some x else None). split.
  - intros h f a y. destruct (meqb h h0 && veqb f f0 && meqb a a0) eqn:E; [|discriminate]. apply andb_true_iff in E. destruct E as [E E3]. apply andb_true_iff in E. destruct E as [E1 E2].
    apply meqb_eq in E1, E3. apply veqb_eq in E2. subst. intros H. injection H as <-. exact B.
  - unfold mc_closest_reversible. rewrite (wf_nrows _ _ _ HP), Ez. cbn [bind]. fold h0 f0 a0.
    rewrite (proj2 (meqb_eq h0 h0) eq_refl), (proj2 (veqb_eq f0 f0) eq_refl), (proj2 (meqb_eq a0 a0) eq_refl). cbn [andb].
    destruct (best_closest n d weighted P Hn W HP z Hz x B) as [_ ->]. rewrite EQ. reflexivity.
Qed.

(** ** Doubly stochastic chains *)
Lemma uniform_weights weighted n : 0 < n -> weights_for weighted n (uniform n).
Proof.
  intros Hn. assert (G : (0 < 1 / Qcn n)%Qc) by (apply Qc_div_pos; [reflexivity|apply Qcn_pos, Hn]). split; [apply repeat_length|]. split.
  - intros i Hi. rewrite uniform_get by exact Hi. qclra.
  - intros _ i Hi E. rewrite uniform_get in E by exact Hi. rewrite E in G. discriminate.
Qed.
Lemma uniform_balanced n Q : 0 < n -> balanced n (uniform n) Q <-> sym_matrix n Q.
Proof.
  intros Hn. assert (G : (0 < 1 / Qcn n)%Qc) by (apply Qc_div_pos; [reflexivity|apply Qcn_pos, Hn]). split; intros H i j Hi Hj.
  - specialize (H i j Hi Hj). rewrite !uniform_get in H by assumption. set (c := (1 / Qcn n)%Qc) in *.
    assert (NZ : c <> 0q) by (intros E; rewrite E in G; discriminate). transitivity (c * mget Q i j / c)%Qc; [field; exact NZ|]. rewrite H. field. exact NZ.
  - rewrite !uniform_get, (H i j Hi Hj) by assumption. reflexivity.
Qed.
Lemma sym_gap n A B : sumn n (fun i => sumn n (fun j => (A i j * B i j)%Qc)) = sumn n (fun i => sumn n (fun j => (A j i * B j i)%Qc)).
Proof. apply (sumn_swap n n (fun i j => (A i j * B i j)%Qc)). Qed.
Lemma doubly_closest n P : 0 < n -> stochastic n P -> doubly_stochastic n P -> closest_for false n (uniform n) P (symmetrised n P).
Proof.
  intros Hn (W & Pp & R) D. set (Q := symmetrised n P).
  assert (G : forall i j, i < n -> j < n -> mget Q i j = ((mget P i j + mget P j i) / (1 + 1))%Qc) by (intros; unfold Q, symmetrised; apply mget_mk; assumption).
  assert (Sy : sym_matrix n Q) by (intros i j Hi Hj; rewrite !G by assumption; f_equal; ring).
  split; [split; [split; [apply wf_mk|split]|]|].
  - intros i j Hi Hj. rewrite G by assumption. apply Qc_div_nonneg; [|reflexivity]. pose proof (Pp i j Hi Hj). pose proof (Pp j i Hj Hi). qclra.
  - intros i Hi. rewrite (sumn_ext n _ (fun j => (mget P i j + mget P j i) / (1 + 1))%Qc) by (intros j Hj; apply G; assumption).
    rewrite sumn_div, sumn_plus, R, D by exact Hi. field. discriminate.
  - apply uniform_balanced; assumption.
  - intros Q' [_ B']. apply uniform_balanced in B'; [|exact Hn].
    assert (E : dist2 false n (uniform n) Q' P = (dist2 false n (uniform n) Q' Q + (1 + 1) * sumn n (fun i => sumn n (fun j => (mget Q' i j - mget Q i j) * (mget Q i j - mget P i j)))%Qc + dist2 false n (uniform n) Q P)%Qc).
    { unfold dist2. rewrite <- sumn_mul_l, <- !sumn_plus. apply sumn_ext. intros i Hi. rewrite <- sumn_mul_l, <- !sumn_plus. apply sumn_ext. intros j Hj. unfold cell_weight. ring. }
    assert (Z : sumn n (fun i => sumn n (fun j => (mget Q' i j - mget Q i j) * (mget Q i j - mget P i j)))%Qc = 0q).
    { set (s := sumn n _). assert (Es : s = (- s)%Qc).
      { unfold s at 1. rewrite (sym_gap n (fun i j => mget Q' i j - mget Q i j)%Qc (fun i j => mget Q i j - mget P i j)%Qc).
        transitivity ((- (1)) * s)%Qc; [|ring]. unfold s. rewrite <- sumn_mul_l. apply sumn_ext. intros i Hi. rewrite <- sumn_mul_l. apply sumn_ext. intros j Hj.
        rewrite (B' j i Hj Hi), (Sy j i Hj Hi), (G i j Hi Hj). field. discriminate. }
      clearbody s. qclra. }
    rewrite E, Z. assert (N : (0 <= dist2 false n (uniform n) Q' Q)%Qc).
    { unfold dist2. apply sumn_nonneg. intros i Hi. apply sumn_nonneg. intros j Hj. unfold cell_weight. generalize (mget Q' i j - mget Q i j)%Qc. intros t. qcnra. }
    qclra.
Qed.

(** ** is_reversible for every chain *)
Lemma one_or_several n m : env_ok n m -> one_recurrent_class n (en_p m) \/
  exists i j, recurrent n (edge (en_p m)) i /\ recurrent n (edge (en_p m)) j /\ ~ reach n (edge (en_p m)) i j.
Proof.
  intros (Hn & St & _ & _ & Nx). destruct (recurrent_listing_ok n (en_p m) (en_comps m) St (proj1 Nx)) as (ND & RB & RC & RU).
  set (Rs := recurrent_classes_indices (en_p m) (en_comps m)) in *. destruct Rs as [|B1 [|B2 Rs]].
  - left. intros i j Ri Rj. destruct (RC i Ri) as (B & [] & _).
  - left. intros i j Ri Rj. destruct (RC i Ri) as (B & [<-|[]] & Hi). destruct (RC j Rj) as (B' & [<-|[]] & Hj).
    destruct (RB B1 (or_introl eq_refl)) as [_ M]. destruct (M i Hi) as [_ M']. apply (M' j (proj1 Rj)) in Hj. apply Hj.
  - right. destruct (RB B1 (or_introl eq_refl)) as [N1 M1]. destruct (RB B2 (or_intror (or_introl eq_refl))) as [N2 M2].
    destruct B1 as [|i B1]; [congruence|]. destruct B2 as [|j B2]; [congruence|]. exists i, j.
    destruct (M1 i (or_introl eq_refl)) as [Ri Mi]. destruct (M2 j (or_introl eq_refl)) as [Rj Mj]. split; [exact Ri|]. split; [exact Rj|]. intros H.
    assert (In j (i :: B1)) by (apply Mi; [apply Rj|]; split; [exact H|apply Ri, H]).
    assert (E : i :: B1 = j :: B2) by (apply (RU _ _ j); [left; reflexivity|right; left; reflexivity|assumption|left; reflexivity]).
    inversion ND as [|? ? Ni _]; subst. apply Ni. left. symmetry. exact E.
Qed.
Lemma is_reversible_all n m : env_ok n m -> exists b, is_reversible m = Ok b /\
  (b = true <-> one_recurrent_class n (en_p m) /\
     forall pi, distribution n pi -> stationary n (en_p m) pi -> forall i j, i < n -> j < n -> within (flow (en_p m) pi i j) (flow (en_p m) pi j i)).
Proof.
  intros Hm. destruct (one_or_several n m Hm) as [One|(i & j & Ri & Rj & NR)].
  - destruct (is_reversible_spec n m Hm One) as (pi & b & D & S0 & U & E & Eb & _). exists b. split; [exact E|]. rewrite Eb. split.
    + intros H. split; [exact One|]. intros v Dv Sv. rewrite (U v Dv Sv). exact H.
    + intros [_ H]. apply H; assumption.
  - exists false. split; [apply (is_reversible_several n m i j); assumption|]. split; [discriminate|]. intros [One _]. exfalso. apply NR, One; assumption.
Qed.
Lemma is_reversible_same n p names names' o o' a a' : env_ok n (mkenv p names o a) -> env_ok n (mkenv p names' o' a') ->
  is_reversible (mkenv p names o a) = is_reversible (mkenv p names' o' a').
Proof.
  intros H1 H2. destruct (is_reversible_all n _ H1) as (b1 & E1 & I1). destruct (is_reversible_all n _ H2) as (b2 & E2 & I2). rewrite E1, E2. f_equal.
  cbn [en_p] in *. destruct b1, b2; try reflexivity; [symmetry; apply I2, I1; reflexivity|apply I1, I2; reflexivity].
Qed.
