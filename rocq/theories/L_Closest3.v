(** L_Closest3: the method closest_reversible and examples. *)
From Verif Require Export L_Closest2 ExM L_MeasuresR.
Open Scope nat_scope.

Lemma sum_pos_of_close s : (Qcabs (s - 1) <= atol + rtol)%Qc -> (0 < s)%Qc.
Proof.
  intros H. assert (K : (- (s - 1) <= Qcabs (s - 1))%Qc).
  { unfold Qcabs. destruct (Qcleb 0 (s - 1)) eqn:E; [apply Qcleb_le in E; qclra|apply Qcle_refl]. }
  unfold atol, rtol in *. qclra.
Qed.
Lemma used_iff n dist d : 0 < n ->
  (match dist with None => Ok (repeat (1 / Qcn n)%Qc n) | Some v => validate_vector v StochasticV (Some n) end) = Ok d <-> used_distribution n dist d.
Proof.
  intros Hn. destruct dist as [v|]; cbn [used_distribution].
  - split.
    + intros H. apply validate_vector_ok in H. destruct H as (-> & _ & L & I & _ & _ & S0). specialize (L n eq_refl). rewrite L in I.
      split; [reflexivity|]. split; [exact L|]. split; [exact I|]. specialize (S0 eq_refl). rewrite lsum_nth, L in S0. exact S0.
    + intros (-> & L & I & S0). unfold validate_vector. rewrite L. destruct (Nat.eqb_spec n 0); [lia|]. cbn [negb]. rewrite Nat.eqb_refl. cbv iota.
      replace (forallb in01 v) with true.
      2:{ symmetry. apply forallb_forall. intros x Hx. apply In_nth with (d := 0q) in Hx. destruct Hx as (i & Hi & <-). rewrite L in Hi. destruct (I i Hi) as [I1 I2].
          unfold in01. apply andb_true_iff. split; apply Qcleb_le; assumption. }
      cbv iota. replace (isclose (lsum v) 1) with true; [reflexivity|]. symmetry. apply isclose_1. rewrite lsum_nth, L. exact S0.
  - split; [intros H; injection H as <-; reflexivity|intros ->; reflexivity].
Qed.
Lemma used_weights n dist d : 0 < n -> used_distribution n dist d -> length d = n /\ (forall i, i < n -> (0 <= vget d i)%Qc) /\ (0 < sumn n (vget d))%Qc.
Proof.
  intros Hn. destruct dist as [v|]; cbn [used_distribution].
  - intros (-> & L & I & S0). split; [exact L|]. split; [intros i Hi; apply I, Hi|]. apply sum_pos_of_close, S0.
  - intros ->. destruct (uniform_weights false n Hn) as (L & P & _). split; [exact L|]. split; [exact P|].
    apply sumn_pos with (k := 0); [exact Hn| |exact P]. rewrite uniform_get by exact Hn. apply Qc_div_pos; [reflexivity|apply Qcn_pos, Hn].
Qed.
Lemma zeros_iff n d : length d = n -> Nat.ltb 0 (cr_zeros d) = false <-> forall i, i < n -> vget d i <> 0q.
Proof.
  intros L. unfold cr_zeros. rewrite Nat.ltb_ge. split.
  - intros H i Hi E. assert (In (vget d i) (filter (fun x => Qceqb x 0) d)).
    { apply filter_In. split; [apply nth_In; lia|apply Qceqb_eq, E]. } destruct (filter _ d); [contradiction|cbn in H; lia].
  - intros H. destruct (filter (fun x => Qceqb x 0) d) as [|x l] eqn:E; [cbn; lia|]. exfalso.
    assert (In x (filter (fun x => Qceqb x 0) d)) by (rewrite E; left; reflexivity). apply filter_In in H0. destruct H0 as [Hx Ex]. apply Qceqb_eq in Ex.
    apply In_nth with (d := 0q) in Hx. destruct Hx as (i & Hi & Ei). apply (H i); [lia|]. unfold vget. congruence.
Qed.
Lemma balanced_stationary n d Q : stochastic n Q -> length d = n -> (forall i, i < n -> (0 <= vget d i)%Qc) -> (0 < sumn n (vget d))%Qc -> balanced n d Q ->
  let pi := tab n (fun i => vget d i / sumn n (vget d))%Qc in distribution n pi /\ stationary n Q pi /\ time_reversible n Q pi.
Proof.
  intros (W & _ & R) L P S0 B pi. assert (NZ : sumn n (vget d) <> 0q) by (intros E; rewrite E in S0; discriminate).
  assert (G : forall i, i < n -> vget pi i = (vget d i / sumn n (vget d))%Qc) by (intros; unfold pi; apply vget_tab; assumption).
  assert (Bp : forall i j, i < n -> j < n -> flow Q pi i j = flow Q pi j i).
  { intros i j Hi Hj. unfold flow. rewrite !G by assumption. transitivity (vget d i * mget Q i j / sumn n (vget d))%Qc; [field; exact NZ|]. rewrite (B i j Hi Hj). field. exact NZ. }
  split; [|split].
  - split; [apply tab_length|]. split; [intros i Hi; rewrite G by exact Hi; apply Qc_div_nonneg; auto|].
    rewrite (sumn_ext n _ (fun i => vget d i / sumn n (vget d))%Qc) by exact G. rewrite sumn_div. apply Qc_div_self. exact NZ.
  - split; [apply tab_length|]. intros j Hj. rewrite (sumn_ext n _ (fun i => vget pi j * mget Q j i)%Qc) by (intros i Hi; apply (Bp i j Hi Hj)).
    rewrite sumn_mul_l, R by exact Hj. ring.
  - apply balance_iff. exact Bp.
Qed.

Section Method.
Variables (slsqp : optimiser) (nx : mat -> nxorder) (n : nat) (m : mcenv) (dist : option vec) (d : vec) (weighted : bool).
Hypothesis (Hm : env_ok n m) (Hnx : forall p, stochastic n p -> nx_ok n p (nx p)).
Lemma new_env p : stochastic n p -> env_ok n (mkenv p (en_names m) (nx p) true).
Proof using Hm Hnx. intros St. destruct Hm as (H2 & _ & L & N & _). repeat (split; [assumption|]). apply Hnx, St. Qed.
Lemma closest_unfold : used_distribution n dist d -> closest_reversible slsqp nx m dist weighted =
  if weighted && Nat.ltb 0 (cr_zeros d) then Err ValueErr else
  bind (is_reversible m) (fun b =>
  bind (if b then Ok (en_p m) else mc_closest_reversible slsqp (en_p m) d weighted) (fun p =>
  bind (is_reversible (mkenv p (en_names m) (nx p) true)) (fun r => if r then Ok (mkchain p (en_names m)) else Err ValueErr))).
Proof using Hm.
  clear Hnx. intros U. unfold closest_reversible. rewrite (env_size n m Hm). apply used_iff in U; [|destruct Hm; lia]. rewrite U. cbn [bind].
  destruct (weighted && Nat.ltb 0 (cr_zeros d)); reflexivity.
Qed.
(** a chain already reversible is returned as it is *)
Lemma closest_same : used_distribution n dist d -> (weighted = true -> forall i, i < n -> vget d i <> 0q) -> is_reversible m = Ok true ->
  closest_reversible slsqp nx m dist weighted = Ok (mkchain (en_p m) (en_names m)).
Proof using Hm Hnx.
  intros U NZ R. rewrite (closest_unfold U). pose proof (used_weights n dist d ltac:(destruct Hm; lia) U) as (L & _).
  replace (weighted && Nat.ltb 0 (cr_zeros d)) with false.
  2:{ destruct weighted eqn:Ew; [|reflexivity]. symmetry. apply (zeros_iff n d L), NZ; reflexivity. }
  rewrite R. cbn [bind]. assert (E := new_env (en_p m) (proj1 (proj2 Hm))). destruct m as [p names o a] eqn:Em. cbn [en_p en_names] in *.
  rewrite (is_reversible_same n p names names (nx p) o true a E Hm), R. reflexivity.
Qed.
Lemma closest_null_weight i : used_distribution n dist d -> weighted = true -> i < n -> vget d i = 0q -> closest_reversible slsqp nx m dist weighted = Err ValueErr.
Proof using Hm.
  clear Hnx. intros U Ew Hi Z. rewrite (closest_unfold U), Ew. cbn [andb]. pose proof (used_weights n dist d ltac:(destruct Hm; lia) U) as (L & _).
  destruct (Nat.ltb 0 (cr_zeros d)) eqn:E; [reflexivity|]. exfalso. apply (proj1 (zeros_iff n d L) E i Hi Z).
Qed.
(** a chain that is not *)
Lemma closest_other : used_distribution n dist d -> (weighted = true -> forall i, i < n -> vget d i <> 0q) -> exact_optimiser slsqp -> is_reversible m = Ok false ->
  match mc_closest_reversible slsqp (en_p m) d weighted with
  | Err e => e = ValueErr /\ closest_reversible slsqp nx m dist weighted = Err ValueErr
  | Ok q => closest_for weighted n d (en_p m) q /\ (exists pi, distribution n pi /\ stationary n q pi /\ time_reversible n q pi) /\
            (one_recurrent_class n q -> closest_reversible slsqp nx m dist weighted = Ok (mkchain q (en_names m))) /\
            (~ one_recurrent_class n q -> closest_reversible slsqp nx m dist weighted = Err ValueErr)
  end.
Proof using Hm Hnx.
  intros U NZ Ex R. assert (Hn : 0 < n) by (destruct Hm; lia). pose proof (used_weights n dist d Hn U) as (L & P & S0).
  assert (W : weights_for weighted n d) by (split; [exact L|split; [exact P|exact NZ]]).
  rewrite (closest_unfold U). replace (weighted && Nat.ltb 0 (cr_zeros d)) with false.
  2:{ destruct weighted eqn:Ew; [|reflexivity]. symmetry. apply (zeros_iff n d L), NZ; reflexivity. }
  rewrite R. cbn [bind]. destruct (mc_closest_cases slsqp n (en_p m) d weighted Hn (proj1 (proj2 Hm)) W Ex) as [->|(q & -> & C)]; [split; reflexivity|].
  split; [exact C|]. destruct C as [[Sq Bq] _]. destruct (balanced_stationary n d q Sq L P S0 Bq) as (Dp & Sp & Tp). set (pi := tab n _) in *.
  split; [exists pi; split; [exact Dp|split; [exact Sp|exact Tp]]|]. cbn [bind]. assert (E := new_env q Sq).
  destruct (is_reversible_all n _ E) as (b & Eb & Ib). cbn [en_p] in Ib. rewrite Eb. cbn [bind]. split.
  - intros One. destruct (is_reversible_spec n _ E One) as (pi' & b' & D' & S' & U' & E' & _ & T' & _). rewrite Eb in E'. injection E' as <-. cbn [en_p] in *.
    rewrite T'; [reflexivity|]. rewrite <- (U' pi Dp Sp). exact Tp.
  - intros N. destruct b; [|reflexivity]. exfalso. apply N, Ib. reflexivity.
Qed.
Lemma closest_result c : used_distribution n dist d -> exact_optimiser slsqp -> closest_reversible slsqp nx m dist weighted = Ok c ->
  ch_states c = en_names m /\ ((is_reversible m = Ok true /\ ch_p c = en_p m) \/ (is_reversible m = Ok false /\ closest_for weighted n d (en_p m) (ch_p c))).
Proof using Hm Hnx.
  intros U Ex H. assert (Hn : 0 < n) by (destruct Hm; lia). pose proof (used_weights n dist d Hn U) as (L & P & S0).
  assert (NZ : weighted = true -> forall i, i < n -> vget d i <> 0q).
  { intros Ew i Hi Z. rewrite (closest_null_weight i U Ew Hi Z) in H. discriminate. }
  destruct (is_reversible_all n m Hm) as (b & Eb & _). destruct b.
  - rewrite (closest_same U NZ Eb) in H. injection H as <-. split; [reflexivity|]. left. split; [exact Eb|reflexivity].
  - pose proof (closest_other U NZ Ex Eb) as O. destruct (mc_closest_reversible slsqp (en_p m) d weighted) as [q|e] eqn:Eq.
    + destruct O as (C & _ & _). rewrite (closest_unfold U), Eb in H. destruct (weighted && Nat.ltb 0 (cr_zeros d)); [discriminate|]. cbn [bind] in H. rewrite Eq in H. cbn [bind] in H.
      destruct (is_reversible (mkenv q (en_names m) (nx q) true)) as [[]|]; cbn [bind] in H; try discriminate. injection H as <-. split; [reflexivity|]. right. split; [exact Eb|exact C].
    + destruct O as [_ O]. rewrite O in H. discriminate.
Qed.
End Method.
Lemma closest_bad_distribution slsqp nx n m v weighted : env_ok n m -> (forall d, ~ used_distribution n (Some v) d) ->
  closest_reversible slsqp nx m (Some v) weighted = Err ValueErr.
Proof.
  intros Hm N. unfold closest_reversible. rewrite (env_size n m Hm). destruct (validate_vector v StochasticV (Some n)) as [d|e] eqn:E.
  - exfalso. apply (N d), (used_iff n (Some v) d); [destruct Hm; lia|exact E].
  - cbn [bind]. unfold validate_vector in E. repeat match type of E with context [if ?b then _ else _] => destruct b end; congruence.
Qed.

(** ** Examples *)
(** two absorbing states *)
Definition cSplit : chain := mkchain (qm [[1; 0]; [0; 1]]%Q) ["A"; "B"]%string.
Lemma split_ok : env_ok 2 (env cSplit).
Proof. apply env_b; vm_compute; reflexivity. Qed.
Lemma split_reversible : closest_for false 2 (uniform 2) (ch_p cSplit) (ch_p cSplit).
Proof.
  split; [split|].
  - apply stochasticb_ok. vm_compute. reflexivity.
  - apply uniform_balanced; [lia|]. intros i j Hi Hj. destruct i as [|[|]], j as [|[|]]; try lia; apply Qceqb_eq; vm_compute; reflexivity.
  - intros Q' _. replace (dist2 false 2 (uniform 2) (ch_p cSplit) (ch_p cSplit)) with 0q by (apply Qceqb_eq; vm_compute; reflexivity).
    unfold dist2. apply sumn_nonneg. intros i Hi. apply sumn_nonneg. intros j Hj. unfold cell_weight. generalize (mget Q' i j - mget (ch_p cSplit) i j)%Qc. intros t. qcnra.
Qed.
Lemma split_refused : is_reversible (env cSplit) = Ok false.
Proof. vm_compute. reflexivity. Qed.
Lemma closest_refused : exists n m, env_ok n m /\ closest_for false n (uniform n) (en_p m) (en_p m) /\
  forall slsqp nx, exact_optimiser slsqp -> (forall p, stochastic n p -> nx_ok n p (nx p)) -> closest_reversible slsqp nx m None false = Err ValueErr.
Proof.
  exists 2, (env cSplit). split; [exact split_ok|]. split; [exact split_reversible|]. intros slsqp nx Ex Nx.
  pose proof (closest_other slsqp nx 2 (env cSplit) None (uniform 2) false split_ok Nx eq_refl ltac:(discriminate) Ex split_refused) as O.
  destruct (mc_closest_reversible slsqp (en_p (env cSplit)) (uniform 2) false) as [q|e]; [|apply O].
  destruct O as (C & _ & _ & O). apply O. rewrite (closest_unique false 2 (uniform 2) _ q _ (uniform_weights false 2 ltac:(lia)) C split_reversible).
  intros One. destruct (is_reversible_all 2 _ split_ok) as (b & Eb & Ib). rewrite split_refused in Eb. injection Eb as <-. apply Bool.diff_false_true. apply Ib. split; [exact One|].
  intros pi Dp Sp i j Hi Hj. unfold flow. destruct i as [|[|]], j as [|[|]]; try lia; try apply within_refl; cbn; unfold Q2Qc at 1; cbn; rewrite !Qcmult_0_r; apply within_refl.
Qed.

(** a doubly stochastic chain with a drift around a circle, and a reversible chain nearer to it than every symmetric one *)
Definition cDrift : chain := mkchain (qm [[1 # 2; 1 # 2; 0]; [3 # 10; 1 # 2; 1 # 5]; [1 # 5; 0; 4 # 5]]%Q) ["A"; "B"; "C"]%string.
Definition pNear : mat := qm [[1 # 2; 11 # 25; 3 # 50]; [33 # 100; 49 # 100; 9 # 50]; [3 # 100; 3 # 25; 17 # 20]]%Q.
Lemma drift_ok : env_ok 3 (env cDrift).
Proof. apply env_b; vm_compute; reflexivity. Qed.
Lemma drift_refused : is_reversible (env cDrift) = Ok false.
Proof. vm_compute. reflexivity. Qed.
Lemma drift_closest : closest_for false 3 (uniform 3) (ch_p cDrift) (symmetrised 3 (ch_p cDrift)).
Proof.
  apply doubly_closest; [lia|apply drift_ok|]. intros j Hj. destruct j as [|[|[|]]]; try lia; apply Qceqb_eq; vm_compute; reflexivity.
Qed.
Lemma near_reversible : some_reversible 3 pNear.
Proof.
  assert (St : stochastic 3 pNear) by (apply stochasticb_ok; vm_compute; reflexivity). split; [exact St|].
  exists (tab 3 (fun i => vget (qv [3; 4; 6]%Q) i / sumn 3 (vget (qv [3; 4; 6]%Q)))%Qc). apply balanced_stationary; try reflexivity; try assumption.
  - intros i Hi. destruct i as [|[|[|]]]; try lia; discriminate.
  - intros i j Hi Hj. destruct i as [|[|[|]]], j as [|[|[|]]]; try lia; apply Qceqb_eq; vm_compute; reflexivity.
Qed.
Lemma symm_one : one_recurrent_class 3 (symmetrised 3 (ch_p cDrift)).
Proof.
  assert (E : env_ok 3 (env (mkchain (symmetrised 3 (ch_p cDrift)) ["A"; "B"; "C"]%string))) by (apply env_b; vm_compute; reflexivity).
  destruct (is_reversible_all 3 _ E) as (b & Eb & Ib). apply Ib. assert (R : is_reversible (env (mkchain (symmetrised 3 (ch_p cDrift)) ["A"; "B"; "C"]%string)) = Ok true) by (vm_compute; reflexivity).
  rewrite R in Eb. injection Eb as <-. reflexivity.
Qed.
Lemma drift_returned : exists slsqp, exact_optimiser slsqp /\ closest_reversible slsqp nx_default (env cDrift) None false = Ok (mkchain (symmetrised 3 (ch_p cDrift)) (ch_states cDrift)).
Proof.
  destruct (closest_attained 3 (ch_p cDrift) (uniform 3) false _ ltac:(lia) (proj1 (proj2 drift_ok)) (uniform_weights false 3 ltac:(lia)) drift_closest) as (slsqp & Ex & E).
  exists slsqp. split; [exact Ex|].
  pose proof (closest_other slsqp nx_default 3 (env cDrift) None (uniform 3) false drift_ok ltac:(intros p (W & _); apply nx_default_ok, W) eq_refl ltac:(discriminate) Ex drift_refused) as O.
  change (en_p (env cDrift)) with (ch_p cDrift) in O. rewrite E in O. destruct O as (_ & _ & O & _). apply O, symm_one.
Qed.
Lemma not_nearest : exists n m Q, env_ok n m /\ some_reversible n Q /\
  (forall slsqp nx c, exact_optimiser slsqp -> (forall p, stochastic n p -> nx_ok n p (nx p)) -> closest_reversible slsqp nx m None false = Ok c ->
     (dist2 false n (uniform n) Q (en_p m) < dist2 false n (uniform n) (ch_p c) (en_p m))%Qc) /\
  (exists slsqp c, exact_optimiser slsqp /\ closest_reversible slsqp nx_default m None false = Ok c).
Proof.
  exists 3, (env cDrift), pNear. split; [exact drift_ok|]. split; [exact near_reversible|]. split.
  - intros slsqp nx c Ex Nx H. destruct (closest_result slsqp nx 3 (env cDrift) None (uniform 3) false drift_ok Nx c eq_refl Ex H) as (_ & [(R & _)|(_ & C)]).
    + rewrite drift_refused in R. discriminate.
    + rewrite (closest_unique false 3 (uniform 3) _ (ch_p c) _ (uniform_weights false 3 ltac:(lia)) C drift_closest). apply Qcltb_lt. vm_compute. reflexivity.
  - destruct drift_returned as (slsqp & Ex & E). exists slsqp. eexists. split; [exact Ex|exact E].
Qed.

(** ** Statements for the property file *)
Lemma points_reversible n d x : 0 < n -> length d = n -> (forall i, i < n -> (0 <= vget d i)%Qc) ->
  let m := cr_m n (cr_zeros d) in qp_point m (cr_a n m d) x -> exists q, cr_combine n m (cr_basis n d) x = Ok q /\ reversible_for n d q.
Proof. intros Hn L P m H. destruct (point_reversible n d L P x Hn H) as [R E]. eexists. split; [exact E|exact R]. Qed.
Lemma points_all n d q : 0 < n -> length d = n -> (forall i, i < n -> (0 <= vget d i)%Qc) -> reversible_for n d q ->
  let m := cr_m n (cr_zeros d) in exists x, qp_point m (cr_a n m d) x /\ cr_combine n m (cr_basis n d) x = Ok q.
Proof.
  intros Hn L P R m. destruct (reversible_point n d q L P Hn R) as [H E]. exists (point n d q). split; [exact H|].
  destruct (point_reversible n d L P (point n d q) Hn H) as [_ C]. fold m in C. rewrite C, E. reflexivity.
Qed.
Lemma objective_is_distance weighted n d P : 0 < n -> stochastic n P -> weights_for weighted n d ->
  let m := cr_m n (cr_zeros d) in let b := cr_basis n d in
  exists z c, cr_z d weighted = Ok z /\
    (forall x q, qp_point m (cr_a n m d) x -> cr_combine n m b x = Ok q -> cr_objective (cr_h m b z) (cr_f m b z weighted P) x = (dist2 weighted n d q P - c)%Qc) /\
    (forall x e, length x = m -> length e = m ->
       cr_objective (cr_h m b z) (cr_f m b z weighted P) (tab m (fun k => vget x k + vget e k)%Qc)
       = (cr_objective (cr_h m b z) (cr_f m b z weighted P) x + vdot (cr_jacobian (cr_h m b z) (cr_f m b z weighted P) x) e
          + 1 / (1 + 1) * vdot e (mvmul (cr_h m b z) e))%Qc).
Proof.
  intros Hn (HP & _) W m b. destruct (cr_z_spec n d weighted Hn W) as (z & Ez & Hz). exists z. eexists. split; [exact Ez|]. split.
  - intros x q Hx E. pose proof W as (L & Pd & _). destruct (point_reversible n d L Pd x Hn Hx) as [_ C]. fold m in C. fold b in C. rewrite C in E. injection E as <-.
    apply (objective_dist n d weighted P Hn W HP z Hz). apply Hx.
  - intros x e Lx Le. apply (gradient n d weighted P Hn W HP z Hz x e Lx Le).
Qed.
