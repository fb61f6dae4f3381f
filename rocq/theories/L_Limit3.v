(** L_Limit3: the values returned for passage times, recurrence times, committors and
    absorbing chains are limits of probabilities and expectations over paths. *)
From Verif Require Export L_Limit2.
Open Scope nat_scope.

Lemma block_tends n P T (b y : nat -> Qc) (f : nat -> nat -> Qc) : stochastic n P -> NoDup T -> (forall x, In x T -> x < n) ->
  (forall i, In i T -> exists b, ~ In b T /\ reach n (edge P) i b) ->
  (forall k, k < length T -> y k = (b (nth k T 0%nat) + sumn (length T) (fun l => mget P (nth k T 0%nat) (nth l T 0%nat) * y l))%Qc) ->
  (forall t i, In i T -> f (S t) i = (b i + sumn n (fun j => if memn j T then mget P i j * f t j else 0))%Qc) ->
  forall k, k < length T -> tends (fun t => f t (nth k T 0)) (y k).
Proof.
  intros St ND Lt Out Hy Hf k Hk. rewrite <- (ext_nth T ND y k Hk).
  apply (exit_tends n P (fun i => memn i T) St) with (b := b) (x := ext T y).
  - intros i _ Ei. apply memn_In in Ei. destruct (Out i Ei) as (c & Nc & R). exists c. split; [apply memn_false; exact Nc|exact R].
  - intros i Hi Ei. apply memn_In in Ei. destruct (In_nth T i 0 Ei) as (a & Ha & <-). rewrite (ext_nth T ND y a Ha), (Hy a Ha). f_equal.
    rewrite <- (ext_sum n P T ND Lt y). apply sumn_ext. intros j _. destruct (memn j T) eqn:Ej; [reflexivity|].
    rewrite ext_out by (apply memn_false; exact Ej). ring.
  - intros t i _ Ei. apply Hf. apply memn_In. exact Ei.
  - apply Lt, nth_In, Hk.
  - apply memn_In, nth_In, Hk.
Qed.

Lemma absorbing_row n P a j : stochastic n P -> a < n -> mget P a a = 1q -> j < n -> mget P a j = delta a j.
Proof.
  intros St Ha E Hj. destruct (Nat.eq_dec a j) as [<-|Ne]; [rewrite delta_refl; exact E|]. rewrite delta_neq by exact Ne.
  pose proof (st_row n P a St Ha) as H. pose proof (proj1 (proj2 St) a j Ha Hj) as P0.
  destruct (Qcle_lt_or_eq _ _ P0) as [Lp|Ep]; [exfalso|symmetry; exact Ep].
  assert (L : (sumn n (fun x => if Nat.eqb x a then 1 else 0) < sumn n (mget P a))%Qc).
  { apply (sumn_lt n _ _ j Hj); [destruct (Nat.eqb_spec j a); [congruence|exact Lp]|].
    intros x Hx. destruct (Nat.eqb_spec x a) as [->|]; [rewrite E; apply Qcle_refl|apply St; assumption]. }
  rewrite H, (sumn_single n _ a) in L; [|exact Ha|intros x _ N; destruct (Nat.eqb_spec x a); [congruence|reflexivity]].
  rewrite Nat.eqb_refl in L. exact (Qclt_not_eq _ _ L eq_refl).
Qed.
Lemma kstep_absorbing n P a k j : stochastic n P -> a < n -> mget P a a = 1q -> j < n -> kstep n P k a j = delta a j.
Proof.
  intros St Ha E Hj. induction k as [|k IH]; [apply kstep_0|]. rewrite kstep_S.
  rewrite (sumn_single n _ a); [rewrite E, IH; ring|exact Ha|]. intros x Hx N. rewrite (absorbing_row n P a x St Ha E Hx), delta_neq by congruence. ring.
Qed.

Section ABS.
Variables (n : nat) (P : mat) (T A : list nat).
Hypothesis St : stochastic n P.
Hypothesis HT : forall x, In x T <-> x < n /\ mget P x x <> 1q.
Hypothesis HA : forall x, In x A <-> x < n /\ mget P x x = 1q.
Lemma abs_split j : j < n -> memn j T = negb (memn j A).
Proof.
  intros Hj. destruct (Qc_eq_dec (mget P j j) 1) as [E|E].
  - assert (In j A) by (apply HA; auto). rewrite (proj2 (memn_In j A)) by assumption. apply memn_false. intros F. apply HT in F. apply (proj2 F). exact E.
  - assert (In j T) by (apply HT; auto). rewrite (proj2 (memn_In j T)) by assumption. symmetry. apply negb_true_iff, memn_false. intros F. apply HA in F. apply E, F.
Qed.
Lemma abs_kstep j k x : j < n -> memn j T = false -> x < n -> kstep n P k j x = delta j x.
Proof.
  intros Hj E Hx. rewrite abs_split in E by exact Hj. apply negb_false_iff, memn_In, HA in E. apply kstep_absorbing; try assumption. apply E.
Qed.
Lemma visits_S k i j : visits_by n P (S k) i j = (delta i j + sumn n (fun x => mget P i x * visits_by n P k x j))%Qc.
Proof.
  unfold visits_by. rewrite sumn_S_front, kstep_0. f_equal.
  rewrite (sumn_ext k _ (fun t => sumn n (fun x => mget P i x * kstep n P t x j)%Qc)) by (intros; apply kstep_S).
  rewrite sumn_swap. apply sumn_ext. intros x _. apply sumn_mul_l.
Qed.
Lemma abs_visits_S k i j : In i T -> In j T ->
  visits_by n P (S k) i j = (delta i j + sumn n (fun x => if memn x T then mget P i x * visits_by n P k x j else 0))%Qc.
Proof.
  intros Hi Hj. rewrite visits_S. f_equal. apply sumn_ext. intros x Hx. destruct (memn x T) eqn:E; [reflexivity|].
  assert (Z : visits_by n P k x j = 0q).
  { unfold visits_by. apply sumn_0. intros t _. rewrite abs_kstep; try assumption; [|apply HT; exact Hj]. apply delta_neq. intros ->.
    apply memn_false in E. contradiction. }
  rewrite Z. ring.
Qed.
Lemma abs_kstep_S k i a : In i T -> In a A ->
  kstep n P (S k) i a = (mget P i a + sumn n (fun x => if memn x T then mget P i x * kstep n P k x a else 0))%Qc.
Proof.
  intros Hi Ia. assert (Ha : a < n) by (apply HA; exact Ia).
  assert (Ea : memn a T = false) by (rewrite abs_split by exact Ha; apply negb_false_iff, memn_In; exact Ia).
  rewrite kstep_S.
  replace (mget P i a) with (sumn n (fun x => if memn x T then 0q else (mget P i x * delta x a)%Qc)).
  - rewrite <- sumn_plus. apply sumn_ext. intros x Hx. destruct (memn x T) eqn:E; [ring|]. rewrite abs_kstep by assumption. ring.
  - rewrite (sumn_single n _ a Ha); [rewrite Ea, delta_refl; ring|]. intros x _ N. rewrite delta_neq by exact N. destruct (memn x T); ring.
Qed.
Lemma abs_hit_S k i : In i T -> mean_hit_by n P A (S k) i = (1 + sumn n (fun x => if memn x T then mget P i x * mean_hit_by n P A k x else 0))%Qc.
Proof.
  intros Hi. assert (Li : i < n) by (apply HT; exact Hi).
  rewrite mean_hit_S.
  - f_equal. apply sumn_ext. intros x Hx. destruct (memn x T) eqn:E; [reflexivity|]. rewrite abs_split in E by exact Hx. apply negb_false_iff in E.
    rewrite mean_hit_in by exact E. ring.
  - apply negb_true_iff. rewrite <- abs_split by exact Li. apply memn_In. exact Hi.
Qed.
End ABS.

Lemma StronglySorted_NoDup l : StronglySorted lt l -> NoDup l.
Proof.
  induction 1 as [|a l H IH F]; constructor; [|exact IH]. intros I. rewrite Forall_forall in F. specialize (F a I). lia.
Qed.

Lemma absorption_limits n m : env_ok n m -> gap n (en_p m) ->
  (forall i, i < n -> exists a, a < n /\ mget (en_p m) a a = 1q /\ reach n (edge (en_p m)) i a) ->
  (exists i, i < n /\ mget (en_p m) i i <> 1q) ->
  exists T A N ap t, StronglySorted lt T /\ StronglySorted lt A /\
    (forall x, In x T <-> x < n /\ mget (en_p m) x x <> 1q) /\ (forall x, In x A <-> x < n /\ mget (en_p m) x x = 1q) /\
    fundamental_matrix m = Ok (Some N) /\ absorption_probabilities m = Ok (Some ap) /\ mean_absorption_times m = Ok (Some t) /\
    (forall a b, a < length T -> b < length T -> tends (fun k => visits_by n (en_p m) k (nth a T 0) (nth b T 0)) (mget N a b)) /\
    (forall a b, a < length A -> b < length T -> tends (fun k => kstep n (en_p m) k (nth b T 0) (nth a A 0)) (mget ap a b)) /\
    (forall b, b < length T -> tends (fun k => mean_hit_by n (en_p m) A k (nth b T 0)) (vget t b)).
Proof.
  intros Ok G R Ne. destruct (absorption_spec n m Ok G R Ne) as (T & A & N & ap & t & ST & SA & HT & HA & E1 & E2 & E3 & W1 & W2 & L3 & H1 & H2 & H3 & H4).
  assert (St : stochastic n (en_p m)) by apply Ok.
  exists T, A, N, ap, t. split; [exact ST|]. split; [exact SA|]. split; [exact HT|]. split; [exact HA|]. split; [exact E1|]. split; [exact E2|]. split; [exact E3|].
  assert (Out : forall i, In i T -> exists b, ~ In b T /\ reach n (edge (en_p m)) i b).
  { intros i Ii. apply HT in Ii. destruct (R i (proj1 Ii)) as (a & Ha & Ea & Ra). exists a. split; [|exact Ra]. intros F. apply HT in F. apply (proj2 F). exact Ea. }
  assert (LtT : forall x, In x T -> x < n) by (intros x Ix; apply HT; exact Ix).
  assert (ND := StronglySorted_NoDup T ST).
  split; [|split].
  - intros a b Ha Hb.
    apply (block_tends n (en_p m) T (fun i => delta i (nth b T 0)) (fun c => mget N c b) (fun k i => visits_by n (en_p m) k i (nth b T 0)) St ND LtT Out); [| |exact Ha].
    + intros k Hk. rewrite (proj2 (H1 k b Hk Hb)). f_equal. destruct (Nat.eq_dec k b) as [->|Nk]; [rewrite !delta_refl; reflexivity|].
      rewrite !delta_neq; [reflexivity| |exact Nk]. intros F. apply Nk. apply (proj1 (NoDup_nth T 0) ND); assumption.
    + intros k i Ii. apply (abs_visits_S n (en_p m) T A St HT HA); [exact Ii|apply nth_In; exact Hb].
  - intros a b Ha Hb.
    apply (block_tends n (en_p m) T (fun i => mget (en_p m) i (nth a A 0)) (fun c => mget ap a c) (fun k i => kstep n (en_p m) k i (nth a A 0)) St ND LtT Out); [| |exact Hb].
    + intros k Hk. apply (proj2 (H2 a k Ha Hk)).
    + intros k i Ii. apply (abs_kstep_S n (en_p m) T A St HT HA); [exact Ii|apply nth_In; exact Ha].
  - intros b Hb.
    apply (block_tends n (en_p m) T (fun i => 1q) (vget t) (mean_hit_by n (en_p m) A) St ND LtT Out); [| |exact Hb].
    + intros k Hk. apply (proj2 (H4 k Hk)).
    + intros k i Ii. apply (abs_hit_S n (en_p m) T A HT HA). exact Ii.
Qed.

Lemma mfpt_to_limit n m T : env_ok n m -> ergodic n (en_p m) -> T <> [] -> (forall x, In x T -> x < n) ->
  exists t, mfpt_to m T = Ok (Some t) /\ length t = n /\ forall i, i < n -> tends (fun k => mean_hit_by n (en_p m) T k i) (vget t i).
Proof.
  intros Ok E N L. destruct (mfpt_to_spec n m T Ok E N L) as (t & Et & Ps & _). exists t. split; [exact Et|]. split; [apply Ps|].
  apply passage_tends; [apply Ok| |exact Ps]. apply irreducible_reach; [apply E|exact N|exact L].
Qed.
Lemma mfpt_all_limit n m : env_ok n m -> ergodic n (en_p m) ->
  exists M, mfpt_all m = Ok (Some M) /\ wf n n M /\ forall i j, i < n -> j < n -> tends (fun k => mean_hit_by n (en_p m) [j] k i) (mget M i j).
Proof.
  intros Ok E. destruct (mfpt_all_spec n m Ok E) as (M & Em & W & _ & _ & H). exists M. split; [exact Em|]. split; [exact W|].
  intros i j Hi Hj. assert (Lj : forall x, In x [j] -> x < n) by (intros x [<-|[]]; exact Hj).
  destruct (mfpt_to_limit n m [j] Ok E ltac:(discriminate) Lj) as (t & Et & _ & Ht). rewrite (H [j] t j eq_refl Hj Et i Hi). apply Ht. exact Hi.
Qed.
Lemma lsum_tends {A} (f : nat -> A -> Qc) (g : A -> Qc) (l : list A) : (forall x, In x l -> tends (fun k => f k x) (g x)) ->
  tends (fun k => lsum (map (f k) l)) (lsum (map g l)).
Proof.
  induction l as [|a l IH]; intros H; cbn [map lsum]; [apply tends_const|]. apply tends_plus; [apply H; left; reflexivity|apply IH]. intros x Ix. apply H. right. exact Ix.
Qed.
Lemma mfpt_between_limit n m O T : env_ok n m -> ergodic n (en_p m) -> T <> [] -> (forall x, In x T -> x < n) -> O <> [] -> (forall x, In x O -> x < n) ->
  exists pi v, distribution n pi /\ stationary n (en_p m) pi /\ mfpt_between m O T = Ok (Some v) /\
   tends (fun k => lsum (map (fun i => vget pi i * mean_hit_by n (en_p m) T k i) O) / lsum (map (vget pi) O))%Qc v.
Proof.
  intros Ok E N L NO LO. destruct (mfpt_between_spec n m O T Ok E N L NO LO) as (pi & t & Dp & Sp & Ps & Em).
  eexists pi, _. split; [exact Dp|]. split; [exact Sp|]. split; [exact Em|].
  unfold Qcdiv. eapply tends_ext; [intros k; apply Qcmult_comm|]. cbv beta. rewrite (Qcmult_comm (lsum _)). apply tends_mul_l.
  apply lsum_tends with (f := fun k i => (vget pi i * mean_hit_by n (en_p m) T k i)%Qc) (g := fun i => (vget pi i * vget t i)%Qc).
  intros i Ii. apply tends_mul_l. apply passage_tends; [apply Ok| |exact Ps|apply LO; exact Ii]. apply irreducible_reach; [apply E|exact N|exact L].
Qed.
Lemma recurrence_limit n m : env_ok n m -> ergodic n (en_p m) ->
  exists r pi, mean_recurrence_times m = Ok (Some r) /\ length r = n /\ distribution n pi /\ stationary n (en_p m) pi /\
  forall j, j < n -> (Q2Qc (1 # 100000000) < vget pi j)%Qc -> tends (fun k => mean_return_by n (en_p m) k j) (vget r j).
Proof.
  intros Ok E. destruct (mean_recurrence_spec n m Ok E) as (r & pi & Er & Lr & Dp & Sp & H).
  exists r, pi. split; [exact Er|]. split; [exact Lr|]. split; [exact Dp|]. split; [exact Sp|]. intros j Hj Lp.
  specialize (H j Hj). destruct (Qcleb (vget pi j) (Q2Qc (1 # 100000000))) eqn:Eb.
  - apply Qcleb_le in Eb. exfalso. apply (Qclt_not_le _ _ Lp Eb).
  - destruct H as (t & Ps & Et). rewrite Et. apply return_tends; [apply Ok|apply E|exact Hj|exact Ps].
Qed.

Lemma walk_weaken n (E E' : nat -> nat -> Prop) : (forall a b, a < n -> b < n -> E a b -> E' a b) -> forall k i j, walk n E k i j -> walk n E' k i j.
Proof.
  intros H k i j W. induction W as [i Hi|k i c j Hi Hc He W IH]; [constructor; exact Hi|]. apply walk_cons with c; auto.
Qed.
Lemma committor_ext n K K' A B x : (forall i j, i < n -> j < n -> K i j = K' i j) -> committor n K A B x -> committor n K' A B x.
Proof.
  intros H (L & Z & O & E). split; [exact L|]. split; [exact Z|]. split; [exact O|]. intros i Hi NA NB. rewrite (E i Hi NA NB).
  apply sumn_ext. intros j Hj. rewrite H by assumption. reflexivity.
Qed.
Lemma reversed_stochastic n P pi : stochastic n P -> irreducible n (edge P) -> stationary n P pi -> (forall i, i < n -> (0 < vget pi i)%Qc) ->
  stochastic n (mk n n (reversed P pi)) /\ irreducible n (edge (mk n n (reversed P pi))).
Proof.
  intros St I Sp Pp. destruct (reversed_ok n P pi St I Sp Pp) as (R1 & R2 & R3). split.
  - split; [apply wf_mk|]. split.
    + intros i j Hi Hj. rewrite mget_mk by assumption. apply R1; assumption.
    + intros i Hi. rewrite <- (R2 i Hi). apply sumn_ext. intros j Hj. apply mget_mk; assumption.
  - intros i j Hi Hj. destruct (R3 i j Hi Hj) as (k & W). exists k. revert W. apply walk_weaken. intros a b Ha Hb F. unfold edge. rewrite mget_mk by assumption. exact F.
Qed.
Lemma committor_limit n m (backward : bool) S1 S2 : env_ok n m -> ergodic n (en_p m) -> S1 <> [] -> S2 <> [] ->
  (forall x, In x S1 -> x < n) -> (forall x, In x S2 -> x < n) -> (forall x, In x S1 -> ~ In x S2) ->
  exists pi x r, distribution n pi /\ stationary n (en_p m) pi /\
   committor_probabilities m backward S1 S2 = Ok (Some r) /\ length r = n /\
   forall i, i < n ->
    tends (fun k => if backward then before_by n (mk n n (reversed (en_p m) pi)) S2 S1 k i else before_by n (en_p m) S1 S2 k i) (vget x i) /\
    vget r i = if Qcleb (vget x i) (Q2Qc (1 # 100000000)) then 0q else vget x i.
Proof.
  intros Ok E N1 N2 L1 L2 D. destruct (committor_spec n m backward S1 S2 Ok E N1 N2 L1 L2 D) as (pi & x & r & Dp & Sp & C & _ & _ & Er & Lr & Hr).
  exists pi, x, r. split; [exact Dp|]. split; [exact Sp|]. split; [exact Er|]. split; [exact Lr|]. intros i Hi. split; [|apply Hr; exact Hi].
  assert (St : stochastic n (en_p m)) by apply Ok. destruct E as [Irr Per].
  assert (Pp : forall i, i < n -> (0 < vget pi i)%Qc).
  { destruct (ergodic_pi n m Ok Irr) as (pi' & _ & _ & _ & Pp' & Un). rewrite (Un pi Dp Sp). exact Pp'. }
  destruct backward.
  - destruct (reversed_stochastic n (en_p m) pi St Irr Sp Pp) as [R1 R2].
    apply (before_tends n (mk n n (reversed (en_p m) pi)) S2 S1 R1); [| |exact Hi].
    + apply irreducible_reach; [exact R2|destruct S2; [congruence|discriminate]|]. intros y Iy. apply in_app_iff in Iy. destruct Iy; auto.
    + revert C. apply committor_ext. intros a b Ha Hb. rewrite mget_mk by assumption. reflexivity.
  - apply (before_tends n (en_p m) S1 S2 St); [|exact C|exact Hi].
    apply irreducible_reach; [exact Irr|destruct S1; [congruence|discriminate]|]. intros y Iy. apply in_app_iff in Iy. destruct Iy; auto.
Qed.
