(** L_Kemeny: the fundamental matrix, the mean absorption times and Kemeny's constant do not depend on the tolerance of the test for absorbing states. *)
From Verif Require Import L_Props L_Limit3 L_MaxPrin.
Open Scope nat_scope.

Lemma transient_exact n m : env_ok n m -> let P := en_p m in
  (forall i, i < n -> exists a, a < n /\ mget P a a = 1q /\ reach n (edge P) i a) ->
  forall x, In x (transient_states_indices P (en_comps m)) <-> x < n /\ mget P x x <> 1q.
Proof.
  intros HEnv P HAb x. pose proof HEnv as (Hn & St & _ & _ & HO). pose proof (proj1 St) as W. pose proof (proj1 HO) as HE.
  rewrite (transient_state_in n) by assumption. split; intros [Hx H]; split; auto.
  - intros E. destruct H as (y & R1 & R2). apply R2.
    destruct (Nat.eq_dec x y) as [<-|Ne]; [exact R1|]. exfalso.
    destruct (reach_out _ _ _ _ R1 Ne) as (k & Hk & Nk & He). unfold edge in He. rewrite (row_one n P x St Hx E k Hk Nk) in He. apply (Qclt_irr 0q He).
  - destruct (HAb x Hx) as (a & Ha & Ea & R). exists a. split; [exact R|]. intros R'.
    destruct (Nat.eq_dec a x) as [->|Ne]; [contradiction|].
    destruct (reach_out _ _ _ _ R' Ne) as (k & Hk & Nk & He). unfold edge in He. rewrite (row_one n P a St Ha Ea k Hk Nk) in He. apply (Qclt_irr 0q He).
Qed.
Lemma absorbing_always n m : env_ok n m -> let P := en_p m in
  (forall i, i < n -> exists a, a < n /\ mget P a a = 1q /\ reach n (edge P) i a) -> is_absorbing P = Ok true.
Proof.
  intros HEnv P HAb. pose proof HEnv as (Hn & St & _ & _ & HO). pose proof (proj1 St) as W.
  destruct (is_absorbing_spec n P ltac:(lia) W) as (b & Eb & Hb). rewrite Eb. f_equal. apply Hb. intros i Hi. destruct (HAb i Hi) as (a & Ha & Ea & R).
  exists a. split; [|exact R]. apply (absorbing_in n); [exact W|]. split; [exact Ha|]. rewrite Ea. apply isclose_refl.
Qed.

Lemma fundamental_always n m : env_ok n m ->
  (forall i, i < n -> exists a, a < n /\ mget (en_p m) a a = 1q /\ reach n (edge (en_p m)) i a) ->
  (exists i, i < n /\ mget (en_p m) i i <> 1q) ->
  exists T A N t, StronglySorted lt T /\ (forall x, In x T <-> x < n /\ mget (en_p m) x x <> 1q) /\ (forall x, In x A <-> x < n /\ mget (en_p m) x x = 1q) /\
    fundamental_matrix m = Ok (Some N) /\ mean_absorption_times m = Ok (Some t) /\ wf (length T) (length T) N /\ length t = length T /\
    (forall a b, a < length T -> b < length T -> tends (fun k => visits_by n (en_p m) k (nth a T 0) (nth b T 0)) (mget N a b)) /\
    (forall b, b < length T -> tends (fun k => mean_hit_by n (en_p m) A k (nth b T 0)) (vget t b)).
Proof.
  intros HEnv HAb (i0 & Hi0 & Ni0). pose proof HEnv as (Hn & St & _ & _ & HO). pose proof (proj1 St) as W. pose proof (proj1 HO) as HE.
  set (P := en_p m) in *. set (T := transient_states_indices P (en_comps m)).
  set (A := filter (fun x => Qceqb (mget P x x) 1q) (seq 0 n)).
  pose proof (transient_exact n m HEnv HAb) as InT. fold P T in InT. pose proof (absorbing_always n m HEnv HAb) as HA. fold P in HA.
  assert (InA : forall x, In x A <-> x < n /\ mget P x x = 1q).
  { intros x. unfold A. rewrite filter_In, in_seq, Qceqb_eq. intuition lia. }
  assert (ST : StronglySorted lt T) by apply (T_sorted n P _ HE).
  assert (NT := sorted_nd _ ST).
  assert (LT : forall x, In x T -> x < n) by (intros x Hx; apply InT in Hx; apply Hx).
  assert (OT : forall i, In i T -> exists b, ~ In b T /\ reach n (edge P) i b) by (intros i Hi; apply (transient_out n _ _ i W HE Hi)).
  assert (T0 : T <> []). { intros E. assert (C : In i0 T) by (apply InT; auto). rewrite E in C. destruct C. }
  assert (H0 : 0 < length T) by (destruct T; [congruence|simpl; lia]).
  destruct (fundamental_spec n m HEnv HA T0) as (N & EN & WN & EqN & PosN). fold P in EqN. fold T in WN, EqN, PosN.
  set (kT := length T) in *.
  exists T, A, N, (mvmul N (repeat 1q (nrows N))). fold kT.
  split; [exact ST|]. split; [exact InT|]. split; [exact InA|]. split; [exact EN|].
  assert (Tl : Nat.eqb (length T) 0 = false) by (apply Nat.eqb_neq; fold kT; lia).
  split. { unfold mean_absorption_times. fold P. rewrite HA. cbn [bind negb orb]. fold T. rewrite Tl. rewrite EN. reflexivity. }
  split; [exact WN|]. split; [apply (length_mvmul kT kT); exact WN|].
  assert (Gt : forall k, k < kT -> vget (mvmul N (repeat 1q (nrows N))) k = sumn kT (fun c => mget N k c)).
  { intros k Hk. rewrite (vget_mvmul kT kT) by assumption. apply sumn_ext. intros c Hc. rewrite (wf_nrows _ _ _ WN). unfold vget. rewrite nth_rep by exact Hc. ring. }
  assert (Eqt : forall k, k < kT -> vget (mvmul N (repeat 1q (nrows N))) k = (1 + sumn kT (fun l => mget P (nth k T 0%nat) (nth l T 0%nat) * vget (mvmul N (repeat 1q (nrows N))) l))%Qc).
  { intros k Hk. rewrite Gt by exact Hk. rewrite (sumn_ext kT _ (fun c => delta k c + sumn kT (fun l => mget P (nth k T 0%nat) (nth l T 0%nat) * mget N l c))%Qc) by (intros; apply EqN; assumption).
    rewrite sumn_plus, sumn_delta by exact Hk. f_equal. rewrite sumn_swap. apply sumn_ext. intros l Hl. rewrite sumn_mul_l, Gt by exact Hl. reflexivity. }
  split.
  - intros a b Ha Hb.
    apply (block_tends n P T (fun i => delta i (nth b T 0)) (fun c => mget N c b) (fun k i => visits_by n P k i (nth b T 0)) St NT LT OT); [| |exact Ha].
    + intros k Hk. rewrite (EqN k b Hk Hb). f_equal. destruct (Nat.eq_dec k b) as [->|Nk]; [rewrite !delta_refl; reflexivity|].
      rewrite !delta_neq; [reflexivity| |exact Nk]. intros F. apply Nk. apply (proj1 (NoDup_nth T 0) NT); assumption.
    + intros k i Ii. apply (abs_visits_S n P T A St InT InA); [exact Ii|apply nth_In; exact Hb].
  - intros b Hb.
    apply (block_tends n P T (fun i => 1q) (vget (mvmul N (repeat 1q (nrows N)))) (mean_hit_by n P A) St NT LT OT); [| |exact Hb].
    + intros k Hk. apply (Eqt k Hk).
    + intros k i Ii. apply (abs_hit_S n P T A InT InA). exact Ii.
Qed.

Lemma kemeny_always n m : env_ok n m ->
  (forall i, i < n -> exists a, a < n /\ mget (en_p m) a a = 1q /\ reach n (edge (en_p m)) i a) ->
  ((exists i, i < n /\ mget (en_p m) i i <> 1q) ->
   exists T k, StronglySorted lt T /\ (forall x, In x T <-> x < n /\ mget (en_p m) x x <> 1q) /\ kemeny_constant m = Ok (Some k) /\
    tends (fun t => lsum (map (fun x => visits_by n (en_p m) t x x) T)) k) /\
  ((forall i, i < n -> mget (en_p m) i i = 1q) -> kemeny_constant m = Ok None).
Proof.
  intros Hm R. split.
  - intros Ne. destruct (fundamental_always n m Hm R Ne) as (T & A & N & t & ST & HT & HA & E1 & E2 & W1 & _ & Tv & _).
    assert (T0 : 0 < length T) by (destruct Ne as (i & Hi); apply HT in Hi; destruct T; [destruct Hi|cbn; lia]).
    exists T, (sumn (length T) (fun i => mget N i i)). split; [exact ST|]. split; [exact HT|]. split.
    + unfold kemeny_constant. rewrite E1. cbn [bind]. rewrite (wf_nrows _ _ _ W1), (wf_ncols _ _ _ W1 T0).
      destruct (Nat.eqb_spec (length T * length T) 1) as [L|L]; [|reflexivity].
      assert (L1 : length T = 1) by nia. rewrite L1. cbn [sumn]. rewrite Qcplus_0_l. reflexivity.
    + apply (tends_ext (fun k => sumn (length T) (fun a => visits_by n (en_p m) k (nth a T 0) (nth a T 0)))).
      * intros k. apply (sumn_nth_lsum T (fun x => visits_by n (en_p m) k x x)).
      * apply (tends_sumn (length T) (fun k a => visits_by n (en_p m) k (nth a T 0) (nth a T 0)) (fun i => mget N i i)). intros a Ha. apply Tv; exact Ha.
  - intros I. pose proof (transient_exact n m Hm R) as HT. pose proof (absorbing_always n m Hm R) as HA. cbn zeta in HA.
    unfold kemeny_constant, fundamental_matrix. rewrite HA. cbn [bind negb orb].
    destruct (transient_states_indices (en_p m) (en_comps m)) as [|x l] eqn:E; [reflexivity|].
    exfalso. cbn zeta in HT. assert (C : In x (x :: l)) by (left; reflexivity). apply HT in C. apply (proj2 C). apply I. apply C.
Qed.
