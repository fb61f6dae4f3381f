(** L_Measures3: committor probabilities, mean first passage times, recurrence times. *)
From Verif Require Export L_MaxPrin.
Open Scope res_scope.

Lemma reach_ext n (E E' : nat -> nat -> Prop) i j : (forall a b, a < n -> b < n -> E a b -> E' a b) -> reach n E i j -> reach n E' i j.
Proof.
  intros H [k W]. exists k. induction W as [i Hi|k i c j Hi Hc He W IH]; [constructor; exact Hi|].
  econstructor; [exact Hi|exact Hc|apply H; assumption|exact IH].
Qed.
Lemma reach_rev n (E : nat -> nat -> Prop) i j : reach n E i j -> reach n (fun a b => E b a) j i.
Proof.
  intros [k W]. induction W as [i Hi|k i c j Hi Hc He W IH]; [apply reach_refl; exact Hi|].
  eapply reach_trans; [exact IH|]. apply reach_step; assumption.
Qed.

(** Systems with boundary values on a set and a mean value equation elsewhere *)
Section BVP.
Variables (n : nat) (P : nat -> nat -> Qc) (B : list nat).
Hypothesis Hn : 0 < n.
Hypothesis Pos : forall i j, i < n -> j < n -> (0 <= P i j)%Qc.
Hypothesis Sum : forall i, i < n -> sumn n (P i) = 1q.
Hypothesis Irr : forall i j, i < n -> j < n -> reach n (fun a b => (0 < P a b)%Qc) i j.
Hypothesis B0 : B <> [].
Hypothesis BL : forall b, In b B -> b < n.
Lemma bvp_out : forall i, i < n -> exists b, negb (memn b B) = false /\ reach n (fun a b => (0 < P a b)%Qc) i b.
Proof.
  intros i Hi. destruct B as [|b B'] eqn:E; [congruence|]. exists b. split.
  - rewrite (proj2 (memn_In b (b :: B'))) by (left; reflexivity). reflexivity.
  - apply Irr; [exact Hi|apply BL; left; reflexivity].
Qed.
Lemma bvp_solve A b : wf n n A -> length b = n ->
  (forall i, i < n -> exists c, c <> 0q /\ forall j, j < n -> mget A i j = (c * (delta i j - (if negb (memn i B) then P i j else 0)))%Qc) ->
  exists x, solve_vec A b = Some x /\ length x = n /\ forall i, i < n -> sumn n (fun j => mget A i j * vget x j)%Qc = vget b i.
Proof.
  intros W Lb HA. assert (NS : nonsingular n A).
  { apply (boundary_nonsingular n P (fun i => negb (memn i B))); auto; [|exact bvp_out]. intros i Hi. rewrite (Sum i Hi). apply Qcle_refl. }
  destruct (solve_vec_complete n A b Hn W Lb NS) as (x & E). exists x. split; [exact E|].
  destruct (solve_vec_spec n A b x Hn W Lb E) as (L & _ & Eq). split; assumption.
Qed.
Lemma bvp_row (c : Qc) i (x : nat -> Qc) a : i < n -> (forall j, j < n -> a j = (c * (delta i j - (if negb (memn i B) then P i j else 0)))%Qc) ->
  sumn n (fun j => a j * x j)%Qc = (c * (x i - (if negb (memn i B) then sumn n (fun j => P i j * x j) else 0)))%Qc.
Proof.
  intros Hi H. rewrite (sumn_ext n _ (fun j => c * (delta i j * x j - (if negb (memn i B) then P i j else 0) * x j))%Qc) by (intros j Hj; rewrite (H j Hj); ring).
  rewrite sumn_mul_l, sumn_minus, sumn_delta_l by exact Hi. f_equal. f_equal. f_equal.
  destruct (negb (memn i B)); [reflexivity|]. apply sumn_0. intros; ring.
Qed.
Lemma bvp_nonneg (x : nat -> Qc) : (forall i, In i B -> (0 <= x i)%Qc) -> (forall i, i < n -> ~ In i B -> (sumn n (fun j => P i j * x j) <= x i)%Qc) ->
  forall i, i < n -> (0 <= x i)%Qc.
Proof.
  intros H1 H2. apply (maxp n P (fun i => negb (memn i B))); auto.
  - intros i Hi. rewrite (Sum i Hi). apply Qcle_refl.
  - exact bvp_out.
  - intros i Hi E. apply negb_false_iff, memn_In in E. auto.
  - intros i Hi E. apply negb_true_iff in E. apply H2; [exact Hi|]. apply memn_false. exact E.
Qed.
Lemma bvp_unique (x y : nat -> Qc) (g : nat -> Qc) : (forall i, In i B -> x i = y i) ->
  (forall i, i < n -> ~ In i B -> x i = (g i + sumn n (fun j => P i j * x j))%Qc) ->
  (forall i, i < n -> ~ In i B -> y i = (g i + sumn n (fun j => P i j * y j))%Qc) ->
  forall i, i < n -> x i = y i.
Proof.
  intros H0 Hx Hy i Hi.
  assert (G : forall u v : nat -> Qc, (forall i, In i B -> u i = v i) ->
     (forall i, i < n -> ~ In i B -> u i = (g i + sumn n (fun j => P i j * u j))%Qc) ->
     (forall i, i < n -> ~ In i B -> v i = (g i + sumn n (fun j => P i j * v j))%Qc) -> (0 <= u i - v i)%Qc).
  { intros u v E0 Eu Ev. apply (bvp_nonneg (fun i => u i - v i)%Qc); [| |exact Hi].
    - intros k Hk. rewrite (E0 k Hk). qclra.
    - intros k Hk Nk. rewrite (sumn_ext n _ (fun j => P k j * u j - P k j * v j)%Qc) by (intros; ring). rewrite sumn_minus.
      pose proof (Eu k Hk Nk). pose proof (Ev k Hk Nk). qclra. }
  pose proof (G x y H0 Hx Hy). pose proof (G y x ltac:(intros; symmetry; auto) Hy Hx). qclra.
Qed.
End BVP.

Lemma harmonic_const n P (x : nat -> Qc) : 0 < n -> stochastic n P -> irreducible n (edge P) ->
  (forall i, i < n -> sumn n (fun j => mget P i j * x j)%Qc = x i) -> forall i, i < n -> x i = x 0.
Proof.
  intros Hn St Irr H i Hi.
  apply (bvp_unique n (mget P) [0] (proj1 (proj2 St)) ltac:(intros; apply (st_row n); assumption) ltac:(exact Irr) ltac:(discriminate)
    ltac:(intros b [<-|[]]; exact Hn) x (fun _ => x 0) (fun _ => 0q)); [| | |exact Hi].
  - intros k [<-|[]]. reflexivity.
  - intros k Hk _. rewrite (H k Hk). ring.
  - intros k Hk _. rewrite sumn_mul_r. change (sumn n (fun j => mget P k j)) with (sumn n (mget P k)). rewrite (st_row n) by assumption. ring.
Qed.

(** C51, targets *)
Lemma passage_sum n P T t : (forall i, In i T -> vget t i = 0q) -> forall i,
  sumn n (fun j => if memn j T then 0q else mget P i j * vget t j)%Qc = sumn n (fun j => mget P i j * vget t j)%Qc.
Proof. intros H i. apply sumn_ext. intros j Hj. destruct (memn j T) eqn:E; [|reflexivity]. apply memn_In in E. rewrite (H j E). ring. Qed.
Lemma env_irr n m : env_ok n m -> ergodic n (en_p m) -> is_ergodic m = Ok true /\ irreducible n (edge (en_p m)).
Proof.
  intros HE HG. destruct (is_ergodic_spec n m HE) as (b & Hb & Hs). rewrite Hb. split; [|apply HG].
  f_equal. apply Hs. exact HG.
Qed.
Lemma env_size n m : env_ok n m -> en_size m = n.
Proof. intros (_ & St & _). unfold en_size. apply (wf_nrows _ _ _ (proj1 St)). Qed.
Lemma mfpt_to_spec n m T : env_ok n m -> ergodic n (en_p m) -> T <> [] -> (forall x, In x T -> x < n) ->
  exists t, mfpt_to m T = Ok (Some t) /\ passage n (en_p m) T t /\
    (forall i, i < n -> ~ In i T -> (1 <= vget t i)%Qc) /\ (forall u, passage n (en_p m) T u -> u = t).
Proof.
  intros HE HG T0 TL. destruct (env_irr n m HE HG) as [E1 Irr]. pose proof (env_size n m HE) as Es.
  destruct HE as (Hn & St & _). pose proof (proj1 St) as W.
  assert (H0 : 0 < n) by lia.
  assert (Sm : forall i, i < n -> sumn n (mget (en_p m) i) = 1q) by (intros; apply (st_row n); assumption).
  pose proof (proj1 (proj2 St)) as Pos.
  set (a := mk n n (fun i j => if memn i T then delta i j else (delta i j - mget (en_p m) i j))%Qc).
  assert (Ga : forall i, i < n -> forall j, j < n -> mget a i j = (1 * (delta i j - (if negb (memn i T) then mget (en_p m) i j else 0)))%Qc).
  { intros i Hi j Hj. unfold a. rewrite mget_mk by assumption. destruct (memn i T); cbn [negb]; ring. }
  destruct (bvp_solve n (mget (en_p m)) T H0 Pos Sm Irr T0 TL a (tab n (fun i => if memn i T then 0q else 1q)) (wf_mk _ _ _) (tab_length _ _)) as (t & Et & Lt & Eq).
  { intros i Hi. exists 1q. split; [discriminate|apply Ga; exact Hi]. }
  assert (Eq' : forall i, i < n -> (vget t i - (if negb (memn i T) then sumn n (fun j => mget (en_p m) i j * vget t j) else 0))%Qc = if memn i T then 0q else 1q).
  { intros i Hi. specialize (Eq i Hi). rewrite (bvp_row n (mget (en_p m)) T 1 i (vget t) _ Hi (Ga i Hi)) in Eq. rewrite vget_tab in Eq by exact Hi. rewrite <- Eq. ring. }
  assert (Z : forall i, In i T -> vget t i = 0q).
  { intros i Hi. specialize (Eq' i (TL i Hi)). apply memn_In in Hi. rewrite Hi in Eq'. cbn [negb] in Eq'. rewrite <- Eq'. ring. }
  assert (F : forall i, i < n -> ~ In i T -> vget t i = (1 + sumn n (fun j => mget (en_p m) i j * vget t j))%Qc).
  { intros i Hi Ni. specialize (Eq' i Hi). apply memn_false in Ni. rewrite Ni in Eq'. cbn [negb] in Eq'.
    revert Eq'. generalize (sumn n (fun j => mget (en_p m) i j * vget t j)%Qc). intros z Eq'. rewrite <- Eq'. ring. }
  exists t. split.
  { unfold mfpt_to. rewrite E1. cbn [bind negb]. rewrite Es. fold a. rewrite Et. reflexivity. }
  split; [split; [exact Lt|split; [exact Z|]]|].
  { intros i Hi Ni. rewrite (passage_sum n _ T t Z). apply F; assumption. }
  assert (N : forall i, i < n -> (0 <= vget t i)%Qc).
  { apply (bvp_nonneg n (mget (en_p m)) T Pos Sm Irr T0 TL).
    - intros i Hi. rewrite (Z i Hi). apply Qcle_refl.
    - intros i Hi Ni. rewrite (F i Hi Ni). qclra. }
  split.
  { intros i Hi Ni. rewrite (F i Hi Ni).
    pose proof (sumn_nonneg n (fun j => mget (en_p m) i j * vget t j)%Qc ltac:(intros; apply Qc_mul_nonneg; auto)). qclra. }
  intros u (Lu & Zu & Fu). apply (vec_ext _ _ n); [exact Lu|exact Lt|].
  apply (bvp_unique n (mget (en_p m)) T Pos Sm Irr T0 TL (vget u) (vget t) (fun _ => 1q)); [|intros i Hi Ni; rewrite (Fu i Hi Ni) at 1; rewrite (passage_sum n _ T u Zu); reflexivity|exact F].
  intros i Hi. rewrite Zu, Z by exact Hi. reflexivity.
Qed.

(** C51, all pairs *)
Lemma fund_z n m : env_ok n m -> irreducible n (edge (en_p m)) -> forall pi, distribution n pi -> stationary n (en_p m) pi ->
  exists z, minv (mk n n (fun i j => delta i j - mget (en_p m) i j + mget (mk n n (fun _ j => vget pi j)) i j)%Qc) = Some z /\ wf n n z /\
   forall i j, i < n -> j < n -> sumn n (fun k => mget (en_p m) i k * mget z k j)%Qc = (mget z i j + vget pi j - delta i j)%Qc.
Proof.
  intros HE Irr pi Dp Sp. destruct HE as (Hn & St & _). set (P := en_p m) in *. pose proof (proj1 St) as W.
  assert (Sp' : forall j, j < n -> sumn n (fun i => vget pi i * mget P i j)%Qc = vget pi j).
  { intros j Hj. apply Sp; exact Hj. }
  destruct Dp as (Lp & Pp & S1).
  set (M := mk n n (fun i j => delta i j - mget P i j + mget (mk n n (fun _ j => vget pi j)) i j)%Qc).
  assert (GM : forall i j, i < n -> j < n -> mget M i j = (delta i j - mget P i j + vget pi j)%Qc).
  { intros i j Hi Hj. unfold M. rewrite !mget_mk by assumption. reflexivity. }
  assert (Row : forall (x : nat -> Qc) i, i < n -> sumn n (fun j => mget M i j * x j)%Qc = (x i - sumn n (fun j => mget P i j * x j) + sumn n (fun j => vget pi j * x j))%Qc).
  { intros x i Hi. rewrite (sumn_ext n _ (fun j => (delta i j * x j - mget P i j * x j) + vget pi j * x j)%Qc) by (intros; rewrite GM by assumption; ring).
    rewrite sumn_plus, sumn_minus, sumn_delta_l by exact Hi. reflexivity. }
  (* pi M x = pi x *)
  assert (PiM : forall x : nat -> Qc, sumn n (fun i => vget pi i * sumn n (fun j => mget M i j * x j))%Qc = sumn n (fun j => vget pi j * x j)%Qc).
  { intros x. rewrite (sumn_ext n _ (fun i => (vget pi i * x i - sumn n (fun j => vget pi i * mget P i j * x j)) + vget pi i * sumn n (fun j => vget pi j * x j))%Qc).
    2:{ intros i Hi. rewrite Row by exact Hi. rewrite (sumn_ext n (fun j => vget pi i * mget P i j * x j)%Qc (fun j => vget pi i * (mget P i j * x j))%Qc) by (intros; ring). rewrite sumn_mul_l. ring. }
    rewrite sumn_plus, sumn_minus, sumn_mul_r, (sumn_swap n n).
    rewrite (sumn_ext n (fun j => sumn n (fun i => vget pi i * mget P i j * x j)) (fun j => vget pi j * x j))%Qc.
    2:{ intros j Hj. rewrite sumn_mul_r, (Sp' j Hj). reflexivity. }
    change (sumn n (fun i => vget pi i)) with (sumn n (vget pi)). rewrite S1. ring. }
  assert (NS : nonsingular n M).
  { intros x Hx.
    assert (X0 : sumn n (fun j => vget pi j * x j)%Qc = 0q).
    { rewrite <- PiM. apply sumn_0. intros i Hi. rewrite (Hx i Hi). ring. }
    assert (Hc : forall i, i < n -> x i = x 0).
    { apply (harmonic_const n P); try assumption; [lia|]. intros i Hi. specialize (Hx i Hi). rewrite Row, X0 in Hx by exact Hi. 
      revert Hx. generalize (sumn n (fun j => mget P i j * x j)%Qc). intros z Hx. qclra. }
    assert (x 0 = 0q).
    { rewrite <- X0. rewrite (sumn_ext n _ (fun j => vget pi j * x 0%nat)%Qc) by (intros j Hj; rewrite (Hc j Hj); reflexivity).
      rewrite sumn_mul_r. change (sumn n (fun i => vget pi i)) with (sumn n (vget pi)). rewrite S1. ring. }
    intros j Hj. rewrite (Hc j Hj). assumption. }
  assert (WM : wf n n M) by apply wf_mk.
  destruct (minv_complete n M ltac:(lia) WM NS) as (z & Ez). exists z. split; [exact Ez|].
  destruct (minv_spec n M z ltac:(lia) WM Ez) as (Wz & _ & E1 & _). split; [exact Wz|].
  assert (G : forall i j, i < n -> j < n -> sumn n (fun k => mget M i k * mget z k j)%Qc = delta i j).
  { intros i j Hi Hj. rewrite <- (mget_mmul n n n M z i j) by (first [assumption|lia]). rewrite E1. apply mget_eye; assumption. }
  intros i j Hi Hj. pose proof (G i j Hi Hj) as G1. rewrite (Row (fun k => mget z k j) i Hi) in G1.
  assert (G2 : sumn n (fun k => vget pi k * mget z k j)%Qc = vget pi j).
  { rewrite <- (PiM (fun k => mget z k j)). rewrite (sumn_ext n _ (fun i => vget pi i * delta i j)%Qc) by (intros k Hk; rewrite (G k j Hk Hj); reflexivity).
    apply sumn_delta_r. exact Hj. }
  rewrite G2 in G1. revert G1. generalize (sumn n (fun j0 => mget P i j0 * mget z j0 j)%Qc). intros y G1. rewrite <- G1. ring.
Qed.
Lemma mfpt_all_spec n m : env_ok n m -> ergodic n (en_p m) ->
  exists M, mfpt_all m = Ok (Some M) /\ wf n n M /\ (forall j, j < n -> mget M j j = 0q) /\
  (forall i j, i < n -> j < n -> i <> j -> mget M i j = (1 + sumn n (fun k => if Nat.eqb k j then 0 else mget (en_p m) i k * mget M k j))%Qc) /\
  (forall T t j, T = [j] -> j < n -> mfpt_to m T = Ok (Some t) -> forall i, i < n -> mget M i j = vget t i).
Proof.
  intros HE HG. destruct (env_irr n m HE HG) as [E1 Irr]. pose proof (env_size n m HE) as Es.
  destruct (ergodic_pi n m HE Irr) as (pi & Epi & Dp & Sp & Pp & _).
  destruct (fund_z n m HE Irr pi Dp Sp) as (z & Ez & Wz & Gz). pose proof HE as (Hn & St & _). set (P := en_p m) in *.
  set (M := mk n n (fun i j => if Nat.eqb i j then 0q else ((delta i j - mget z i j + mget z j j) * (1 / vget pi j))%Qc)).
  exists M. split.
  { unfold mfpt_all. rewrite E1. cbn [bind negb]. rewrite Es, Epi. cbn [bind]. fold P. rewrite Ez. cbn [lift bind].
    rewrite (proj2 (forallb_forall _ _)); [reflexivity|]. intros j Hj. apply in_seq in Hj. apply negb_true_iff, Qceqb_neq. apply Qc_lt_neq. apply Pp. lia. }
  split; [apply wf_mk|]. 
  assert (D : forall j, j < n -> mget M j j = 0q) by (intros j Hj; unfold M; rewrite mget_mk, Nat.eqb_refl by assumption; reflexivity).
  split; [exact D|].
  assert (G : forall i j, i < n -> j < n -> mget M i j = ((mget z j j - mget z i j) / vget pi j)%Qc).
  { intros i j Hi Hj. unfold M. rewrite mget_mk by assumption. destruct (Nat.eqb_spec i j) as [->|Ne].
    - unfold Qcdiv. ring.
    - rewrite (delta_neq i j) by assumption. unfold Qcdiv. ring. }
  assert (K : forall i j, i < n -> j < n -> i <> j -> mget M i j = (1 + sumn n (fun k => if Nat.eqb k j then 0 else mget P i k * mget M k j))%Qc).
  { intros i j Hi Hj Ne.
    rewrite (sumn_ext n _ (fun k => (mget P i k * mget z j j - mget P i k * mget z k j) * / vget pi j)%Qc).
    2:{ intros k Hk. destruct (Nat.eqb_spec k j) as [->|Nk]; [ring|]. rewrite G by assumption. unfold Qcdiv. ring. }
    rewrite sumn_mul_r, sumn_minus, sumn_mul_r. change (sumn n (fun i0 => mget P i i0)) with (sumn n (mget P i)).
    rewrite (st_row n P i St Hi), (Gz i j Hi Hj), (delta_neq i j), G by assumption.
    pose proof (Pp j Hj) as Hp. apply Qc_lt_neq in Hp. field. auto. }
  split; [exact K|].
  intros T t j -> Hj Ht i Hi.
  destruct (mfpt_to_spec n m [j] HE HG ltac:(discriminate) ltac:(intros x [<-|[]]; exact Hj)) as (t' & Ht' & _ & _ & U).
  rewrite Ht in Ht'. injection Ht' as <-. rewrite <- (U (tab n (fun i => mget M i j))).
  - rewrite vget_tab by exact Hi. reflexivity.
  - split; [apply tab_length|]. split.
    + intros k [<-|[]]. rewrite vget_tab by exact Hj. apply D; exact Hj.
    + intros k Hk Nk. rewrite vget_tab by exact Hk. rewrite K at 1 by (auto; intros ->; apply Nk; left; reflexivity). f_equal.
      apply sumn_ext. intros l Hl. rewrite vget_tab by exact Hl. unfold memn. cbn [existsb]. rewrite orb_false_r. destruct (Nat.eqb l j); reflexivity.
Qed.
(** Kac *)
Lemma kac n P pi j t : stochastic n P -> distribution n pi -> stationary n P pi -> j < n -> passage n P [j] t ->
  (vget pi j * (1 + sumn n (fun k => if Nat.eqb k j then 0 else mget P j k * vget t k)))%Qc = 1q.
Proof.
  intros St (Lp & Pp & S1) Sp Hj (Lt & Zt & Ft).
  assert (Zj : vget t j = 0q) by (apply Zt; left; reflexivity).
  set (r := (1 + sumn n (fun k => mget P j k * vget t k))%Qc).
  assert (Er : (1 + sumn n (fun k => if Nat.eqb k j then 0 else mget P j k * vget t k))%Qc = r).
  { unfold r. f_equal. apply sumn_ext. intros k Hk. destruct (Nat.eqb_spec k j) as [->|]; [rewrite Zj; ring|reflexivity]. }
  rewrite Er.
  assert (A : forall i, i < n -> vget t i = (1 + sumn n (fun k => mget P i k * vget t k) - delta j i * r)%Qc).
  { intros i Hi. destruct (Nat.eq_dec j i) as [<-|Ne].
    - rewrite delta_refl, Zj. unfold r. ring.
    - rewrite delta_neq by exact Ne. rewrite (Ft i Hi) at 1 by (intros [?|[]]; congruence). rewrite (passage_sum n P [j] t Zt). ring. }
  assert (B : sumn n (fun i => vget pi i * vget t i)%Qc = (1 + sumn n (fun i => vget pi i * vget t i) - vget pi j * r)%Qc).
  { rewrite (sumn_ext n _ (fun i => (vget pi i + sumn n (fun k => vget pi i * mget P i k * vget t k)) - delta j i * (vget pi i * r))%Qc) at 1.
    2:{ intros i Hi. rewrite (A i Hi) at 1. rewrite (sumn_ext n (fun k => vget pi i * mget P i k * vget t k)%Qc (fun k => vget pi i * (mget P i k * vget t k))%Qc) by (intros; ring). rewrite sumn_mul_l. ring. }
    rewrite sumn_minus, sumn_plus, sumn_delta_l by exact Hj. change (sumn n (fun i => vget pi i)) with (sumn n (vget pi)). rewrite S1.
    rewrite (sumn_swap n n). rewrite (sumn_ext n (fun j => sumn n (fun i => vget pi i * mget P i j * vget t j)) (fun j => vget pi j * vget t j))%Qc; [reflexivity|].
    intros k Hk. rewrite sumn_mul_r. rewrite (proj2 Sp k Hk). reflexivity. }
  revert B. generalize (sumn n (fun i => vget pi i * vget t i)%Qc). intros s B.
  replace (vget pi j * r)%Qc with (1 + s - (1 + s - vget pi j * r))%Qc by ring. rewrite <- B. ring.
Qed.
Lemma mean_recurrence_spec n m : env_ok n m -> ergodic n (en_p m) ->
  exists r pi, mean_recurrence_times m = Ok (Some r) /\ length r = n /\ distribution n pi /\ stationary n (en_p m) pi /\
  forall j, j < n -> if Qcleb (vget pi j) (Q2Qc (1 # 100000000)) then vget r j = 0q
    else exists t, passage n (en_p m) [j] t /\ vget r j = (1 + sumn n (fun k => if Nat.eqb k j then 0 else mget (en_p m) j k * vget t k))%Qc.
Proof.
  intros HE HG. destruct (env_irr n m HE HG) as [E1 Irr].
  destruct (ergodic_pi n m HE Irr) as (pi & Epi & Dp & Sp & Pp & _). pose proof HE as (Hn & St & _).
  exists (map (fun v => if isclose v 0 then 0q else (1 / v)%Qc) pi), pi. unfold mean_recurrence_times. rewrite E1. cbn [bind negb]. rewrite Epi. cbn [bind].
  pose proof (proj1 Dp) as Lp.
  split; [reflexivity|]. split; [rewrite map_length; exact Lp|]. split; [exact Dp|]. split; [exact Sp|].
  intros j Hj. 
  assert (G : vget (map (fun v => if isclose v 0 then 0q else (1 / v)%Qc) pi) j = if isclose (vget pi j) 0 then 0q else (1 / vget pi j)%Qc).
  { unfold vget. rewrite (nth_indep _ 0q ((fun v => if isclose v 0 then 0q else (1 / v)%Qc) 0q)) by (rewrite map_length, Lp; exact Hj).
    apply (map_nth (fun v => if isclose v 0 then 0q else (1 / v)%Qc)). }
  rewrite G. pose proof (Pp j Hj) as Pj.
  assert (I0 : isclose (vget pi j) 0 = Qcleb (vget pi j) (Q2Qc (1 # 100000000))).
  { apply eq_true_iff_eq. rewrite isclose_0, Qcleb_le, Qcabs_eq_nonneg by (apply Qclt_le_weak; exact Pj). reflexivity. }
  rewrite I0. destruct (Qcleb _ _); [reflexivity|].
  destruct (mfpt_to_spec n m [j] HE HG ltac:(discriminate) ltac:(intros x [<-|[]]; exact Hj)) as (t & _ & Pt & _).
  exists t. split; [exact Pt|]. pose proof (kac n (en_p m) pi j t St Dp Sp Hj Pt) as K.
  set (r := (1 + sumn n (fun k => if Nat.eqb k j then 0 else mget (en_p m) j k * vget t k))%Qc) in *. rewrite <- K.
  apply Qc_lt_neq in Pj. field. auto.
Qed.
Lemma mfpt_between_spec n m O T : env_ok n m -> ergodic n (en_p m) -> T <> [] -> (forall x, In x T -> x < n) -> O <> [] -> (forall x, In x O -> x < n) ->
  exists pi t, distribution n pi /\ stationary n (en_p m) pi /\ passage n (en_p m) T t /\
   mfpt_between m O T = Ok (Some (lsum (map (fun i => vget pi i * vget t i) O) / lsum (map (vget pi) O))%Qc).
Proof.
  intros HE HG T0 TL O0 OL. destruct (env_irr n m HE HG) as [E1 Irr].
  destruct (ergodic_pi n m HE Irr) as (pi & Epi & Dp & Sp & Pp & _).
  destruct (mfpt_to_spec n m T HE HG T0 TL) as (t & Et & Pt & _).
  exists pi, t. split; [exact Dp|]. split; [exact Sp|]. split; [exact Pt|].
  unfold mfpt_between. rewrite E1. cbn [bind negb]. rewrite Epi. cbn [bind]. rewrite Et. cbn [bind].
  assert (Pl : (0 < lsum (map (vget pi) O))%Qc).
  { destruct O as [|o O']; [congruence|]. cbn [map lsum fold_right]. change (fold_right Qcplus 0q) with lsum.
    assert (0 <= lsum (map (vget pi) O'))%Qc.
    { apply lsum_nonneg. intros y Hy. apply in_map_iff in Hy. destruct Hy as (x & <- & Hx). apply Qclt_le_weak, Pp, OL. right; exact Hx. }
    pose proof (Pp o (OL o ltac:(left; reflexivity))). qclra. }
  rewrite (proj2 (Qceqb_neq _ _)) by (apply Qc_lt_neq; exact Pl). cbn [negb].
  f_equal. f_equal. set (s := lsum (map (vget pi) O)) in *. rewrite map_map.
  unfold vdot. rewrite map_length.
  rewrite (sumn_ext _ _ (fun k => (vget pi (nth k O 0%nat) * vget t (nth k O 0%nat)) * / s)%Qc).
  - rewrite sumn_mul_r. rewrite (sumn_nth_lsum O (fun i => vget pi i * vget t i)%Qc). reflexivity.
  - intros k Hk. unfold vget at 1 3.
    rewrite (nth_indep _ 0q ((fun x => vget pi x / s)%Qc 0%nat)) by (rewrite map_length; exact Hk). rewrite (map_nth (fun x => vget pi x / s)%Qc).
    rewrite (nth_indep _ 0q (vget t 0%nat)) by (rewrite map_length; exact Hk). rewrite (map_nth (vget t)). unfold Qcdiv. ring.
Qed.

(** C50 *)
Lemma disjointb_spec a b : disjointb a b = true <-> forall x, In x a -> ~ In x b.
Proof.
  unfold disjointb. rewrite forallb_forall. split; intros H x Hx; specialize (H x Hx).
  - apply negb_true_iff in H. apply memn_false. exact H.
  - apply negb_true_iff, memn_false. exact H.
Qed.
Lemma vget_map_0 (f : Qc -> Qc) v i : i < length v -> vget (map f v) i = f (vget v i).
Proof. intros H. unfold vget. rewrite (nth_indep _ 0q (f 0q)) by (rewrite map_length; exact H). apply map_nth. Qed.
Section COMMIT.
Variables (n : nat) (K : nat -> nat -> Qc) (S1 S2 : list nat).
Hypothesis Hn : 0 < n.
Hypothesis Pos : forall i j, i < n -> j < n -> (0 <= K i j)%Qc.
Hypothesis Sum : forall i, i < n -> sumn n (K i) = 1q.
Hypothesis Irr : forall i j, i < n -> j < n -> reach n (fun a b => (0 < K a b)%Qc) i j.
Hypothesis N1 : S1 <> [].
Hypothesis L1 : forall b, In b S1 -> b < n.
Hypothesis L2 : forall b, In b S2 -> b < n.
Hypothesis Dj : forall x, In x S1 -> ~ In x S2.
Let B := S1 ++ S2.
Lemma B_ne : B <> [].
Proof. unfold B. destruct S1; [congruence|discriminate]. Qed.
Lemma B_lt : forall b, In b B -> b < n.
Proof. intros b Hb. apply in_app_iff in Hb. destruct Hb; auto. Qed.
Lemma commit_range Z O x : (Z = S1 /\ O = S2) \/ (Z = S2 /\ O = S1) -> committor n K Z O x -> forall i, i < n -> (0 <= vget x i <= 1)%Qc.
Proof.
  intros HZ (Lx & H0 & H1 & Hh) i Hi.
  assert (HB : forall k, In k B <-> In k Z \/ In k O) by (intros k; unfold B; rewrite in_app_iff; destruct HZ as [[-> ->]|[-> ->]]; tauto).
  split.
  - apply (bvp_nonneg n K B Pos Sum Irr B_ne B_lt (vget x)); [| |exact Hi].
    + intros k Hk. apply HB in Hk. destruct Hk as [Hk|Hk]; [rewrite (H0 k Hk); apply Qcle_refl|rewrite (H1 k Hk); discriminate].
    + intros k Hk Nk. rewrite HB in Nk. rewrite <- (Hh k Hk) by tauto. apply Qcle_refl.
  - assert (G : (0 <= 1 - vget x i)%Qc); [|qclra].
    apply (bvp_nonneg n K B Pos Sum Irr B_ne B_lt (fun i => 1 - vget x i)%Qc); [| |exact Hi].
    + intros k Hk. apply HB in Hk. destruct Hk as [Hk|Hk]; [rewrite (H0 k Hk); discriminate|rewrite (H1 k Hk); discriminate].
    + intros k Hk Nk. rewrite HB in Nk. rewrite (sumn_ext n _ (fun j => K k j - K k j * vget x j)%Qc) by (intros; ring).
      rewrite sumn_minus, <- (Hh k Hk) by tauto. change (sumn n (fun i => K k i)) with (sumn n (K k)). rewrite (Sum k Hk). qclra.
Qed.
Lemma commit_unique Z O x y : (Z = S1 /\ O = S2) \/ (Z = S2 /\ O = S1) -> committor n K Z O x -> committor n K Z O y -> x = y.
Proof.
  intros HZ (Lx & X0 & X1 & Xh) (Ly & Y0 & Y1 & Yh).
  assert (HB : forall k, In k B <-> In k Z \/ In k O) by (intros k; unfold B; rewrite in_app_iff; destruct HZ as [[-> ->]|[-> ->]]; tauto).
  apply (vec_ext _ _ n); [exact Lx|exact Ly|]. apply (bvp_unique n K B Pos Sum Irr B_ne B_lt (vget x) (vget y) (fun _ => 0q)).
  - intros i Hi. apply HB in Hi. destruct Hi as [Hi|Hi]; [rewrite X0, Y0 by exact Hi|rewrite X1, Y1 by exact Hi]; reflexivity.
  - intros i Hi Ni. rewrite HB in Ni. rewrite (Xh i Hi) at 1 by tauto. ring.
  - intros i Hi Ni. rewrite HB in Ni. rewrite (Yh i Hi) at 1 by tauto. ring.
Qed.
Lemma commit_solve Z O a : (Z = S1 /\ O = S2) \/ (Z = S2 /\ O = S1) -> wf n n a ->
  (forall i, i < n -> memn i S1 || memn i S2 = true -> forall j, j < n -> mget a i j = delta i j) ->
  (forall i, i < n -> memn i S1 || memn i S2 = false -> exists c, c <> 0q /\ forall j, j < n -> mget a i j = (c * (delta i j - K i j))%Qc) ->
  exists x, solve_vec a (tab n (fun i => if memn i O then 1q else 0q)) = Some x /\ committor n K Z O x.
Proof.
  intros HZ Wa Ha Ha'.
  assert (MB : forall i, memn i B = memn i S1 || memn i S2) by (intros; unfold B, memn; apply existsb_app).
  assert (R : forall i, i < n -> exists c, c <> 0q /\ forall j, j < n -> mget a i j = (c * (delta i j - (if negb (memn i B) then K i j else 0)))%Qc).
  { intros i Hi. rewrite MB. destruct (memn i S1 || memn i S2) eqn:E; cbn [negb].
    - exists 1q. split; [discriminate|]. intros j Hj. rewrite (Ha i Hi E j Hj). ring.
    - apply Ha'; assumption. }
  destruct (bvp_solve n K B Hn Pos Sum Irr B_ne B_lt a (tab n (fun i => if memn i O then 1q else 0q)) Wa (tab_length _ _) R) as (x & Ex & Lx & Eq).
  exists x. split; [exact Ex|].
  assert (HB : forall k, In k B <-> In k Z \/ In k O) by (intros k; unfold B; rewrite in_app_iff; destruct HZ as [[-> ->]|[-> ->]]; tauto).
  assert (DZ : forall k, In k Z -> ~ In k O) by (intros k; destruct HZ as [[-> ->]|[-> ->]]; [apply Dj|intros A C; exact (Dj k C A)]).
  assert (Bd : forall i, In i B -> vget x i = if memn i O then 1q else 0q).
  { intros i Hi. pose proof (B_lt i Hi) as Hin. rewrite <- (vget_tab n (fun i => if memn i O then 1q else 0q) i Hin). rewrite <- (Eq i Hin).
    rewrite (sumn_ext n _ (fun j => delta i j * vget x j)%Qc); [symmetry; apply sumn_delta_l; exact Hin|].
    intros j Hj. rewrite Ha; auto. rewrite <- MB. apply memn_In. exact Hi. }
  split; [exact Lx|]. split; [|split].
  - intros i Hi. rewrite Bd by (apply HB; tauto). rewrite (proj2 (memn_false i O)) by (apply DZ; exact Hi). reflexivity.
  - intros i Hi. rewrite Bd by (apply HB; tauto). rewrite (proj2 (memn_In i O)) by exact Hi. reflexivity.
  - intros i Hi NZ NO. destruct (R i Hi) as (c & Hc & Hr). specialize (Eq i Hi). rewrite (bvp_row n K B c i (vget x) _ Hi Hr) in Eq.
    rewrite vget_tab in Eq by exact Hi. rewrite (proj2 (memn_false i O)) in Eq by exact NO.
    rewrite (proj2 (memn_false i B)) in Eq by (rewrite HB; tauto). cbn [negb] in Eq.
    destruct (Qc_integral _ _ Eq) as [|E]; [contradiction|]. revert E. generalize (sumn n (fun j => K i j * vget x j)%Qc). intros z E.
    replace (vget x i) with (vget x i - z + z)%Qc by ring. rewrite E. ring.
Qed.
End COMMIT.
Lemma reversed_ok n P pi : stochastic n P -> irreducible n (edge P) -> stationary n P pi -> (forall i, i < n -> (0 < vget pi i)%Qc) ->
  (forall i j, i < n -> j < n -> (0 <= reversed P pi i j)%Qc) /\ (forall i, i < n -> sumn n (reversed P pi i) = 1q) /\
  (forall i j, i < n -> j < n -> reach n (fun a b => (0 < reversed P pi a b)%Qc) i j).
Proof.
  intros St Irr Sp Pp. split; [|split].
  - intros i j Hi Hj. apply Qc_div_nonneg; [|apply Pp; exact Hi]. apply Qc_mul_nonneg; [apply Qclt_le_weak, Pp; exact Hj|apply St; assumption].
  - intros i Hi. unfold reversed. rewrite sumn_div. rewrite (proj2 Sp i Hi). apply Qc_div_self, Qc_lt_neq, Pp; exact Hi.
  - intros i j Hi Hj. apply (reach_ext n (fun a b => edge P b a)); [|apply reach_rev, Irr; assumption].
    intros a b Ha Hb H. apply Qc_div_pos; [|apply Pp; exact Ha]. apply Qc_mul_pos; [apply Pp; exact Hb|exact H].
Qed.
Lemma committor_spec n m (backward : bool) S1 S2 : env_ok n m -> ergodic n (en_p m) -> S1 <> [] -> S2 <> [] ->
  (forall x, In x S1 -> x < n) -> (forall x, In x S2 -> x < n) -> (forall x, In x S1 -> ~ In x S2) ->
  exists pi x r, distribution n pi /\ stationary n (en_p m) pi /\
   (if backward then committor n (reversed (en_p m) pi) S2 S1 x else committor n (mget (en_p m)) S1 S2 x) /\
   (forall i, i < n -> (0 <= vget x i <= 1)%Qc) /\
   (forall y, (if backward then committor n (reversed (en_p m) pi) S2 S1 y else committor n (mget (en_p m)) S1 S2 y) -> y = x) /\
   committor_probabilities m backward S1 S2 = Ok (Some r) /\ length r = n /\
   forall i, i < n -> vget r i = if Qcleb (vget x i) (Q2Qc (1 # 100000000)) then 0q else vget x i.
Proof.
  intros HE HG N1 N2 L1 L2 Dj. destruct (env_irr n m HE HG) as [E1 Irr]. pose proof (env_size n m HE) as Es.
  destruct (ergodic_pi n m HE Irr) as (pi & Epi & Dp & Sp & Pp & _). pose proof HE as (Hn & St & _).
  set (P := en_p m) in *.
  set (K := if backward then reversed P pi else mget P).
  set (Z := if backward then S2 else S1). set (O := if backward then S1 else S2).
  assert (HZ : (Z = S1 /\ O = S2) \/ (Z = S2 /\ O = S1)) by (unfold Z, O; destruct backward; auto).
  assert (KO : (forall i j, i < n -> j < n -> (0 <= K i j)%Qc) /\ (forall i, i < n -> sumn n (K i) = 1q) /\
    (forall i j, i < n -> j < n -> reach n (fun a b => (0 < K a b)%Qc) i j)).
  { unfold K. destruct backward; [apply reversed_ok; assumption|]. split; [apply St|]. split; [intros; apply (st_row n); assumption|exact Irr]. }
  destruct KO as (KP & KS & KI). pose proof HZ as HZ'.
  set (a0 := if backward then mk n n (fun i j => vget pi j * (mget P j i - delta j i))%Qc else mk n n (fun i j => mget P i j - delta i j)%Qc).
  set (a1 := mk n n (fun i j => if memn i S1 then delta i j else mget a0 i j)).
  set (a := mk n n (fun i j => if memn i S2 then delta i j else mget a1 i j)).
  destruct (commit_solve n K S1 S2 ltac:(lia) KP KS KI N1 L1 L2 Dj Z O a HZ (wf_mk _ _ _)) as (x & Ex & Cx).
  { intros i Hi E j Hj. unfold a, a1. rewrite !mget_mk by assumption. destruct (memn i S2); [reflexivity|]. rewrite orb_false_r in E. rewrite E. reflexivity. }
  { intros i Hi E. apply orb_false_iff in E. destruct E as [A1 A2]. pose proof (Pp i Hi) as Pi. pose proof (Qc_lt_neq _ Pi) as Ni.
    exists (if backward then (- vget pi i)%Qc else (- (1))%Qc). split.
    - destruct backward; [|discriminate]. intros C. apply Ni. replace (vget pi i) with (- - vget pi i)%Qc by ring. rewrite C. ring.
    - intros j Hj. unfold a, a1. rewrite !mget_mk, A1, A2 by assumption. unfold a0, K. destruct backward; rewrite mget_mk by assumption; [|ring].
      unfold reversed. destruct (Nat.eq_dec i j) as [<-|Ne].
      + rewrite delta_refl. field. exact Ni.
      + rewrite !delta_neq by auto. field. exact Ni. }
  exists pi, x, (map (fun x => if isclose x 0 then 0q else x) x).
  split; [exact Dp|]. split; [exact Sp|]. split; [unfold K, Z, O in Cx; destruct backward; exact Cx|].
  assert (Rg : forall i, i < n -> (0 <= vget x i <= 1)%Qc) by (apply (commit_range n K S1 S2 KP KS KI N1 L1 L2 Dj Z O x HZ Cx)).
  split; [exact Rg|].
  split. { intros y Hy. apply (commit_unique n K S1 S2 KP KS KI N1 L1 L2 Dj Z O y x HZ); [|exact Cx]. unfold K, Z, O. destruct backward; exact Hy. }
  pose proof (proj1 Cx) as Lx.
  split.
  { unfold committor_probabilities. rewrite (proj2 (disjointb_spec S1 S2) Dj). rewrite E1. cbn [bind negb]. rewrite Epi, Es. cbn [bind].
    fold P. fold a0. fold a1. fold a. fold O. rewrite Ex. reflexivity. }
  split; [rewrite map_length; exact Lx|].
  intros i Hi. rewrite vget_map_0 by (rewrite Lx; exact Hi).
  replace (isclose (vget x i) 0) with (Qcleb (vget x i) (Q2Qc (1 # 100000000))); [reflexivity|].
  apply eq_true_iff_eq. rewrite isclose_0, Qcleb_le, Qcabs_eq_nonneg by apply (Rg i Hi). reflexivity.
Qed.
Lemma not_ergodic_none n m : env_ok n m -> ~ ergodic n (en_p m) ->
  (forall b S1 S2, disjointb S1 S2 = true -> committor_probabilities m b S1 S2 = Ok None) /\ (forall T, mfpt_to m T = Ok None) /\ mfpt_all m = Ok None /\
  (forall O T, mfpt_between m O T = Ok None) /\ mean_recurrence_times m = Ok None.
Proof.
  intros HE HN. destruct (is_ergodic_spec n m HE) as (b & Hb & Hs). destruct b; [exfalso; apply HN, Hs; reflexivity|].
  split; [|split; [|split; [|split]]]; intros; unfold committor_probabilities, mfpt_to, mfpt_all, mfpt_between, mean_recurrence_times; rewrite ?Hb; try reflexivity.
  rewrite H. reflexivity.
Qed.
