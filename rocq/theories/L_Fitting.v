(** L_Fitting: proofs about fitted chains. *)
From Verif Require Import S_Fitting M_Fitting L_Hmm3 L_Hmm4.
From Coq Require Import Permutation.
Close Scope Q_scope.
Open Scope nat_scope.
Open Scope res_scope.

(** ** inequality between the means, in product form *)
Fixpoint prodL (l : list Qc) : Qc := match l with [] => 1q | x :: r => (x * prodL r)%Qc end.
Lemma prodL_app : forall l l', prodL (l ++ l') = (prodL l * prodL l')%Qc.
Proof. induction l as [|a l IH]; intros l'; cbn [app prodL]; [ring|]. rewrite IH. ring. Qed.
Lemma prodL_nonneg : forall l, (forall x, In x l -> (0 <= x)%Qc) -> (0 <= prodL l)%Qc.
Proof. induction l as [|a l IH]; intros H; cbn [prodL]; [discriminate|]. apply Qc_mul_nonneg; [apply H; left; reflexivity|apply IH; intros; apply H; right; assumption]. Qed.
Lemma prodL_perm : forall l l', Permutation l l' -> prodL l = prodL l'.
Proof. intros l l' H. induction H; cbn [prodL]; [reflexivity|rewrite IHPermutation; reflexivity|ring|congruence]. Qed.
Lemma lsum_perm : forall l l', Permutation l l' -> lsum l = lsum l'.
Proof. intros l l' H. induction H; cbn; [reflexivity|unfold lsum in IHPermutation; rewrite IHPermutation; reflexivity|ring|congruence]. Qed.
Lemma lsum_cons' : forall a l, lsum (a :: l) = (a + lsum l)%Qc.
Proof. reflexivity. Qed.
Lemma prodL_le1 : forall l, (forall x, In x l -> (0 <= x)%Qc) -> (forall x, In x l -> (x <= 1q)%Qc) -> (prodL l <= 1q)%Qc.
Proof.
  induction l as [|a l IH]; intros H G; cbn [prodL]; [apply Qcle_refl|].
  apply Qcle_trans with (1 * prodL l)%Qc.
  - apply Qcmult_le_compat_r; [apply G; left; reflexivity|apply prodL_nonneg; intros; apply H; right; assumption].
  - rewrite Qcmult_1_l. apply IH; intros; [apply H|apply G]; right; assumption.
Qed.
Lemma sum_gt1 : forall l, (forall x, In x l -> (1q <= x)%Qc) -> (Qcn (length l) <= lsum l)%Qc.
Proof.
  induction l as [|a l IH]; intros H; [apply Qcle_refl|]. cbn [length]. rewrite Qcn_S, lsum_cons'.
  specialize (IH (fun x Hx => H x (or_intror Hx))). pose proof (H a (or_introl eq_refl)). qclra.
Qed.
Lemma means_product : forall N l, length l = N -> (forall x, In x l -> (0 <= x)%Qc) -> (lsum l <= Qcn N)%Qc -> (prodL l <= 1q)%Qc.
Proof.
  induction N as [|N IH]; intros l Hl Hp Hs.
  - destruct l; [apply Qcle_refl|discriminate].
  - destruct (forallb (fun x => Qcleb x 1q) l) eqn:E.
    + apply prodL_le1; [exact Hp|]. intros x Hx. rewrite forallb_forall in E. apply Qcleb_le. apply E. exact Hx.
    + assert (Hb : exists b, In b l /\ (1q < b)%Qc).
      { clear - E. induction l as [|a l IH]; [discriminate|]. cbn in E. destruct (Qcleb a 1q) eqn:Ea; cbn in E.
        - destruct (IH E) as [b [A B]]. exists b. split; [right|]; assumption.
        - exists a. split; [left; reflexivity|]. apply Qcnot_le_lt. intros C. apply Qcleb_le in C. congruence. }
      destruct Hb as [b [Inb Gb]]. apply in_split in Inb. destruct Inb as [l1 [l2 El]].
      assert (P1 : Permutation l (b :: l1 ++ l2)) by (rewrite El; symmetry; apply Permutation_middle).
      set (r := l1 ++ l2) in *. assert (Lr : length r = N) by (apply Permutation_length in P1; cbn in P1; lia).
      assert (Pr : forall x, In x r -> (0 <= x)%Qc).
      { intros x Hx. apply Hp. apply (Permutation_in x (Permutation_sym P1)). right. exact Hx. }
      rewrite (lsum_perm _ _ P1), lsum_cons', Qcn_S in Hs.
      assert (Ha : exists a, In a r /\ (a < 1q)%Qc).
      { destruct (forallb (fun x => Qcleb 1q x) r) eqn:E2.
        - exfalso. pose proof (sum_gt1 r) as Z. rewrite Lr in Z. assert (Z' : (Qcn N <= lsum r)%Qc).
          { apply Z. intros x Hx. rewrite forallb_forall in E2. apply Qcleb_le. apply E2. exact Hx. }
          clear - Z' Hs Gb. qclra.
        - clear - E2. induction r as [|a r IH]; [discriminate|]. cbn in E2. destruct (Qcleb 1q a) eqn:Ea; cbn in E2.
          + destruct (IH E2) as [b [A B]]. exists b. split; [right|]; assumption.
          + exists a. split; [left; reflexivity|]. apply Qcnot_le_lt. intros C. apply Qcleb_le in C. congruence. }
      destruct Ha as [a [Ina Ga]]. apply in_split in Ina. destruct Ina as [r1 [r2 Er]].
      assert (P2 : Permutation r (a :: r1 ++ r2)) by (rewrite Er; symmetry; apply Permutation_middle).
      set (u := r1 ++ r2) in *.
      assert (Pu : forall x, In x u -> (0 <= x)%Qc) by (intros x Hx; apply Pr, (Permutation_in x (Permutation_sym P2)); right; exact Hx).
      assert (Pa : (0 <= a)%Qc) by (apply Pr, (Permutation_in a (Permutation_sym P2)); left; reflexivity).
      rewrite (prodL_perm _ _ P1). cbn [prodL]. rewrite (prodL_perm _ _ P2). cbn [prodL].
      rewrite (lsum_perm _ _ P2), lsum_cons' in Hs.
      assert (K : (prodL ((a + b - 1)%Qc :: u) <= 1q)%Qc).
      { apply IH.
        - apply Permutation_length in P2. cbn in P2 |- *. lia.
        - intros x [<-|Hx]; [clear - Pa Gb; qclra|apply Pu; exact Hx].
        - rewrite lsum_cons'. clear - Hs. qclra. }
      cbn [prodL] in K. apply Qcle_trans with ((a + b - 1) * prodL u)%Qc; [|exact K].
      rewrite Qcmult_assoc. apply Qcmult_le_compat_r; [|apply prodL_nonneg; exact Pu].
      assert (0 <= (1 - a) * (b - 1))%Qc by (apply Qc_mul_nonneg; clear - Ga Gb; qclra).
      replace (a + b - 1)%Qc with (b * a + (1 - a) * (b - 1))%Qc by ring. clear - H. revert H. generalize ((1 - a) * (b - 1))%Qc (b * a)%Qc. intros; qclra.
Qed.

(** ** products of powers *)
Lemma prodn_ext : forall m f g, (forall i, i < m -> f i = g i) -> prodn m f = prodn m g.
Proof. induction m as [|m IH]; intros f g H; [reflexivity|]. cbn [prodn]. rewrite (IH f g) by (intros; apply H; lia). rewrite H by lia. reflexivity. Qed.
Lemma prodn_mul : forall m f g, prodn m (fun i => f i * g i)%Qc = (prodn m f * prodn m g)%Qc.
Proof. induction m as [|m IH]; intros f g; cbn [prodn]; [ring|]. rewrite IH. ring. Qed.
Lemma prodn_nonneg : forall m f, (forall i, i < m -> (0 <= f i)%Qc) -> (0 <= prodn m f)%Qc.
Proof. induction m as [|m IH]; intros f H; cbn [prodn]; [discriminate|]. apply Qc_mul_nonneg; [apply IH; intros; apply H; lia|apply H; lia]. Qed.
Lemma prodn_le : forall m f g, (forall i, i < m -> (0 <= f i)%Qc) -> (forall i, i < m -> (f i <= g i)%Qc) -> (prodn m f <= prodn m g)%Qc.
Proof.
  induction m as [|m IH]; intros f g H G; cbn [prodn]; [apply Qcle_refl|].
  apply Qcle_trans with (prodn m g * f m)%Qc.
  - apply Qcmult_le_compat_r; [apply IH; intros; [apply H|apply G]; lia|apply H; lia].
  - rewrite !(Qcmult_comm (prodn m g)). apply Qcmult_le_compat_r; [apply G; lia|].
    apply prodn_nonneg. intros i Hi. apply Qcle_trans with (f i); [apply H|apply G]; lia.
Qed.
Lemma prodn_1 : forall m f, (forall i, i < m -> f i = 1q) -> prodn m f = 1q.
Proof. induction m as [|m IH]; intros f H; cbn [prodn]; [reflexivity|]. rewrite IH by (intros; apply H; lia). rewrite H by lia. ring. Qed.
Lemma pow_0 : forall x, Qcpower x 0 = 1q.
Proof. reflexivity. Qed.
Lemma pow_S : forall x k, Qcpower x (S k) = (x * Qcpower x k)%Qc.
Proof. reflexivity. Qed.
Lemma pow_add : forall x a b, Qcpower x (a + b) = (Qcpower x a * Qcpower x b)%Qc.
Proof. induction a as [|a IH]; intros b; [rewrite pow_0; cbn [Nat.add]; ring|]. cbn [Nat.add]. rewrite !pow_S, IH. ring. Qed.
Lemma pow_mul : forall x y a, Qcpower (x * y) a = (Qcpower x a * Qcpower y a)%Qc.
Proof. induction a as [|a IH]; [rewrite !pow_0; ring|]. rewrite !pow_S, IH. ring. Qed.
Lemma pow_nonneg : forall x a, (0 <= x)%Qc -> (0 <= Qcpower x a)%Qc.
Proof. induction a as [|a IH]; intros H; [discriminate|]. rewrite pow_S. apply Qc_mul_nonneg; auto. Qed.

(** c_j copies of y_j *)
Fixpoint copies (m : nat) (c : nat -> nat) (y : nat -> Qc) : list Qc :=
  match m with O => [] | S k => copies k c y ++ repeat (y k) (c k) end.
Lemma prodL_repeat : forall y k, prodL (repeat y k) = Qcpower y k.
Proof. induction k as [|k IH]; [reflexivity|]. cbn [repeat prodL]. rewrite IH, pow_S. reflexivity. Qed.
Lemma lsum_repeat : forall y k, lsum (repeat y k) = (Qcn k * y)%Qc.
Proof. induction k as [|k IH]; [change (Qcn 0) with 0q; change (lsum (repeat y 0)) with 0q; ring|]. cbn [repeat]. rewrite lsum_cons', IH, Qcn_S. ring. Qed.
Lemma copies_prod : forall m c y, prodL (copies m c y) = prodn m (fun j => Qcpower (y j) (c j)).
Proof. induction m as [|m IH]; intros; [reflexivity|]. cbn [copies prodn]. rewrite prodL_app, IH, prodL_repeat. reflexivity. Qed.
Lemma copies_sum : forall m c y, lsum (copies m c y) = sumn m (fun j => Qcn (c j) * y j)%Qc.
Proof. induction m as [|m IH]; intros; [reflexivity|]. cbn [copies sumn]. rewrite lsum_app, IH, lsum_repeat. reflexivity. Qed.
Lemma copies_len : forall m c y, Qcn (length (copies m c y)) = sumn m (fun j => Qcn (c j)).
Proof. induction m as [|m IH]; intros; [reflexivity|]. cbn [copies sumn]. rewrite app_length, repeat_length, Qcn_add, IH. reflexivity. Qed.
Lemma copies_nonneg : forall m c y, (forall j, j < m -> (0 <= y j)%Qc) -> forall x, In x (copies m c y) -> (0 <= x)%Qc.
Proof.
  induction m as [|m IH]; intros c y H x Hx; [destruct Hx|]. cbn [copies] in Hx. apply in_app_or in Hx. destruct Hx as [Hx|Hx].
  - eapply IH; [|exact Hx]. intros; apply H; lia.
  - apply repeat_spec in Hx. subst x. apply H. lia.
Qed.

(** the relative frequencies maximise a product of powers *)
Lemma frequencies_maximise : forall m c p, (forall j, j < m -> (0 <= p j)%Qc) -> (sumn m p <= 1q)%Qc ->
  let C := sumn m (fun j => Qcn (c j)) in
  C <> 0q -> (prodn m (fun j => Qcpower (p j) (c j)) <= prodn m (fun j => Qcpower (Qcn (c j) / C) (c j)))%Qc.
Proof.
  intros m c p Hp Hs C HC.
  assert (PC : (0 < C)%Qc).
  { destruct (Qc_dec C 0) as [[Z|Z]|Z]; [|exact Z|contradiction]. exfalso. apply Qclt_not_le in Z. apply Z. apply sumn_nonneg. intros; apply Qcn_nonneg. }
  set (qq := fun j => (Qcn (c j) / C)%Qc). set (y := fun j => (p j / qq j)%Qc).
  assert (Hq : forall j, (0 <= qq j)%Qc) by (intros j; apply Qc_div_nonneg0; [apply Qcn_nonneg|apply Qclt_le_weak; exact PC]).
  assert (Hy : forall j, j < m -> (0 <= y j)%Qc) by (intros j Hj; apply Qc_div_nonneg0; [apply Hp; exact Hj|apply Hq]).
  assert (Hc : forall j, c j <> 0%nat -> qq j <> 0q).
  { intros j Hj. apply Qc_lt_neq. apply Qc_div_pos; [apply Qcn_pos; lia|exact PC]. }
  rewrite (prodn_ext m _ (fun j => Qcpower (y j) (c j) * Qcpower (qq j) (c j))%Qc).
  2:{ intros j Hj. destruct (c j) as [|k] eqn:Ec; [rewrite !pow_0; ring|]. rewrite <- Ec, <- pow_mul. f_equal. unfold y. symmetry. apply Qc_div_mul. apply Hc. lia. }
  rewrite prodn_mul. fold qq. rewrite <- (Qcmult_1_l (prodn m (fun j => Qcpower (Qcn (c j) / C) (c j)))).
  apply Qcmult_le_compat_r; [|apply prodn_nonneg; intros j Hj; apply pow_nonneg; apply Hq].
  rewrite <- copies_prod. eapply means_product; [reflexivity|apply copies_nonneg; exact Hy|].
  rewrite copies_sum, copies_len. fold C.
  apply Qcle_trans with (sumn m (fun j => C * p j)%Qc).
  - apply sumn_le. intros j Hj. destruct (c j) as [|k] eqn:Ec.
    + change (Qcn 0) with 0q. rewrite Qcmult_0_l. apply Qc_mul_nonneg; [apply Qclt_le_weak; exact PC|apply Hp; exact Hj].
    + rewrite <- Ec. assert (Z : (Qcn (c j) * y j = C * p j)%Qc); [|rewrite Z; apply Qcle_refl].
      unfold y, qq. assert (Qcn (c j) <> 0q) by (apply Qc_lt_neq, Qcn_pos; lia). field. split; assumption.
  - rewrite sumn_mul_l. rewrite <- (Qcmult_1_r C) at 2. rewrite !(Qcmult_comm C). apply Qcmult_le_compat_r; [exact Hs|apply Qclt_le_weak; exact PC].
Qed.

(** ** probability of a walk by counts *)
Lemma prodn_single : forall m f k, k < m -> (forall i, i < m -> i <> k -> f i = 1q) -> prodn m f = f k.
Proof.
  induction m as [|m IH]; intros f k Hk H; [lia|]. cbn [prodn]. destruct (Nat.eq_dec k m) as [->|Hne].
  - rewrite prodn_1 by (intros; apply H; lia). ring.
  - rewrite (IH f k) by (try lia; intros; apply H; lia). rewrite (H m) by lia. ring.
Qed.
Lemma moves_cons : forall i j w, seq_moves (i :: j :: w) = (i, j) :: seq_moves (j :: w).
Proof. reflexivity. Qed.
Lemma pair_count_cons : forall a b l i j, pair_count ((a, b) :: l) i j = (if Nat.eqb a i && Nat.eqb b j then 1 else 0) + pair_count l i j.
Proof. intros. unfold pair_count. cbn [filter fst snd]. destruct (_ && _); reflexivity. Qed.
Lemma walk_prob_counts : forall n P s, (forall i, In i s -> i < n) ->
  walk_prob P s = prodn n (fun i => prodn n (fun j => Qcpower (mget P i j) (pair_count (seq_moves s) i j))).
Proof.
  intros n P s. induction s as [|a s IH]; intros H.
  - cbn. symmetry. apply prodn_1. intros. apply prodn_1. intros. reflexivity.
  - destruct s as [|b s].
    + cbn. symmetry. apply prodn_1. intros. apply prodn_1. intros. reflexivity.
    + change (walk_prob P (a :: b :: s)) with (mget P a b * walk_prob P (b :: s))%Qc. rewrite IH by (intros; apply H; right; assumption).
      assert (Ha : a < n) by (apply H; left; reflexivity). assert (Hb : b < n) by (apply H; right; left; reflexivity).
      rewrite moves_cons. symmetry.
      rewrite (prodn_ext n _ (fun i => prodn n (fun j => Qcpower (mget P i j) (if Nat.eqb a i && Nat.eqb b j then 1 else 0)) *
        prodn n (fun j => Qcpower (mget P i j) (pair_count (seq_moves (b :: s)) i j)))%Qc).
      2:{ intros i Hi. rewrite <- prodn_mul. apply prodn_ext. intros j Hj. rewrite pair_count_cons, pow_add. reflexivity. }
      rewrite prodn_mul. f_equal. rewrite (prodn_single n _ a Ha).
      2:{ intros i Hi Hne. apply prodn_1. intros j Hj. destruct (Nat.eqb_spec a i); [congruence|]. reflexivity. }
      rewrite (prodn_single n _ b Hb).
      2:{ intros j Hj Hne. destruct (Nat.eqb_spec b j); [congruence|]. rewrite Bool.andb_false_r. reflexivity. }
      rewrite !Nat.eqb_refl. cbn [andb]. rewrite pow_S, pow_0. ring.
Qed.

(** a stochastic matrix whose observed rows are the relative frequencies of exponents
    c maximises the product of powers *)
Lemma rows_maximise : forall n (c : nat -> nat -> nat) P P', stochastic n P' -> 
  (forall i, i < n -> sumn n (fun j => Qcn (c i j)) <> 0q -> forall j, j < n -> mget P i j = (Qcn (c i j) / sumn n (fun k => Qcn (c i k)))%Qc) ->
  (prodn n (fun i => prodn n (fun j => Qcpower (mget P' i j) (c i j))) <= prodn n (fun i => prodn n (fun j => Qcpower (mget P i j) (c i j))))%Qc.
Proof.
  intros n c P P' [W [N SS]] H. apply prodn_le.
  - intros i Hi. apply prodn_nonneg. intros j Hj. apply pow_nonneg. apply N; assumption.
  - intros i Hi. destruct (Qc_eq_dec (sumn n (fun j => Qcn (c i j))) 0q) as [Z|Z].
    + assert (Zc : forall j, j < n -> c i j = 0%nat).
      { intros j Hj. pose proof (sumn_eq0_inv n (fun j => Qcn (c i j)) j) as K. destruct (c i j) as [|k] eqn:Ec; [reflexivity|]. exfalso.
        assert (Q0 : Qcn (c i j) = 0q) by (apply K; [intros; apply Qcn_nonneg|exact Z|exact Hj]). rewrite Ec in Q0. apply (Qc_lt_neq (Qcn (S k))); [apply Qcn_pos; lia|exact Q0]. }
      rewrite !prodn_1; [apply Qcle_refl| |]; intros j Hj; rewrite (Zc j Hj); reflexivity.
    + rewrite (prodn_ext n (fun j => Qcpower (mget P i j) (c i j)) (fun j => Qcpower (Qcn (c i j) / sumn n (fun k => Qcn (c i k))) (c i j))).
      2:{ intros j Hj. rewrite H by assumption. reflexivity. }
      apply (frequencies_maximise n (c i) (mget P' i)); [intros; apply N; assumption| |exact Z].
      change (sumn n (mget P' i)) with (sumn n (fun j => mget P' i j)). rewrite (SS i Hi). apply Qcle_refl.
Qed.

(** ** maximum likelihood *)
Lemma fit_mle_entries : forall n b s i j, 0 < n -> i < n -> j < n ->
  mget (fit_mle n b s) i j = if b then smoothed (Q2Qc (1 # 1000)) n s i j else renorm n (seen_moves s i) j.
Proof.
  intros n b s i j Hn Hi Hj. unfold fit_mle.
  set (c := if b then Q2Qc (1 # 1000) else 0q).
  assert (Hc : (0 <= c)%Qc) by (unfold c; destruct b; discriminate).
  assert (Np : forall i j, i < n -> j < n -> (0 <= mget (mk n n (fun i j => Qcn (pair_count (seq_moves s) i j) + c)%Qc) i j)%Qc).
  { intros i' j' Hi' Hj'. rewrite mget_mk by assumption. pose proof (Qcn_nonneg (pair_count (seq_moves s) i' j')). qclra. }
  rewrite (norm_any_entries n n _ Hn (wf_mk _ _ _) Np) by assumption. unfold renorm.
  rewrite (sumn_ext n _ (fun k => seen_moves s i k + c)%Qc) by (intros k Hk; rewrite mget_mk by assumption; unfold seq_moves; rewrite moves_count; reflexivity).
  rewrite mget_mk by assumption. unfold seq_moves. rewrite moves_count. subst c. destruct b.
  - unfold smoothed. destruct (Qceqb _ _) eqn:E; [|reflexivity]. exfalso. apply Qceqb_eq in E.
    revert E. apply Qc_lt_neq. 
    assert (Z : forall k, (0 < seen_moves s i k + Q2Qc (1 # 1000))%Qc).
    { intros k. pose proof (occ_nonneg (length s - 1) (fun t => Nat.eqb (nth t s 0) i && Nat.eqb (nth (S t) s 0) k)) as Z. fold (seen_moves s i k) in Z.
      assert (0 < Q2Qc (1 # 1000))%Qc by reflexivity. qclra. }
    apply sumn_pos with (k := i); [exact Hi|apply Z|]. intros k Hk. apply Qclt_le_weak, Z.
  - rewrite (sumn_ext n (fun k => seen_moves s i k + 0)%Qc (seen_moves s i)) by (intros; ring). destruct (Qceqb _ _); [reflexivity|]. f_equal. ring.
Qed.
Lemma fit_mle_stochastic : forall n b s, 0 < n -> stochastic n (fit_mle n b s).
Proof.
  intros n b s Hn. apply norm_any_stochastic; [exact Hn|exact Hn|apply wf_mk|]. intros i j Hi Hj. rewrite mget_mk by assumption.
  pose proof (Qcn_nonneg (pair_count (seq_moves s) i j)). destruct b; [assert (0 < Q2Qc (1 # 1000))%Qc by reflexivity|]; qclra.
Qed.
Lemma fit_mle_maximises : forall n s, 0 < n -> (forall i, In i s -> i < n) -> max_likelihood n s (fit_mle n false s).
Proof.
  intros n s Hn Hs P' HP'. rewrite !(walk_prob_counts n) by exact Hs. apply rows_maximise; [exact HP'|].
  intros i Hi Hz j Hj. rewrite fit_mle_entries by assumption. unfold renorm.
  assert (E : forall k, Qcn (pair_count (seq_moves s) i k) = seen_moves s i k) by (intros; apply moves_count).
  rewrite (sumn_ext n _ (seen_moves s i)) in Hz by (intros; apply E). rewrite (sumn_ext n (fun k => Qcn (pair_count (seq_moves s) i k)) (seen_moves s i)) by (intros; apply E).
  apply Qceqb_neq in Hz. change (sumn n (fun j0 => seen_moves s i j0)) with (sumn n (seen_moves s i)) in Hz. rewrite Hz, E. reflexivity.
Qed.

(** ** maximum a posteriori *)
Lemma fit_map_raw : forall n a s i, 0 < n -> i < n -> (forall i j, i < n -> j < n -> 1 <= a i j) ->
  let c j := pair_count (seq_moves s) i j + (a i j - 1) in
  let C := sumn n (fun j => Qcn (c j)) in
  forall j, j < n ->
  (let f k := pair_count (seq_moves s) i k in
    let rt := (sumn n (fun k => Qcn (f k)) + sumn n (fun k => Qcn (a i k)))%Qc in
    if Qceqb rt (Qcn n) then (1 / Qcn n)%Qc
    else ((Qcn (f j) + Qcn (a i j) - 1) / (rt - Qcn n))%Qc) = renorm n (fun j => Qcn (c j)) j.
Proof.
  intros n a s i Hn Hi Ha c C j Hj. cbv zeta beta.
  assert (Ec : forall k, k < n -> Qcn (c k) = (Qcn (pair_count (seq_moves s) i k) + Qcn (a i k) - 1)%Qc).
  { intros k Hk. unfold c. rewrite Qcn_add. specialize (Ha i k Hi Hk). replace (a i k) with (S (a i k - 1)) at 2 by lia. rewrite Qcn_S. ring. }
  assert (EC : (sumn n (fun k => Qcn (pair_count (seq_moves s) i k)) + sumn n (fun k => Qcn (a i k)) = C + Qcn n)%Qc).
  { unfold C. rewrite (sumn_ext n (fun k => Qcn (c k)) (fun k => Qcn (pair_count (seq_moves s) i k) + Qcn (a i k) - 1)%Qc) by exact Ec.
    rewrite sumn_minus, sumn_plus. rewrite sumn_const_n. ring. }
  rewrite EC. unfold renorm. fold C.
  assert (Eb : Qceqb (C + Qcn n) (Qcn n) = Qceqb C 0).
  { destruct (Qceqb C 0) eqn:E1; destruct (Qceqb (C + Qcn n) (Qcn n)) eqn:E2; try reflexivity.
    - apply Qceqb_eq in E1. apply Qceqb_neq in E2. exfalso. apply E2. rewrite E1. ring.
    - apply Qceqb_neq in E1. apply Qceqb_eq in E2. exfalso. apply E1. replace C with (C + Qcn n - Qcn n)%Qc by ring. rewrite E2. ring. }
  rewrite Eb. destruct (Qceqb C 0); [reflexivity|]. rewrite <- Ec by exact Hj. f_equal. ring.
Qed.
Lemma renorm_sum : forall m f, 0 < m -> sumn m (renorm m f) = 1q.
Proof.
  intros m f Hm. unfold renorm. destruct (Qceqb (sumn m f) 0) eqn:E.
  - rewrite sumn_const_n. field. apply Qc_lt_neq, Qcn_pos. exact Hm.
  - apply Qceqb_neq in E. rewrite sumn_div. apply Qc_div_self. exact E.
Qed.
Lemma renorm_nonneg : forall m f j, (forall k, k < m -> (0 <= f k)%Qc) -> j < m -> (0 <= renorm m f j)%Qc.
Proof.
  intros m f j H Hj. unfold renorm. destruct (Qceqb _ _); apply Qc_div_nonneg0; [discriminate|apply Qcn_nonneg|apply H; exact Hj|apply sumn_nonneg; exact H].
Qed.
Lemma fit_map_entries : forall n a s, 0 < n -> (forall i j, i < n -> j < n -> 1 <= a i j) ->
  stochastic n (fit_map n a s) /\
  forall i j, i < n -> j < n -> mget (fit_map n a s) i j = renorm n (fun k => Qcn (pair_count (seq_moves s) i k + (a i k - 1))) j.
Proof.
  intros n a s Hn Ha. unfold fit_map. set (M := mk n n _).
  assert (WM : wf n n M) by apply wf_mk.
  assert (GM : forall i j, i < n -> j < n -> mget M i j = renorm n (fun k => Qcn (pair_count (seq_moves s) i k + (a i k - 1))) j).
  { intros i j Hi Hj. unfold M. rewrite mget_mk by assumption. apply (fit_map_raw n a s i Hn Hi Ha j Hj). }
  rewrite (norm_any_unit n n) by (try assumption; intros i Hi; rewrite (sumn_ext n _ (renorm n (fun k => Qcn (pair_count (seq_moves s) i k + (a i k - 1))))) by (intros; apply GM; assumption); apply renorm_sum; exact Hn).
  split; [|exact GM]. split; [exact WM|]. split.
  - intros i j Hi Hj. rewrite GM by assumption. apply renorm_nonneg; [intros; apply Qcn_nonneg|exact Hj].
  - intros i Hi. rewrite (sumn_ext n _ (renorm n (fun k => Qcn (pair_count (seq_moves s) i k + (a i k - 1))))) by (intros; apply GM; assumption). apply renorm_sum. exact Hn.
Qed.
Lemma fit_map_mode : forall n a s, 0 < n -> (forall i j, i < n -> j < n -> 1 <= a i j) -> (forall i, In i s -> i < n) -> posterior_mode n a s (fit_map n a s).
Proof.
  intros n a s Hn Ha Hs P' HP'. rewrite !(walk_prob_counts n) by exact Hs. unfold prior. rewrite <- !prodn_mul.
  assert (E : forall P, prodn n (fun i => prodn n (fun j => Qcpower (mget P i j) (a i j - 1)) * prodn n (fun j => Qcpower (mget P i j) (pair_count (seq_moves s) i j)))%Qc =
    prodn n (fun i => prodn n (fun j => Qcpower (mget P i j) (pair_count (seq_moves s) i j + (a i j - 1))))).
  { intros P. apply prodn_ext. intros i Hi. rewrite <- prodn_mul. apply prodn_ext. intros j Hj. rewrite pow_add. ring. }
  rewrite !E. apply rows_maximise; [exact HP'|]. intros i Hi Hz j Hj.
  destruct (fit_map_entries n a s Hn Ha) as [_ G]. rewrite G by assumption. unfold renorm. apply Qceqb_neq in Hz. rewrite Hz. reflexivity.
Qed.

(** ** the methods *)
Lemma seq_ok_inv : forall n s, sequence_okb n s = true -> 2 <= length s /\ forall i, In i s -> i < n.
Proof.
  intros n s H. unfold sequence_okb in H. apply andb_true_iff in H. destruct H as [A B]. split; [apply Nat.leb_le; exact A|].
  intros i Hi. rewrite forallb_forall in B. apply Nat.ltb_lt. apply B. exact Hi.
Qed.
Lemma fit_sequence_mle_ok : forall states s o c, fit_sequence (SeqMle o) states s = Ok c ->
  let n := length states in
  valid_chain n c /\ ch_states c = states /\
  match o with
  | Some true => forall i j, i < n -> j < n -> mget (ch_p c) i j = smoothed (Q2Qc (1 # 1000)) n s i j
  | _ => (forall i j, i < n -> j < n -> mget (ch_p c) i j = renorm n (seen_moves s i) j) /\ max_likelihood n s (ch_p c)
  end.
Proof.
  intros states s o c H. cbv zeta. unfold fit_sequence in H.
  destruct (validate_labels_input states None) as [st|] eqn:E1; [|discriminate]. cbn [bind] in H.
  destruct (labels_input_inv _ _ _ E1) as [-> [N1 L1]].
  destruct (sequence_okb (length states) s) eqn:E2; [|discriminate]. destruct (seq_ok_inv _ _ E2) as [_ Hs].
  injection H as <-. cbn [ch_p ch_states].
  assert (Hn : 0 < length states) by lia. set (b := match o with Some b => b | None => false end).
  pose proof (fit_mle_stochastic (length states) b s Hn) as HS.
  split; [split; [exact L1|split; [exact HS|exact N1]]|]. split; [reflexivity|].
  destruct o as [[|]|]; unfold b.
  - intros i j Hi Hj. apply (fit_mle_entries (length states) true); assumption.
  - split; [intros i j Hi Hj; apply (fit_mle_entries (length states) false); assumption|apply fit_mle_maximises; assumption].
  - split; [intros i j Hi Hj; apply (fit_mle_entries (length states) false); assumption|apply fit_mle_maximises; assumption].
Qed.
Lemma fit_sequence_map_ok : forall states s o c, fit_sequence (SeqMap o) states s = Ok c ->
  let n := length states in let a := match o with Some a => a | None => fun _ _ => 1%nat end in
  valid_chain n c /\ ch_states c = states /\ posterior_mode n a s (ch_p c) /\
  (forall i j, i < n -> j < n -> mget (ch_p c) i j = renorm n (fun k => seen_moves s i k + (Qcn (a i k) - 1))%Qc j).
Proof.
  intros states s o c H. cbv zeta. unfold fit_sequence in H.
  destruct (validate_labels_input states None) as [st|] eqn:E1; [|discriminate]. cbn [bind] in H.
  destruct (labels_input_inv _ _ _ E1) as [-> [N1 L1]].
  destruct (sequence_okb (length states) s) eqn:E2; [|discriminate]. destruct (seq_ok_inv _ _ E2) as [_ Hs].
  assert (Hn : 0 < length states) by lia. set (n := length states) in *. set (a := match o with Some a => a | None => fun _ _ => 1%nat end).
  assert (Ha : (forall i j, i < n -> j < n -> 1 <= a i j) /\ c = mkchain (fit_map n a s) states).
  { unfold a. destruct o as [a0|].
    - destruct (forallb _ _) eqn:E3; [|discriminate]. injection H as <-. split; [|reflexivity]. intros i j Hi Hj.
      rewrite forallb_forall in E3. specialize (E3 i ltac:(apply in_seq; lia)). rewrite forallb_forall in E3.
      apply Nat.leb_le. apply E3. apply in_seq. lia.
    - injection H as <-. split; [intros; lia|reflexivity]. }
  destruct Ha as [Ha ->]. cbn [ch_p ch_states]. destruct (fit_map_entries n a s Hn Ha) as [S1 G].
  split; [split; [exact L1|split; [exact S1|exact N1]]|]. split; [reflexivity|]. split; [apply fit_map_mode; assumption|].
  intros i j Hi Hj. rewrite G by assumption.
  assert (E : forall k, k < n -> Qcn (pair_count (seq_moves s) i k + (a i k - 1)) = (seen_moves s i k + (Qcn (a i k) - 1))%Qc).
  { intros k Hk. rewrite Qcn_add. unfold seq_moves. rewrite moves_count. f_equal. specialize (Ha i k Hi Hk).
    replace (a i k) with (S (a i k - 1)) at 2 by lia. rewrite Qcn_S. ring. }
  unfold renorm. rewrite (sumn_ext n _ _ E), E by exact Hj. reflexivity.
Qed.
Lemma fit_sequence_accepts : forall t states s, names_ok (length states) states -> 2 <= length states -> 2 <= length s -> (forall i, In i s -> i < length states) ->
  (forall a, t = SeqMap (Some a) -> forall i j, i < length states -> j < length states -> 1 <= a i j) -> exists c, fit_sequence t states s = Ok c.
Proof.
  intros t states s N L Ls Hs Ht. unfold fit_sequence.
  assert (V : validate_labels_input states None = Ok states).
  { assert (H : validate_labels_input states (Some (length states)) = Ok states) by (apply validate_labels_input_ok; auto).
    unfold validate_labels_input in *. destruct (forallb nonblank states); [|discriminate]. destruct (Nat.leb 2 (length states)); [|discriminate].
    destruct (nodupb String.eqb states); [reflexivity|discriminate]. }
  rewrite V. cbn [bind].
  assert (S : sequence_okb (length states) s = true).
  { unfold sequence_okb. apply andb_true_iff. split; [apply Nat.leb_le; exact Ls|]. apply forallb_forall. intros i Hi. apply Nat.ltb_lt. auto. }
  rewrite S. destruct t as [[a|]|o]; try (eexists; reflexivity).
  assert (F : forallb (fun i => forallb (fun j => Nat.leb 1 (a i j)) (seq 0 (length states))) (seq 0 (length states)) = true).
  { apply forallb_forall. intros i Hi. apply forallb_forall. intros j Hj. apply in_seq in Hi, Hj. apply Nat.leb_le. apply (Ht a eq_refl); lia. }
  rewrite F. eexists. reflexivity.
Qed.

(** ** quadrature *)
Lemma weights_pos : forall t a b n j, (a < b)%Qc -> 2 <= n -> j < n -> (forall x w, t = QOther x w -> (0 < w j)%Qc) -> (0 < q_weights t a b n j)%Qc.
Proof.
  intros t a b n j Hab Hn Hj Ho. assert (D : (0 < b - a)%Qc) by qclra.
  assert (Dn : (0 < (b - a) / Qcn n)%Qc) by (apply Qc_div_pos; [exact D|apply Qcn_pos; lia]).
  assert (Dh : (0 < linspace a b n 1 - linspace a b n 0)%Qc).
  { unfold linspace. replace (a + Qcn 1 * ((b - a) / Qcn (n - 1)) - (a + Qcn 0 * ((b - a) / Qcn (n - 1))))%Qc with ((b - a) / Qcn (n - 1))%Qc.
    - apply Qc_div_pos; [exact D|apply Qcn_pos; lia].
    - change (Qcn 1) with 1q. change (Qcn 0) with 0q. ring. }
  destruct t; cbn [q_weights].
  - exact Dn.
  - apply Qc_mul_pos; [apply Qc_div_pos; [exact Dh|reflexivity]|]. destruct (_ || _); [reflexivity|]. destruct (Nat.even j); reflexivity.
  - apply Qc_mul_pos; [exact Dh|]. destruct (_ || _); reflexivity.
  - eapply Ho. reflexivity.
Qed.
Lemma linspace_in : forall a b n i, (a < b)%Qc -> 2 <= n -> i < n -> (a <= linspace a b n i)%Qc /\ (linspace a b n i <= b)%Qc.
Proof.
  intros a b n i Hab Hn Hi. unfold linspace. assert (D : (0 < b - a)%Qc) by qclra.
  assert (P : (0 < Qcn (n - 1))%Qc) by (apply Qcn_pos; lia).
  assert (H : (0 < (b - a) / Qcn (n - 1))%Qc) by (apply Qc_div_pos; assumption). split.
  - assert (0 <= Qcn i * ((b - a) / Qcn (n - 1)))%Qc by (apply Qc_mul_nonneg; [apply Qcn_nonneg|apply Qclt_le_weak; exact H]).
    revert H0. generalize (Qcn i * ((b - a) / Qcn (n - 1)))%Qc. intros; qclra.
  - apply Qcle_trans with (a + Qcn (n - 1) * ((b - a) / Qcn (n - 1)))%Qc.
    + apply Qcplus_le_compat; [apply Qcle_refl|]. apply Qcmult_le_compat_r; [apply Qcn_le; lia|apply Qclt_le_weak; exact H].
    + replace (a + Qcn (n - 1) * ((b - a) / Qcn (n - 1)))%Qc with b; [apply Qcle_refl|]. field. apply Qc_lt_neq. exact P.
Qed.
Lemma newton_nodes : forall a b n i, (a < b)%Qc -> i < n -> (0 < q_nodes QNewton a b n i)%Qc /\ (q_nodes QNewton a b n i < b - a)%Qc.
Proof.
  intros a b n i Hab Hi. cbn [q_nodes]. assert (D : (0 < b - a)%Qc) by qclra.
  assert (P : (0 < Qcn n)%Qc) by (apply Qcn_pos; lia).
  assert (H : (0 < (b - a) / Qcn n)%Qc) by (apply Qc_div_pos; assumption). split.
  - apply Qc_mul_pos; [|exact H]. pose proof (Qcn_nonneg i). assert (0 < Q2Qc (1 # 2))%Qc by reflexivity. qclra.
  - apply Qclt_le_trans with (Qcn n * ((b - a) / Qcn n))%Qc.
    + apply Qcmult_lt_compat_r; [exact H|]. apply Qclt_le_trans with (Qcn (S i)); [|apply Qcn_le; lia]. rewrite Qcn_S.
      assert (Q2Qc (1 # 2) < 1q)%Qc by reflexivity. qclra.
    + replace (Qcn n * ((b - a) / Qcn n))%Qc with (b - a)%Qc; [apply Qcle_refl|]. field. apply Qc_lt_neq. exact P.
Qed.
Lemma nodes_in : forall t a b n i, (0 <= a)%Qc -> (a < b)%Qc -> 2 <= n -> i < n -> (t = QNewton -> a = 0q) -> (forall x w, t = QOther x w -> (a <= x i /\ x i <= b)%Qc) ->
  (a <= q_nodes t a b n i)%Qc /\ (q_nodes t a b n i <= b)%Qc.
Proof.
  intros t a b n i Ha Hab Hn Hi Hz Ho. destruct t.
  - specialize (Hz eq_refl). destruct (newton_nodes a b n i Hab Hi) as [A B]. subst a. split; [apply Qclt_le_weak; exact A|]. replace (b - 0q)%Qc with b in B by ring. apply Qclt_le_weak. exact B.
  - apply linspace_in; assumption.
  - apply linspace_in; assumption.
  - eapply Ho. reflexivity.
Qed.
Lemma spacing : forall a b n, (linspace a b n 1 - linspace a b n 0 = (b - a) / Qcn (n - 1))%Qc.
Proof. intros. unfold linspace. change (Qcn 1) with 1q. change (Qcn 0) with 0q. ring. Qed.
Lemma sumn_pattern : forall m (g : nat -> Qc), sumn (S (S m)) g = (g 0%nat + sumn m (fun j => g (S j)) + g (S m))%Qc.
Proof. intros m g. change (sumn (S (S m)) g) with (sumn (S m) g + g (S m))%Qc. rewrite sumn_S_front. reflexivity. Qed.
Lemma trapezoid_sum : forall a b n, 2 <= n -> sumn n (q_weights QTrapezoid a b n) = (b - a)%Qc.
Proof.
  intros a b n Hn. unfold q_weights. cbv iota. rewrite sumn_mul_l, spacing. destruct n as [|[|m]]; [lia|lia|]. rewrite sumn_pattern.
  replace (S (S m) - 1) with (S m) by lia. rewrite Nat.eqb_refl, Nat.eqb_refl, Bool.orb_true_r, Bool.orb_true_l.
  rewrite (sumn_ext m _ (fun _ => 1q)).
  - rewrite sumn_const_n, Qcn_S. assert (Qcn m + 1 <> 0)%Qc by (apply Qc_lt_neq; pose proof (Qcn_nonneg m); qclra).
    replace (Q2Qc (1 # 2) + Qcn m * 1 + Q2Qc (1 # 2))%Qc with (Qcn m + 1)%Qc; [field; assumption|].
    replace (Q2Qc (1 # 2) + Qcn m * 1 + Q2Qc (1 # 2))%Qc with (Qcn m + (Q2Qc (1 # 2) + Q2Qc (1 # 2)))%Qc by ring. f_equal. apply Qc_is_canon. reflexivity.
  - intros j Hj. destruct (Nat.eqb_spec (S j) 0); [lia|]. destruct (Nat.eqb_spec (S j) (S m)); [lia|]. reflexivity.
Qed.
Lemma simpson_inner : forall k, sumn (2 * k + 1) (fun j => if Nat.even (S j) then Q2Qc 2 else Q2Qc 4) = (Q2Qc 6 * Qcn k + Q2Qc 4)%Qc.
Proof.
  induction k as [|k IH]; [reflexivity|]. replace (2 * S k + 1) with (S (S (2 * k + 1))) by lia.
  change (sumn (S (S (2 * k + 1))) ?g) with (sumn (2 * k + 1) g + g (2 * k + 1)%nat + g (S (2 * k + 1)))%Qc. rewrite IH. cbv beta.
  replace (S (2 * k + 1)) with (2 * (k + 1)) by lia. rewrite Nat.even_mul. change (Nat.even 2 || Nat.even (k + 1)) with true. cbv iota.
  replace (S (2 * (k + 1))) with (S (2 * (k + 1))) by lia. rewrite Nat.even_succ, <- Nat.negb_even, Nat.even_mul. cbn [Nat.even orb negb].
  rewrite Qcn_S. assert (H6 : Q2Qc 6 = (Q2Qc 2 + Q2Qc 4)%Qc) by (apply Qc_is_canon; reflexivity). rewrite H6. generalize (Q2Qc 2) (Q2Qc 4). intros; ring.
Qed.
Lemma simpson_sum : forall a b n, 2 <= n -> Nat.even n = false -> sumn n (q_weights QSimpson a b n) = (b - a)%Qc.
Proof.
  intros a b n Hn Ho. unfold q_weights. cbv iota. rewrite sumn_mul_l, spacing.
  assert (E : exists k, n = 2 * k + 3).
  { assert (O : Nat.odd n = true) by (rewrite <- Nat.negb_even, Ho; reflexivity). apply Nat.odd_spec in O. destruct O as [k ->]. exists (k - 1). lia. }
  destruct E as [k ->]. replace (2 * k + 3) with (S (S (2 * k + 1))) by lia. rewrite sumn_pattern.
  replace (S (S (2 * k + 1)) - 1) with (S (2 * k + 1)) by lia. rewrite Nat.eqb_refl, Nat.eqb_refl, Bool.orb_true_r, Bool.orb_true_l.
  rewrite (sumn_ext (2 * k + 1) _ (fun j => if Nat.even (S j) then Q2Qc 2 else Q2Qc 4)).
  - rewrite simpson_inner. replace (S (2 * k + 1)) with (2 * S k) by lia. rewrite Qcn_mul, (Qcn_S k). change (Qcn 2) with (Q2Qc 2).
    assert (Qcn k + 1 <> 0)%Qc by (apply Qc_lt_neq; pose proof (Qcn_nonneg k); qclra).
    replace (1 + (Q2Qc 6 * Qcn k + Q2Qc 4) + 1)%Qc with (Q2Qc 6 * (Qcn k + 1))%Qc.
    + assert (H6 : Q2Qc 6 = (Q2Qc 2 * Q2Qc 3)%Qc) by (apply Qc_is_canon; reflexivity). rewrite H6.
      assert (H2 : Q2Qc 2 <> 0q) by discriminate. assert (H3 : Q2Qc 3 <> 0q) by discriminate. revert H2 H3. generalize (Q2Qc 2) (Q2Qc 3). intros; field. auto.
    + assert (H6 : Q2Qc 6 = (Q2Qc 4 + 1 + 1)%Qc) by (apply Qc_is_canon; reflexivity). rewrite H6. generalize (Q2Qc 4). intros; ring.
  - intros j Hj. destruct (Nat.eqb_spec (S j) 0); [lia|]. destruct (Nat.eqb_spec (S j) (S (2 * k + 1))); [lia|]. reflexivity.
Qed.
Lemma newton_sum : forall a b n, 2 <= n -> sumn n (q_weights QNewton a b n) = (b - a)%Qc.
Proof. intros a b n Hn. unfold q_weights. cbv iota. rewrite sumn_const_n. field. apply Qc_lt_neq, Qcn_pos. lia. Qed.

(** ** fit_function *)
Lemma fit_values_ok : forall n x w f p, fit_values n x w f = Ok p ->
  wf n n p /\ forall i j, i < n -> j < n -> exists v, f i (x i) j (x j) = Some v /\ mget p i j = (v * w j)%Qc.
Proof.
  intros n x w f p H. unfold fit_values in H. pose proof (mapM_ok_length _ _ _ H) as L. rewrite seq_length in L.
  apply mapM_ok_iff in H.
  assert (R : forall i, i < n -> mapM (fun j => match f i (x i) j (x j) with Some v => Ok (v * w j)%Qc | None => Err ValueErr end) (seq 0 n) = Ok (nth i p [])).
  { intros i Hi. assert (G : forall l l', Forall2 (fun a b => mapM (fun j => match f a (x a) j (x j) with Some v => Ok (v * w j)%Qc | None => Err ValueErr end) (seq 0 n) = Ok b) l l' ->
      forall k, k < length l -> mapM (fun j => match f (nth k l 0%nat) (x (nth k l 0%nat)) j (x j) with Some v => Ok (v * w j)%Qc | None => Err ValueErr end) (seq 0 n) = Ok (nth k l' [])).
    { intros l l' F. induction F; intros k Hk; [cbn in Hk; lia|]. destruct k; [exact H0|]. apply IHF. cbn in Hk. lia. }
    specialize (G _ _ H i ltac:(rewrite seq_length; exact Hi)). rewrite seq_nth in G by exact Hi. exact G. }
  assert (W : wf n n p).
  { split; [exact L|]. intros r Hr. apply In_nth with (d := []) in Hr. destruct Hr as [i [Hi <-]]. specialize (R i ltac:(lia)). apply mapM_ok_length in R. rewrite seq_length in R. exact R. }
  split; [exact W|]. intros i j Hi Hj. specialize (R i Hi). apply mapM_ok_iff in R.
  assert (G : forall l l', Forall2 (fun a b => match f i (x i) a (x a) with Some v => Ok (v * w a)%Qc | None => Err ValueErr end = Ok b) l l' ->
    forall k, k < length l -> match f i (x i) (nth k l 0) (x (nth k l 0)) with Some v => Ok (v * w (nth k l 0%nat))%Qc | None => Err ValueErr end = Ok (nth k l' 0q)).
  { intros l l' F. induction F; intros k Hk; [cbn in Hk; lia|]. destruct k; [exact H0|]. apply IHF. cbn in Hk. lia. }
  specialize (G _ _ R j ltac:(rewrite seq_length; exact Hj)). rewrite seq_nth in G by exact Hj. cbn [Nat.add] in G.
  destruct (f i (x i) j (x j)) as [v|]; [|discriminate]. exists v. split; [reflexivity|]. injection G as G. unfold mget. symmetry. exact G.
Qed.
Lemma fit_function_inv : forall t states f o c, fit_function t states f o = Ok c ->
  let n := length states in let a := match o with None => 0q | Some i => fst i end in let b := match o with None => 1q | Some i => snd i end in
  2 <= n /\ names_ok n states /\ ch_states c = states /\ (0 <= a)%Qc /\ (a < b)%Qc /\ (t = QSimpson -> Nat.even n = false) /\ mc_fit_function t a b n f = Ok (ch_p c).
Proof.
  intros t states f o c H. cbv zeta. unfold fit_function in H. destruct (f 1 1q 1 1q); [|discriminate].
  destruct (validate_labels_input states None) as [st|] eqn:E1; [|discriminate]. cbn [bind] in H.
  destruct (labels_input_inv _ _ _ E1) as [-> [N1 L1]].
  set (a := match o with None => 0q | Some i => fst i end). set (b := match o with None => 1q | Some i => snd i end).
  assert (E : match o with Some i => i | None => (0q, 1q) end = (a, b)) by (unfold a, b; destruct o as [[]|]; reflexivity).
  rewrite E in H. destruct (Qcleb 0 a && Qcleb 0 b && Qcltb a b) eqn:E2; [|discriminate].
  apply andb_true_iff in E2. destruct E2 as [E2 E3]. apply andb_true_iff in E2. destruct E2 as [E2 E4]. apply Qcleb_le in E2. apply Qcltb_lt in E3.
  assert (Ht : t = QSimpson -> Nat.even (length states) = false).
  { intros ->. destruct (Nat.even (length states)); [discriminate|reflexivity]. }
  destruct (match t with QSimpson => negb (Nat.even (length states)) | _ => true end); [|discriminate].
  destruct (mc_fit_function t a b (length states) f) as [p|] eqn:EF; [|discriminate]. cbn [bind] in H. injection H as <-.
  cbn [ch_p ch_states]. auto 10.
Qed.
Lemma fit_function_ok : forall t states f o c, fit_function t states f o = Ok c ->
  let n := length states in let a := match o with None => 0q | Some i => fst i end in let b := match o with None => 1q | Some i => snd i end in
  let x := q_nodes t a b n in let w := q_weights t a b n in
  (forall xo wo, t = QOther xo wo -> forall j, j < n -> (0 < wo j)%Qc) ->
  (forall i j v, i < n -> j < n -> f i (x i) j (x j) = Some v -> (0 <= v)%Qc) ->
  valid_chain n c /\ ch_states c = states /\
  forall i j, i < n -> j < n -> mget (ch_p c) i j = renorm n (fun k => match f i (x i) k (x k) with Some v => v * w k | None => 0 end)%Qc j.
Proof.
  intros t states f o c H. cbv zeta. destruct (fit_function_inv _ _ _ _ _ H) as [L [N [Es [Ha [Hab [Ht HF]]]]]].
  set (n := length states) in *. set (a := match o with None => 0q | Some i => fst i end) in *. set (b := match o with None => 1q | Some i => snd i end) in *.
  intros Ho Hf. unfold mc_fit_function in HF. destruct (fit_values n (q_nodes t a b n) (q_weights t a b n) f) as [p|] eqn:EV; [|discriminate]. cbn [bind] in HF.
  destruct (forallb _ _); [|discriminate]. injection HF as HF. destruct (fit_values_ok _ _ _ _ _ EV) as [W G].
  assert (Hw : forall j, j < n -> (0 < q_weights t a b n j)%Qc) by (intros j Hj; apply weights_pos; try assumption; intros xo wo Et; eapply Ho; eassumption).
  assert (Np : forall i j, i < n -> j < n -> (0 <= mget p i j)%Qc).
  { intros i j Hi Hj. destruct (G i j Hi Hj) as [v [Ev ->]]. apply Qc_mul_nonneg; [exact (Hf i j v Hi Hj Ev)|apply Qclt_le_weak, Hw; exact Hj]. }
  assert (Hn : 0 < n) by lia.
  change (div_rows (fill_any p)) with (norm_any p) in HF. rewrite <- HF.
  split; [split; [exact L|split; [rewrite <- HF; apply norm_any_stochastic; assumption|rewrite Es; exact N]]|]. split; [exact Es|].
  intros i j Hi Hj. rewrite (norm_any_entries n n) by assumption.
  assert (E : forall k, k < n -> mget p i k = match f i (q_nodes t a b n i) k (q_nodes t a b n k) with Some v => (v * q_weights t a b n k)%Qc | None => 0q end).
  { intros k Hk. destruct (G i k Hi Hk) as [v [-> ->]]. reflexivity. }
  unfold renorm. rewrite (sumn_ext n _ _ E), (E j Hj). reflexivity.
Qed.
Lemma fit_function_accepts : forall t states f o, 
  let n := length states in let a := match o with None => 0q | Some i => fst i end in let b := match o with None => 1q | Some i => snd i end in
  names_ok n states -> 2 <= n -> (0 <= a)%Qc -> (a < b)%Qc -> (t = QSimpson -> Nat.even n = false) ->
  (forall i x j y, exists v, f i x j y = Some v /\ (0 <= v)%Qc) -> (forall xo wo, t = QOther xo wo -> forall j, j < n -> (0 < wo j)%Qc) ->
  exists c, fit_function t states f o = Ok c.
Proof.
  intros t states f o n a b N L Ha Hab Ht Hf Ho. unfold fit_function. destruct (Hf 1 1q 1 1q) as [v0 [-> _]].
  assert (V : validate_labels_input states None = Ok states).
  { assert (H : validate_labels_input states (Some (length states)) = Ok states) by (apply validate_labels_input_ok; auto).
    unfold validate_labels_input in *. destruct (forallb nonblank states); [|discriminate]. destruct (Nat.leb 2 (length states)); [|discriminate].
    destruct (nodupb String.eqb states); [reflexivity|discriminate]. }
  rewrite V. cbn [bind].
  assert (E : match o with Some i => i | None => (0q, 1q) end = (a, b)) by (unfold a, b; destruct o as [[]|]; reflexivity).
  rewrite E. assert (B : Qcleb 0 a && Qcleb 0 b && Qcltb a b = true).
  { rewrite !andb_true_iff. split; [split; apply Qcleb_le; [exact Ha|]|apply Qcltb_lt; exact Hab]. apply Qcle_trans with a; [exact Ha|apply Qclt_le_weak; exact Hab]. }
  rewrite B. fold n. assert (T : match t with QSimpson => negb (Nat.even n) | _ => true end = true) by (destruct t; try reflexivity; rewrite (Ht eq_refl); reflexivity).
  rewrite T. unfold mc_fit_function.
  assert (FV : exists p, fit_values n (q_nodes t a b n) (q_weights t a b n) f = Ok p).
  { unfold fit_values. set (x := q_nodes t a b n). set (w := q_weights t a b n).
    assert (M : forall (A B : Type) (g : A -> res B) l, (forall y, In y l -> exists z, g y = Ok z) -> exists l', mapM g l = Ok l').
    { intros A0 B0 g l. induction l as [|y l IH]; intros Hg; [exists []; reflexivity|]. destruct (Hg y (or_introl eq_refl)) as [z Hz].
      destruct IH as [l' Hl']; [intros; apply Hg; right; assumption|]. exists (z :: l'). apply mapM_ok_iff. constructor; [exact Hz|]. apply mapM_ok_iff. exact Hl'. }
    apply M. intros i _. apply M. intros j _. destruct (Hf i (x i) j (x j)) as [v [-> _]]. eexists. reflexivity. }
  destruct FV as [p EV]. rewrite EV. cbn [bind]. destruct (fit_values_ok _ _ _ _ _ EV) as [W G].
  assert (Hn : 0 < n) by lia.
  assert (Np : forall i j, i < n -> j < n -> (0 <= mget p i j)%Qc).
  { intros i j Hi Hj. destruct (G i j Hi Hj) as [v [Ev ->]]. destruct (Hf i (q_nodes t a b n i) j (q_nodes t a b n j)) as [v' [Ev' Hv']]. rewrite Ev in Ev'. injection Ev' as <-.
    apply Qc_mul_nonneg; [exact Hv'|]. apply Qclt_le_weak. apply weights_pos; try assumption. intros xo wo Et. eapply Ho; eassumption. }
  assert (B2 : forallb (fun i => negb (Qceqb (rowsum (fill_any p) i) 0)) (seq 0 n) = true).
  { apply forallb_forall. intros i Hi. apply in_seq in Hi. apply negb_true_iff, Qceqb_neq. rewrite (rowsum_eq n n) by (try exact Hn; apply wf_fill_any; assumption).
    pose proof (norm_any_stochastic n n p Hn Hn W Np) as [_ [_ S1]]. specialize (S1 i ltac:(lia)). intros Z.
    rewrite (sumn_ext n _ (fun _ => 0q)) in S1.
    - rewrite sumn_0 in S1 by reflexivity. discriminate.
    - intros j Hj. unfold norm_any. rewrite (mget_div_rows n n) by (try lia; try exact Hj; apply wf_fill_any; assumption). rewrite Z.
      unfold Qcdiv. change (/ 0)%Qc with 0q. ring. }
  rewrite B2. eexists. reflexivity.
Qed.
Lemma fit_smoothed : forall states s c, fit_sequence (SeqMle (Some true)) states s = Ok c ->
  forall i j, i < length states -> j < length states -> mget (ch_p c) i j = smoothed (Q2Qc (1 # 1000)) (length states) s i j.
Proof. intros states s c H. apply (fit_sequence_mle_ok states s (Some true) c H). Qed.
