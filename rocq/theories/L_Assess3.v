(** L_Assess3: proofs about the tests with logarithms (theoretical compatibility, homogeneity). *)
From Verif Require Export L_Assess.
From Coq Require Import Reals Qreals Lra.
Close Scope Q_scope. Close Scope R_scope.
Open Scope nat_scope.
Open Scope res_scope.

(** ** O ln (O / E) >= O - E, with equality for O = E only *)
Lemma ln_lt_sub : forall x, (0 < x)%R -> x <> 1%R -> (ln x < x - 1)%R.
Proof.
  intros x H N. assert (L : ln x <> 0%R) by (intros C; apply N; rewrite <- (exp_ln x H), C; apply exp_0).
  pose proof (exp_ineq1 (ln x) L) as K. rewrite exp_ln in K by exact H. lra.
Qed.
Lemma oe_pos : forall o e, (0 < o)%Qc -> o_ln_oe o e = (Qc2R o * ln (Qc2R o / Qc2R e))%R.
Proof. intros o e H. unfold o_ln_oe. replace (Qceqb o 0) with false; [reflexivity|]. symmetry. apply Qceqb_neq. apply Qc_lt_neq. exact H. Qed.
Lemma oe_zero : forall e, o_ln_oe 0q e = 0%R. Proof. reflexivity. Qed.
Lemma oe_ge : forall o e, (0 <= o)%Qc -> (0 <= e)%Qc -> ((0 < o)%Qc -> (0 < e)%Qc) ->
  (0 <= o_ln_oe o e - Qc2R o + Qc2R e)%R /\ ((o_ln_oe o e - Qc2R o + Qc2R e)%R = 0%R -> o = e).
Proof.
  intros o e Ho He H. destruct (pos_or_0 _ Ho) as [P|Z].
  - specialize (H P). rewrite oe_pos by exact P. pose proof (Qc2R_pos o P) as Po. pose proof (Qc2R_pos e H) as Pe.
    set (x := Qc2R o) in *. set (y := Qc2R e) in *. assert (D : (0 < y / x)%R) by (apply Rdiv_lt_0_compat; assumption).
    assert (L : ln (x / y) = (- ln (y / x))%R) by (rewrite !ln_quot by assumption; lra). rewrite L.
    assert (E : (x * - ln (y / x) - x + y = x * (y / x - 1 - ln (y / x)))%R) by (field; lra). rewrite E. split.
    + apply Rmult_le_pos; [lra|]. pose proof (ln_le_sub _ D). lra.
    + intros Z. destruct (Req_dec (y / x) 1) as [Q|Q].
      * apply Qc2R_inj. fold x y. apply (Rmult_eq_compat_r x) in Q. unfold Rdiv in Q. rewrite Rmult_assoc, Rinv_l in Q by lra. lra.
      * exfalso. pose proof (ln_lt_sub _ D Q) as K. assert (0 < x * (y / x - 1 - ln (y / x)))%R by (apply Rmult_lt_0_compat; lra). lra.
  - subst o. rewrite oe_zero, Qc2R_0. split; [pose proof (Qc2R_nonneg _ He); lra|]. intros Q. apply Qc2R_inj. rewrite Qc2R_0. lra.
Qed.
Lemma oe_self : forall o, (0 <= o)%Qc -> o_ln_oe o o = 0%R.
Proof.
  intros o Ho. destruct (pos_or_0 _ Ho) as [P|Z]; [|subst o; reflexivity]. rewrite oe_pos by exact P. pose proof (Qc2R_pos o P). unfold Rdiv. rewrite Rinv_r by lra. rewrite ln_1. lra.
Qed.
Lemma oe_sum : forall {A} (l : list A) (o e : A -> Qc), (forall x, In x l -> (0 <= o x)%Qc) -> (forall x, In x l -> (0 <= e x)%Qc) -> (forall x, In x l -> (0 < o x)%Qc -> (0 < e x)%Qc) ->
  lsum (map o l) = lsum (map e l) -> (0 <= lR l (fun x => o_ln_oe (o x) (e x)))%R /\ (lR l (fun x => o_ln_oe (o x) (e x)) = 0%R <-> forall x, In x l -> o x = e x).
Proof.
  intros A l o e Ho He H S. assert (E : lR l (fun x => o_ln_oe (o x) (e x)) = lR l (fun x => o_ln_oe (o x) (e x) - Qc2R (o x) + Qc2R (e x))%R).
  { rewrite (ls_ext l (fun x => o_ln_oe (o x) (e x) - Qc2R (o x) + Qc2R (e x))%R (fun x => o_ln_oe (o x) (e x) + (- Qc2R (o x) + Qc2R (e x)))%R) by (intros; lra).
    rewrite ls_plus, ls_plus, ls_opp. rewrite <- (map_map o Qc2R), <- (map_map e Qc2R), <- !Qc2R_lsum, S. lra. }
  assert (N : forall x, In x l -> (0 <= o_ln_oe (o x) (e x) - Qc2R (o x) + Qc2R (e x))%R) by (intros x Hx; apply oe_ge; auto).
  rewrite E. split; [apply ls_nonneg; exact N|]. split.
  - intros Z x Hx. apply oe_ge; auto. apply (ls_zero_inv l (fun x => o_ln_oe (o x) (e x) - Qc2R (o x) + Qc2R (e x))%R x N Z Hx).
  - intros Q. apply ls_0. intros x Hx. rewrite <- (Q x Hx), oe_self by auto. lra.
Qed.
Lemma rsumR_lR : forall n f, rsumR n f = lR (seq 0 n) f.
Proof. intros. unfold rsumR, lsumR. induction (seq 0 n) as [|a l IH]; [reflexivity|]. cbn. rewrite IH. reflexivity. Qed.
Lemma sum_R_lR : forall n f, real_sum n f = lR (seq 0 n) f. Proof. reflexivity. Qed.
(** double sums over positions *)
Lemma lR_prod : forall n (f : nat -> nat -> R), lR (seq 0 n) (fun i => lR (seq 0 n) (f i)) = lR (list_prod (seq 0 n) (seq 0 n)) (fun x => f (fst x) (snd x)).
Proof.
  intros n f. assert (K : forall l, lR l (fun i => lR (seq 0 n) (f i)) = lR (list_prod l (seq 0 n)) (fun x => f (fst x) (snd x))); [|apply K].
  induction l as [|a l IH]; [reflexivity|]. cbn [list_prod]. rewrite ls_app. rewrite map_map. cbn [fst snd].
  rewrite <- IH. reflexivity.
Qed.
Lemma lsum_prod : forall n (f : nat -> nat -> Qc), sumn n (fun i => sumn n (f i)) = lsum (map (fun x => f (fst x) (snd x)) (list_prod (seq 0 n) (seq 0 n))).
Proof.
  intros n f. rewrite <- lsum_tab. unfold tab.
  assert (K : forall l, lsum (map (fun i => sumn n (f i)) l) = lsum (map (fun x => f (fst x) (snd x)) (list_prod l (seq 0 n)))); [|apply K].
  induction l as [|a l IH]; [reflexivity|]. cbn [list_prod map]. rewrite map_app, lsum_app, map_map. cbn [fst snd].
  rewrite <- IH. change (lsum (map (fun i => sumn n (f i)) (a :: l))) with (sumn n (f a) + lsum (map (fun i => sumn n (f i)) l))%Qc. rewrite <- lsum_tab. reflexivity.
Qed.
Lemma oe_sum2 : forall n (o e : nat -> nat -> Qc), (forall i j, i < n -> j < n -> (0 <= o i j)%Qc) -> (forall i j, i < n -> j < n -> (0 <= e i j)%Qc) -> (forall i j, i < n -> j < n -> (0 < o i j)%Qc -> (0 < e i j)%Qc) ->
  sumn n (fun i => sumn n (o i)) = sumn n (fun i => sumn n (e i)) ->
  (0 <= lR (seq 0 n) (fun i => lR (seq 0 n) (fun j => o_ln_oe (o i j) (e i j))))%R /\ (lR (seq 0 n) (fun i => lR (seq 0 n) (fun j => o_ln_oe (o i j) (e i j))) = 0%R <-> forall i j, i < n -> j < n -> o i j = e i j).
Proof.
  intros n o e Ho He H S. rewrite !lsum_prod in S. rewrite (lR_prod n (fun i j => o_ln_oe (o i j) (e i j))).
  destruct (oe_sum (list_prod (seq 0 n) (seq 0 n)) (fun x => o (fst x) (snd x)) (fun x => e (fst x) (snd x))) as [A B]; try exact S.
  - intros [i j] I. apply in_prod_iff in I. rewrite !in_seq in I. apply Ho; cbn; lia.
  - intros [i j] I. apply in_prod_iff in I. rewrite !in_seq in I. apply He; cbn; lia.
  - intros [i j] I. apply in_prod_iff in I. rewrite !in_seq in I. apply H; cbn; lia.
  - split; [exact A|]. rewrite B. split.
    + intros Q i j Hi Hj. apply (Q (i, j)). apply in_prod_iff. rewrite !in_seq. lia.
    + intros Q [i j] I. apply in_prod_iff in I. rewrite !in_seq in I. apply Q; cbn; lia.
Qed.

(** ** observed transitions *)
Definition moves_step := seen_moves_cons 1 Nat.lt_0_1.
Definition dsum1 := dsum_one 1 Nat.lt_0_1.
Definition dsum_eq := dsum_ext 1 Nat.lt_0_1.
Lemma moves_mat_entry : forall n s i j, i < n -> j < n -> mget (moves_mat n s) i j = seen_moves s i j.
Proof. intros. unfold moves_mat. rewrite mget_mk by assumption. apply moves_count. Qed.
Lemma seen_nil : forall i u v, seen_moves [i] u v = 0q. Proof. reflexivity. Qed.
Lemma delta_row : forall n i j u, j < n -> sumn n (fun v => if Nat.eqb i u && Nat.eqb j v then 1q else 0q) = if Nat.eqb i u then 1q else 0q.
Proof.
  intros n i j u Hj. rewrite (sumn_single n _ j Hj).
  - rewrite Nat.eqb_refl, andb_true_r. reflexivity.
  - intros v _ N. replace (Nat.eqb j v) with false by (symmetry; apply Nat.eqb_neq; auto). rewrite andb_false_r. reflexivity.
Qed.
Lemma delta_col : forall n i j v, i < n -> sumn n (fun u => if Nat.eqb i u && Nat.eqb j v then 1q else 0q) = if Nat.eqb j v then 1q else 0q.
Proof.
  intros n i j v Hi. rewrite (sumn_single n _ i Hi).
  - rewrite Nat.eqb_refl. reflexivity.
  - intros u _ N. replace (Nat.eqb i u) with false by (symmetry; apply Nat.eqb_neq; auto). reflexivity.
Qed.
Lemma delta_1 : forall n i, i < n -> sumn n (fun u => if Nat.eqb i u then 1q else 0q) = 1q.
Proof. intros n i Hi. rewrite (sumn_single n _ i Hi); [rewrite Nat.eqb_refl; reflexivity|]. intros u _ N. replace (Nat.eqb i u) with false by (symmetry; apply Nat.eqb_neq; auto). reflexivity. Qed.
Lemma departures_cons : forall n i s w u, s < n -> departures n (i :: s :: w) u = ((if Nat.eqb i u then 1q else 0q) + departures n (s :: w) u)%Qc.
Proof. intros. unfold departures. rewrite (sumn_ext n _ (fun v => (if Nat.eqb i u && Nat.eqb s v then 1q else 0q) + seen_moves (s :: w) u v)%Qc) by (intros; apply moves_step). rewrite sumn_plus, delta_row by assumption. reflexivity. Qed.
Lemma arrivals_cons : forall n i s w u, i < n -> arrivals n (i :: s :: w) u = ((if Nat.eqb s u then 1q else 0q) + arrivals n (s :: w) u)%Qc.
Proof. intros. unfold arrivals. rewrite (sumn_ext n _ (fun v => (if Nat.eqb i v && Nat.eqb s u then 1q else 0q) + seen_moves (s :: w) v u)%Qc) by (intros; apply moves_step). rewrite sumn_plus, delta_col by assumption. reflexivity. Qed.
Lemma conservation : forall n w i u, (forall x, In x (i :: w) -> x < n) ->
  (departures n (i :: w) u + (if Nat.eqb (last (i :: w) 0%nat) u then 1q else 0q) = arrivals n (i :: w) u + (if Nat.eqb i u then 1q else 0q))%Qc.
Proof.
  intros n w; induction w as [|s w IH]; intros i u H.
  - unfold departures, arrivals. rewrite !sumn_0 by (intros; apply seen_nil). cbn [last]. reflexivity.
  - rewrite departures_cons by (apply H; right; left; reflexivity). rewrite arrivals_cons by (apply H; left; reflexivity).
    change (last (i :: s :: w) 0%nat) with (last (s :: w) 0%nat). specialize (IH s u (fun x Hx => H x (or_intror Hx))).
    rewrite <- Qcplus_assoc, IH. ring.
Qed.
Lemma moves_total : forall n s, (forall x, In x s -> x < n) -> sumn n (departures n s) = Qcn (length s - 1).
Proof.
  intros n [|i w] H; [cbn [length]; apply sumn_0; intros; apply sumn_0; reflexivity|]. revert i H. induction w as [|s w IH]; intros i H.
  - apply sumn_0. intros. apply sumn_0. intros; apply seen_nil.
  - rewrite (sumn_ext n _ (fun u => (if Nat.eqb i u then 1q else 0q) + departures n (s :: w) u)%Qc) by (intros; apply departures_cons; apply H; right; left; reflexivity).
    rewrite sumn_plus, IH by (intros; apply H; right; assumption). rewrite delta_1 by (apply H; left; reflexivity). cbn [length]. replace (S (S (length w)) - 1) with (S (S (length w) - 1)) by lia. rewrite Qcn_S. ring.
Qed.
Lemma moves_total_in : forall n s, (forall x, In x s -> x < n) -> sumn n (arrivals n s) = Qcn (length s - 1).
Proof. intros. rewrite <- (moves_total n s) by assumption. unfold arrivals, departures. apply sumn_swap. Qed.
Lemma departures_nonneg : forall n s i, (0 <= departures n s i)%Qc. Proof. intros. apply sumn_nonneg. intros. apply occ_nonneg. Qed.
Lemma arrivals_nonneg : forall n s i, (0 <= arrivals n s i)%Qc. Proof. intros. apply sumn_nonneg. intros. apply occ_nonneg. Qed.
Lemma departures_pos : forall n s i j, j < n -> (0 < seen_moves s i j)%Qc -> (0 < departures n s i)%Qc.
Proof. intros n s i j Hj H. apply (sumn_pos n _ j Hj H). intros; apply occ_nonneg. Qed.

(** ** probability of a sequence *)
Lemma path_pos_iff : forall n P w i, (forall u v, u < n -> v < n -> (0 <= mget P u v)%Qc) -> (forall x, In x (i :: w) -> x < n) ->
  ((0 < path_prob P i w)%Qc <-> forall u v, (0 < seen_moves (i :: w) u v)%Qc -> (0 < mget P u v)%Qc).
Proof.
  intros n P w; induction w as [|s w IH]; intros i HP H.
  - split; [|intros _; vm_compute; reflexivity]. intros _ u v C. rewrite seen_nil in C. destruct (Qclt_irr _ C).
  - assert (Hi : i < n) by (apply H; left; reflexivity). assert (Hs : s < n) by (apply H; right; left; reflexivity).
    specialize (IH s HP (fun x Hx => H x (or_intror Hx))). cbn [path_prob]. split.
    + intros L u v C. rewrite moves_step in C.
      assert (Pis : (0 < mget P i s)%Qc).
      { destruct (pos_or_0 _ (HP i s Hi Hs)) as [Q|Q]; [exact Q|]. rewrite Q in L. replace (0 * path_prob P s w)%Qc with 0q in L by ring. destruct (Qclt_irr _ L). }
      assert (Pw : (0 < path_prob P s w)%Qc) by (apply Qcnot_le_lt; intros K; apply (Qclt_not_le _ _ L); qcnra).
      destruct (Nat.eqb_spec i u) as [->|N1]; [destruct (Nat.eqb_spec s v) as [->|N2]|]; cbn [andb] in C; [exact Pis|..]; apply (proj1 IH Pw); rewrite Qcplus_0_l in C; exact C.
    + intros Q. apply Qc_mul_pos.
      * apply Q. rewrite moves_step, !Nat.eqb_refl. cbn [andb]. pose proof (occ_nonneg (length (s :: w) - 1) (fun t => Nat.eqb (nth t (s :: w) 0) i && Nat.eqb (nth (S t) (s :: w) 0) s)) as O. fold (seen_moves (s :: w) i s) in O. qclra.
      * apply IH. intros u v C. apply Q. rewrite moves_step. destruct (_ && _); qclra.
Qed.
Lemma path_log : forall n P w i, (forall u v, u < n -> v < n -> (0 <= mget P u v)%Qc) -> (forall x, In x (i :: w) -> x < n) -> (0 < path_prob P i w)%Qc ->
  ln (Qc2R (path_prob P i w)) = dsum n n (seen_moves (i :: w)) (fun u v => ln (Qc2R (mget P u v))).
Proof.
  intros n P w; induction w as [|s w IH]; intros i HP H L.
  - cbn [path_prob]. rewrite (dsum_eq n n _ (fun _ _ => 0q)) by reflexivity. rewrite dsum_0, Qc2R_1, ln_1. reflexivity.
  - assert (Hi : i < n) by (apply H; left; reflexivity). assert (Hs : s < n) by (apply H; right; left; reflexivity).
    pose proof (proj1 (path_pos_iff n P (s :: w) i HP H) L) as Q.
    assert (Pis : (0 < mget P i s)%Qc).
    { apply Q. rewrite moves_step, !Nat.eqb_refl. cbn [andb]. pose proof (occ_nonneg (length (s :: w) - 1) (fun t => Nat.eqb (nth t (s :: w) 0) i && Nat.eqb (nth (S t) (s :: w) 0) s)) as O. fold (seen_moves (s :: w) i s) in O. qclra. }
    cbn [path_prob] in *. assert (Pw : (0 < path_prob P s w)%Qc) by (apply Qcnot_le_lt; intros K; apply (Qclt_not_le _ _ L); qcnra).
    rewrite lnQ_mul by assumption. rewrite (IH s HP (fun x Hx => H x (or_intror Hx)) Pw).
    rewrite (dsum_eq n n (seen_moves (i :: s :: w)) (fun u v => (if Nat.eqb i u && Nat.eqb s v then 1q else 0q) + seen_moves (s :: w) u v)%Qc) by (intros; apply moves_step).
    rewrite dsum_plus, dsum1 by assumption. reflexivity.
Qed.
