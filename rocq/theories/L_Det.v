(** L_Det: the determinant of elimination is the one of the expansion. *)
From Verif Require Import S_Det.
Open Scope nat_scope.

Ltac eqbs := repeat (match goal with |- context [Nat.eqb ?a ?b] => destruct (Nat.eqb_spec a b) end).
Ltac ltbs := repeat (match goal with |- context [Nat.ltb ?a ?b] => destruct (Nat.ltb_spec a b) end).
Lemma sgn_S i : sgn (S i) = (- sgn i)%Qc.
Proof. unfold sgn. rewrite Nat.even_succ, <- Nat.negb_even. destruct (Nat.even i); cbn [negb]; ring. Qed.
Lemma skip_le i r n : r < n -> skip i r < S n.
Proof. unfold skip. destruct (Nat.ltb r i); lia. Qed.
Lemma laplace_ext n A B : (forall i j, i < n -> j < n -> A i j = B i j) -> laplace n A = laplace n B.
Proof.
  revert A B. induction n as [|n IH]; intros A B H; [reflexivity|]. cbn [laplace]. apply sumn_ext. intros i Hi. rewrite (H i 0) by lia. f_equal. apply IH. intros r c Hr Hc. unfold drop. apply H; [apply skip_le; exact Hr|lia].
Qed.
Definition upd (A : nat -> nat -> Qc) (i : nat) (v : nat -> Qc) : nat -> nat -> Qc := fun r c => if Nat.eqb r i then v c else A r c.
(** the place of row i after row p is dropped *)
Definition place (p i : nat) : nat := if Nat.ltb i p then i else i - 1.
Lemma drop_upd_same A i v r c : drop i (upd A i v) r c = drop i A r c.
Proof. unfold drop, upd, skip. ltbs; eqbs; try lia; reflexivity. Qed.
Lemma drop_upd A p i v r c : p <> i -> drop p (upd A i v) r c = upd (drop p A) (place p i) (fun c => v (S c)) r c.
Proof.
  intros H. unfold drop, upd, skip, place. destruct (Nat.ltb_spec r p), (Nat.ltb_spec i p); eqbs; try reflexivity; lia.
Qed.
Lemma laplace_linear n : forall A i u v k, i < n -> laplace n (upd A i (fun c => u c + k * v c)%Qc) = (laplace n (upd A i u) + k * laplace n (upd A i v))%Qc.
Proof.
  induction n as [|n IH]; intros A i u v k Hi; [lia|]. cbn [laplace]. rewrite <- sumn_mul_l, <- sumn_plus. apply sumn_ext. intros p Hp. destruct (Nat.eq_dec p i) as [->|Hpi].
  - assert (G : forall w, (upd A i w i 0 = w 0%nat) /\ laplace n (drop i (upd A i w)) = laplace n (drop i A)) by (intros w; split; [unfold upd; rewrite Nat.eqb_refl; reflexivity|apply laplace_ext; intros; apply drop_upd_same]).
    rewrite !(proj1 (G _)), !(proj2 (G _)). ring.
  - assert (G : forall w, (upd A i w p 0 = A p 0) /\ laplace n (drop p (upd A i w)) = laplace n (upd (drop p A) (place p i) (fun c => w (S c)))) by (intros w; split; [unfold upd; destruct (Nat.eqb_spec p i); [lia|reflexivity]|apply laplace_ext; intros; apply drop_upd; exact Hpi]).
    rewrite !(proj1 (G _)), !(proj2 (G _)). rewrite (IH (drop p A) (place p i) (fun c => u (S c)) (fun c => v (S c)) k) by (unfold place; destruct (Nat.ltb_spec i p); lia). ring.
Qed.
Lemma swp_l a b : swp a b a = b.
Proof. unfold swp. rewrite Nat.eqb_refl. reflexivity. Qed.
Lemma swp_r a b : swp a b b = a.
Proof. unfold swp. destruct (Nat.eqb_spec b a) as [->|]; [reflexivity|]. rewrite Nat.eqb_refl. reflexivity. Qed.
Lemma swp_o a b i : i <> a -> i <> b -> swp a b i = i.
Proof. intros H1 H2. unfold swp. destruct (Nat.eqb_spec i a); [contradiction|]. destruct (Nat.eqb_spec i b); [contradiction|reflexivity]. Qed.
Lemma sumn_adj n f i : S i < n -> sumn n (fun p => f (swp i (S i) p)) = sumn n f.
Proof.
  intros H. replace n with (i + S (S (n - i - 2))) by lia. rewrite !sumn_split. f_equal.
  - apply sumn_ext. intros p Hp. unfold swp. destruct (Nat.eqb_spec p i); [lia|]. destruct (Nat.eqb_spec p (S i)); [lia|reflexivity].
  - rewrite !sumn_S_front. replace (swp i (S i) (i + 0)) with (S i) by (unfold swp; rewrite Nat.add_0_r, Nat.eqb_refl; reflexivity). replace (swp i (S i) (i + 1)) with i by (unfold swp; destruct (Nat.eqb_spec (i + 1) i); [lia|]; destruct (Nat.eqb_spec (i + 1) (S i)); [reflexivity|lia]).
    replace (i + 0) with i by lia. replace (i + 1) with (S i) by lia. rewrite (sumn_ext (n - i - 2) (fun p => f (swp i (S i) (i + S (S p)))) (fun p => f (i + S (S p)))); [ring|].
    intros p Hp. unfold swp. destruct (Nat.eqb_spec (i + S (S p)) i); [lia|]. destruct (Nat.eqb_spec (i + S (S p)) (S i)); [lia|reflexivity].
Qed.
Lemma laplace_adj n : forall A i, S i < n -> laplace n (fun r => A (swp i (S i) r)) = (- laplace n A)%Qc.
Proof.
  induction n as [|n IH]; intros A i Hi; [lia|]. cbn [laplace]. rewrite <- (sumn_adj (S n) (fun p => sgn p * A p 0%nat * laplace n (drop p A))%Qc i Hi).
  transitivity (sumn (S n) (fun p => - (1q) * (sgn (swp i (S i) p) * A (swp i (S i) p) 0%nat * laplace n (drop (swp i (S i) p) A)))%Qc); [|rewrite sumn_mul_l; ring]. apply sumn_ext. intros p Hp.
  destruct (Nat.eq_dec p i) as [->|H1]; [|destruct (Nat.eq_dec p (S i)) as [->|H2]].
  - replace (swp i (S i) i) with (S i) by (unfold swp; rewrite Nat.eqb_refl; reflexivity). rewrite sgn_S. rewrite (laplace_ext n (drop i _) (drop (S i) A)); [ring|].
    intros r c Hr Hc. unfold drop, skip, swp. destruct (Nat.ltb_spec r i), (Nat.ltb_spec r (S i)); try lia; eqbs; try lia; f_equal; lia.
  - replace (swp i (S i) (S i)) with i by (unfold swp; destruct (Nat.eqb_spec (S i) i); [lia|]; rewrite Nat.eqb_refl; reflexivity). rewrite sgn_S. rewrite (laplace_ext n (drop (S i) _) (drop i A)); [ring|].
    intros r c Hr Hc. unfold drop, skip, swp. destruct (Nat.ltb_spec r i), (Nat.ltb_spec r (S i)); try lia; eqbs; try lia; f_equal; lia.
  - assert (E : swp i (S i) p = p) by (unfold swp; destruct (Nat.eqb_spec p i); [lia|]; destruct (Nat.eqb_spec p (S i)); [lia|reflexivity]). rewrite E.
    rewrite (laplace_ext n (drop p _) (fun r => drop p A (swp (place p i) (S (place p i)) r))).
    + rewrite IH by (unfold place; destruct (Nat.ltb_spec i p); lia). ring.
    + intros r c Hr Hc. unfold drop, skip, swp, place. destruct (Nat.ltb_spec i p), (Nat.ltb_spec r p); eqbs; try lia; repeat (match goal with |- context [Nat.ltb ?a ?b] => destruct (Nat.ltb_spec a b) end); try lia; f_equal; lia.
Qed.
Lemma laplace_swap n A p q : p < q -> q < n -> laplace n (fun r => A (swp p q r)) = (- laplace n A)%Qc.
Proof.
  intros Hpq. revert A. induction q as [|q IH]; intros A Hq; [lia|]. destruct (Nat.eq_dec p q) as [->|Hne]; [apply laplace_adj; exact Hq|].
  rewrite (laplace_ext n _ (fun r => (fun s => (fun t => A (swp q (S q) t)) (swp p q s)) (swp q (S q) r))).
  - rewrite (laplace_adj n (fun s => (fun t => A (swp q (S q) t)) (swp p q s)) q Hq). rewrite (IH ltac:(lia) (fun t => A (swp q (S q) t)) ltac:(lia)). rewrite (laplace_adj n A q Hq). ring.
  - intros r c Hr Hc. cbv beta. f_equal. destruct (Nat.eq_dec r p) as [->|H1]; [rewrite swp_l, (swp_o q (S q) p) by lia; rewrite swp_l, swp_l; reflexivity|].
    destruct (Nat.eq_dec r (S q)) as [->|H2]; [rewrite !swp_r, (swp_o q (S q) p) by lia; reflexivity|]. destruct (Nat.eq_dec r q) as [->|H3]; [rewrite (swp_o p (S q) q), swp_l, (swp_o p q (S q)), swp_r by lia; reflexivity|].
    rewrite (swp_o p (S q) r), (swp_o q (S q) r), (swp_o p q r), (swp_o q (S q) r) by lia. reflexivity.
Qed.
Lemma laplace_equal n A p q : p < q -> q < n -> (forall c, c < n -> A p c = A q c) -> laplace n A = 0q.
Proof.
  intros Hp Hq H. pose proof (laplace_swap n A p q Hp Hq) as E. rewrite (laplace_ext n (fun r => A (swp p q r)) A) in E.
  - assert (E2 : ((1 + 1) * laplace n A = 0)%Qc) by (replace ((1 + 1) * laplace n A)%Qc with (laplace n A + laplace n A)%Qc by ring; rewrite E at 1; ring). apply Qcmult_integral in E2. destruct E2 as [E2|E2]; [discriminate|exact E2].
  - intros r c Hr Hc. unfold swp. destruct (Nat.eqb_spec r p) as [->|]; [symmetry; apply H; exact Hc|]. destruct (Nat.eqb_spec r q) as [->|]; [apply H; exact Hc|reflexivity].
Qed.
Lemma laplace_scale n A i k : i < n -> laplace n (upd A i (fun c => k * A i c)%Qc) = (k * laplace n A)%Qc.
Proof.
  intros Hi. pose proof (laplace_linear n A i (fun _ => 0q) (A i) k Hi) as E. rewrite (laplace_ext n (upd A i (A i)) A) in E.
  2: { intros r c _ _. unfold upd. destruct (Nat.eqb_spec r i) as [->|]; reflexivity. }
  assert (Z : laplace n (upd A i (fun _ => 0q)) = 0q).
  { rewrite (laplace_ext n (upd A i (fun _ => 0q)) (upd A i (fun c => A i c + (- 1q) * A i c)%Qc)) by (intros r c _ _; unfold upd; destruct (Nat.eqb r i); ring). rewrite (laplace_linear n A i (A i) (A i) (- 1q)%Qc Hi). ring. }
  rewrite Z in E. rewrite (laplace_ext n _ (upd A i (fun c => 0 + k * A i c)%Qc)) by (intros r c _ _; unfold upd; destruct (Nat.eqb r i); ring). rewrite E. ring.
Qed.
Lemma laplace_add n A i k c0 : i < n -> k < n -> i <> k -> laplace n (upd A i (fun c => A i c + c0 * A k c)%Qc) = laplace n A.
Proof.
  intros Hi Hk Hik. rewrite (laplace_linear n A i (A i) (A k) c0 Hi). rewrite (laplace_ext n (upd A i (A i)) A) by (intros r c _ _; unfold upd; destruct (Nat.eqb_spec r i) as [->|]; reflexivity).
  assert (Z : laplace n (upd A i (A k)) = 0q).
  { destruct (Nat.lt_ge_cases i k) as [H|H].
    - apply (laplace_equal n _ i k H Hk). intros c _. unfold upd. rewrite Nat.eqb_refl. destruct (Nat.eqb_spec k i); [lia|reflexivity].
    - apply (laplace_equal n _ k i ltac:(lia) Hi). intros c _. unfold upd. rewrite Nat.eqb_refl. destruct (Nat.eqb_spec k i); [lia|reflexivity]. }
  rewrite Z. ring.
Qed.
(** multiples of row k are added to all the others *)
Lemma laplace_clear n A k (y : nat -> Qc) : k < n -> laplace n (fun r c => if Nat.eqb r k then A r c else A r c + y r * A k c)%Qc = laplace n A.
Proof.
  intros Hk. assert (G : forall t, t <= n -> laplace n (fun r c => if Nat.ltb r t then (if Nat.eqb r k then A r c else A r c + y r * A k c) else A r c)%Qc = laplace n A).
  { induction t as [|t IH]; intros Ht; [apply laplace_ext; reflexivity|]. rewrite <- (IH ltac:(lia)). destruct (Nat.eq_dec t k) as [->|Hne].
    - apply laplace_ext. intros r c _ _. destruct (Nat.ltb_spec r (S k)), (Nat.ltb_spec r k); try lia; try reflexivity. destruct (Nat.eqb_spec r k); [reflexivity|lia].
    - set (B := fun r c => (if Nat.ltb r t then (if Nat.eqb r k then A r c else A r c + y r * A k c) else A r c)%Qc). rewrite <- (laplace_add n B t k (y t)) by lia. apply laplace_ext. intros r c _ _. unfold upd.
      assert (Bt : forall c, B t c = A t c) by (intros d; unfold B; rewrite Nat.ltb_irrefl; reflexivity). assert (Bk : forall c, B k c = A k c) by (intros d; unfold B; rewrite Nat.eqb_refl; destruct (Nat.ltb k t); reflexivity).
      destruct (Nat.eqb_spec r t) as [->|Hr].
      + rewrite Bt, Bk. destruct (Nat.ltb_spec t (S t)); [|lia]. destruct (Nat.eqb_spec t k); [lia|reflexivity].
      + unfold B. destruct (Nat.ltb_spec r (S t)), (Nat.ltb_spec r t); try lia; reflexivity. }
  rewrite <- (G n ltac:(lia)). apply laplace_ext. intros r c Hr _. destruct (Nat.ltb_spec r n); [reflexivity|lia].
Qed.
(** a first column with only its first entry *)
Lemma laplace_first n A : (forall i, 0 < i -> i < S n -> A i 0 = 0q) -> laplace (S n) A = (A 0%nat 0%nat * laplace n (fun r c => A (S r) (S c)))%Qc.
Proof.
  intros H. cbn [laplace]. rewrite sumn_S_front. rewrite sumn_0 by (intros i Hi; rewrite H by lia; ring). rewrite (laplace_ext n (drop 0 A) (fun r c => A (S r) (S c))) by reflexivity. change (sgn 0) with 1q. ring.
Qed.
Lemma laplace_zero_column n A : 0 < n -> (forall i, i < n -> A i 0 = 0q) -> laplace n A = 0q.
Proof. intros Hn H. destruct n as [|n]; [lia|]. cbn [laplace]. apply sumn_0. intros i Hi. rewrite H by exact Hi. ring. Qed.
Lemma laplace_eye n : laplace n delta = 1q.
Proof.
  induction n as [|n IH]; [reflexivity|]. rewrite laplace_first by (intros i Hi _; apply delta_neq; lia). rewrite delta_refl. rewrite (laplace_ext n _ delta) by reflexivity. rewrite IH. ring.
Qed.
(** the pivot *)
Lemma argmax_from_spec l : forall i bi b, bi < i -> let r := argmax_from l i bi b in (r = bi \/ (i <= r < i + length l)) /\ (forall d, let v := (if Nat.eqb r bi then b else nth (r - i) l d) in (b <= v)%Qc /\ forall k, k < length l -> (nth k l d <= v)%Qc).
Proof.
  induction l as [|x l IH]; intros i bi b Hb; cbn [argmax_from].
  - split; [left; reflexivity|]. intros d. rewrite Nat.eqb_refl. split; [apply Qcle_refl|]. intros k Hk. cbn in Hk. lia.
  - destruct (Qcltb b x) eqn:E.
    + destruct (IH (S i) i x ltac:(lia)) as [H1 H2]. set (r := argmax_from l (S i) i x) in *. split; [right; cbn [length]; lia|]. intros d. specialize (H2 d). cbv zeta in H2. destruct H2 as [H2 H3].
      destruct (Nat.eqb_spec r bi) as [C|_]; [lia|]. destruct (Nat.eqb_spec r i) as [C|Hri].
      * rewrite C, Nat.sub_diag. cbn [nth]. apply Qcltb_lt in E. split; [apply Qclt_le_weak; exact E|]. intros [|k] Hk; [apply Qcle_refl|]. apply H3. cbn in Hk. lia.
      * replace (r - i) with (S (r - S i)) by lia. cbn [nth]. apply Qcltb_lt in E. split; [apply Qclt_le_weak; eapply Qclt_le_trans; [exact E|exact H2]|]. intros [|k] Hk; [exact H2|]. apply H3. cbn in Hk. lia.
    + destruct (IH (S i) bi b ltac:(lia)) as [H1 H2]. set (r := argmax_from l (S i) bi b) in *. split; [destruct H1 as [H1|H1]; [left; exact H1|right; cbn [length]; lia]|]. intros d. specialize (H2 d). cbv zeta in H2. destruct H2 as [H2 H3].
      assert (Hx : (x <= b)%Qc) by (apply Qcnot_lt_le; intros C; apply Qcltb_lt in C; congruence).
      destruct (Nat.eqb_spec r bi) as [C|C].
      * split; [apply Qcle_refl|]. intros [|k] Hk; [exact Hx|]. apply H3. cbn in Hk. lia.
      * replace (r - i) with (S (r - S i)) by lia. cbn [nth]. split; [exact H2|]. intros [|k] Hk; [eapply Qcle_trans; [exact Hx|exact H2]|]. apply H3. cbn in Hk. lia.
Qed.
Lemma pivot_spec n M : 0 < n -> pivot_row n M < n /\ forall i, i < n -> (Qcabs (mget M i 0) <= Qcabs (mget M (pivot_row n M) 0))%Qc.
Proof.
  intros Hn. unfold pivot_row. set (f := fun i => Qcabs (mget M i 0)). assert (HL : length (tab n f) = n) by apply tab_length. assert (HN : forall i d, i < n -> nth i (tab n f) d = f i) by (intros i d Hi; rewrite (nth_indep _ d 0q) by (rewrite HL; exact Hi); apply (vget_tab n f i Hi)).
  unfold argmax. destruct (tab n f) as [|x l] eqn:E; [cbn in HL; lia|]. cbn [length] in HL. destruct (argmax_from_spec l 1 0 x ltac:(lia)) as [H1 H2]. set (r := argmax_from l 1 0 x) in *. split; [lia|]. intros i Hi. specialize (H2 0q). cbv zeta in H2. destruct H2 as [H2 H3].
  assert (Hr : f r = if Nat.eqb r 0 then x else nth (r - 1) l 0q). { rewrite <- (HN r 0q ltac:(lia)). destruct r as [|r]; [reflexivity|]. cbn [nth Nat.eqb]. f_equal. lia. }
  change (Qcabs (mget M i 0)) with (f i). change (Qcabs (mget M r 0)) with (f r). rewrite Hr, <- (HN i 0q Hi). destruct i as [|i]; [exact H2|]. cbn [nth]. apply H3. lia.
Qed.
Lemma pivot_zero n M : mget M (pivot_row n M) 0 = 0q -> forall i, i < n -> mget M i 0 = 0q.
Proof.
  intros H i Hi. destruct (pivot_spec n M ltac:(lia)) as [_ HP]. specialize (HP i Hi). rewrite H in HP. apply Qcabs_le in HP. destruct HP as [H1 H2]. change (Qcabs 0) with 0q in H1, H2. apply Qcle_antisym; [exact H2|]. replace 0q with (- 0)%Qc by ring. exact H1.
Qed.
(** ** The determinant *)
Lemma lu_laplace n : forall M, lu_det n M = laplace n (mget M).
Proof.
  induction n as [|n IH]; intros M; [reflexivity|]. cbn [lu_det]. set (r := pivot_row (S n) M). destruct (pivot_spec (S n) M ltac:(lia)) as [Hr _]. fold r in Hr. destruct (Qceqb (mget M r 0) 0) eqn:E.
  - apply Qceqb_eq in E. symmetry. apply laplace_zero_column; [lia|]. apply pivot_zero. exact E.
  - apply Qceqb_neq in E. rewrite IH. set (s := swp 0 r).
    assert (ES : laplace (S n) (mget M) = ((if Nat.eqb r 0 then 1q else (- 1q)%Qc) * laplace (S n) (fun i => mget M (s i)))%Qc).
    { destruct (Nat.eqb_spec r 0) as [C|C]; [|unfold s; rewrite (laplace_swap (S n) (mget M) 0 r) by lia; ring]. rewrite (laplace_ext (S n) (fun i => mget M (s i)) (mget M)); [ring|]. intros i j _ _. unfold s. rewrite C. unfold swp. destruct (Nat.eqb_spec i 0) as [->|]; reflexivity. }
    rewrite ES. rewrite <- (laplace_clear (S n) (fun i => mget M (s i)) 0 (fun i => - (mget M (s i) 0 / mget M r 0))%Qc) by lia.
    assert (S0 : s 0 = r) by reflexivity. rewrite laplace_first.
    + rewrite Nat.eqb_refl, S0. rewrite (laplace_ext n (mget (eliminate (S n) (S n) M r)) (fun i j => if Nat.eqb (S i) 0 then mget M (s (S i)) (S j) else mget M (s (S i)) (S j) + - (mget M (s (S i)) 0 / mget M r 0) * mget M r (S j))%Qc); [ring|].
      intros i j Hi Hj. unfold eliminate. rewrite mget_mk by lia. cbn [Nat.eqb]. cbv zeta. fold s. ring.
    + intros i Hi _. destruct (Nat.eqb_spec i 0); [lia|]. rewrite S0. field. exact E.
Qed.
