(** L_Closest: the problem solved by closest_reversible. *)
From Verif Require Export S_Closest L_Props L_Gen1.
Open Scope nat_scope.

(** ** Pairs of states *)
Definition pairs_from (a k : nat) : list (nat * nat) :=
  flat_map (fun r => map (fun s => (r, s)) (seq (S r) (a + k - S r))) (seq a k).
Lemma pairs_from_S a k : pairs_from a (S k) = map (fun s => (a, s)) (seq (S a) k) ++ pairs_from (S a) k.
Proof.
  unfold pairs_from. cbn [seq flat_map]. replace (a + S k - S a) with k by lia. f_equal.
  rewrite !flat_map_concat_map. f_equal. apply map_ext. intros r. replace (a + S k - S r) with (S a + k - S r) by lia. reflexivity.
Qed.
Lemma cr_pairs_from n : cr_pairs n = pairs_from 0 n.
Proof.
  unfold cr_pairs, pairs_from. destruct n as [|n]; [reflexivity|]. replace (S n - 1) with n by lia.
  rewrite seq_S, flat_map_app. cbn [flat_map]. replace (0 + S n - S (0 + n)) with 0 by lia. cbn [seq map app]. rewrite app_nil_r. reflexivity.
Qed.
Lemma in_pairs n r s : In (r, s) (cr_pairs n) <-> r < s < n.
Proof.
  unfold cr_pairs. rewrite in_flat_map. split.
  - intros (x & Hx & H). apply in_map_iff in H. destruct H as (y & E & Hy). inversion E; subst. apply in_seq in Hx, Hy. lia.
  - intros H. exists r. split; [apply in_seq; lia|]. apply in_map_iff. exists s. split; [reflexivity|]. apply in_seq; lia.
Qed.
Lemma pairs_count (b : nat -> bool) k : forall a,
  let z := length (filter b (seq a k)) in
  2 * length (filter (fun rs => b (fst rs) && b (snd rs)) (pairs_from a k)) = (z - 1) * z.
Proof.
  induction k as [|k IH]; intros a; [reflexivity|]. cbv zeta in *. rewrite pairs_from_S, filter_app, app_length.
  specialize (IH (S a)). cbn [seq filter].
  assert (E : length (filter (fun rs => b (fst rs) && b (snd rs)) (map (fun s => (a, s)) (seq (S a) k))) = if b a then length (filter b (seq (S a) k)) else 0).
  { generalize (seq (S a) k). intros l. destruct (b a) eqn:Ea.
    - induction l as [|x l IHl]; [reflexivity|]. cbn. rewrite Ea. cbn. destruct (b x); cbn; rewrite IHl; reflexivity.
    - induction l as [|x l IHl]; [reflexivity|]. cbn. rewrite Ea. cbn. exact IHl. }
  rewrite E, Nat.mul_add_distr_l, IH. destruct (b a); [|lia]. cbn [length]. set (z := length (filter b (seq (S a) k))).
  destruct z as [|z]; cbn; nia.
Qed.
Lemma pairs_nodup k : forall a, NoDup (pairs_from a k).
Proof.
  induction k as [|k IH]; intros a; [constructor|]. rewrite pairs_from_S.
  assert (G : forall l1 l2 : list (nat * nat), NoDup l1 -> NoDup l2 -> (forall x, In x l1 -> ~ In x l2) -> NoDup (l1 ++ l2)).
  { induction l1 as [|x l1 IHl]; intros l2 N1 N2 D; [exact N2|]. inversion N1; subst. cbn. constructor.
    - rewrite in_app_iff. intros [H|H]; [contradiction|]. exact (D x (or_introl eq_refl) H).
    - apply IHl; try assumption. intros y Hy. apply D. right; exact Hy. }
  apply G; [|apply IH|].
  - apply FinFun.Injective_map_NoDup; [intros x y E; inversion E; reflexivity|apply seq_NoDup].
  - intros [x y] H1 H2. apply in_map_iff in H1. destruct H1 as (s & E & _). inversion E; subst.
    unfold pairs_from in H2. apply in_flat_map in H2. destruct H2 as (q & Hq & H2). apply in_map_iff in H2. destruct H2 as (t & E2 & _). inversion E2; subst.
    apply in_seq in Hq. lia.
Qed.

(** ** The basis *)
Definition tag := (nat * nat * Qc * Qc)%type.
Definition ind (b : bool) : Qc := if b then 1q else 0q.
Definition tg (t : tag) (i j : nat) : Qc :=
  let '(r, s, u, v) := t in
  (delta i j + u * (ind (Nat.eqb i r && Nat.eqb j s) - ind (Nat.eqb i r && Nat.eqb j r))
             + v * (ind (Nat.eqb i s && Nat.eqb j r) - ind (Nat.eqb i s && Nat.eqb j s)))%Qc.
Definition tags (d : vec) (rs : nat * nat) : list tag :=
  let (r, s) := rs in
  if cr_both_zero d r s then [(r, s, 1q, 0q); (r, s, 0q, 1q)] else [(r, s, vget d s, vget d r)].
Definition tag0 : tag := (0, 0, 0q, 0q).
Definition alltags (n : nat) (d : vec) : list tag := flat_map (tags d) (cr_pairs n) ++ [tag0].

Lemma mget_put n M r s v i j : i < n -> j < n -> mget (put n M r s v) i j = if Nat.eqb i r && Nat.eqb j s then v else mget M i j.
Proof. intros Hi Hj. unfold put. rewrite mget_mk by assumption. reflexivity. Qed.

Ltac tgcase i j r s :=
  unfold tg, delta, ind; destruct (Nat.eqb_spec i r), (Nat.eqb_spec i s), (Nat.eqb_spec j r), (Nat.eqb_spec j s), (Nat.eqb_spec i j);
  subst; try lia; cbn [andb]; try qclra.
Lemma pair_basis_tags n d r s : r < s < n -> cr_pair_basis n d (r, s) = map (fun t => mk n n (tg t)) (tags d (r, s)).
Proof.
  intros H. unfold cr_pair_basis, tags. destruct (cr_both_zero d r s) eqn:Z; cbn [map].
  - f_equal; [|f_equal]; apply (mat_ext n n); try apply wf_mk; intros i j Hi Hj; rewrite !mget_put, mget_mk by assumption; unfold eye; rewrite mget_mk by assumption; tgcase i j r s.
  - f_equal. apply (mat_ext n n); try apply wf_mk. intros i j Hi Hj. rewrite !mget_put, mget_mk by assumption; unfold eye; rewrite mget_mk by assumption. tgcase i j r s.
Qed.
Lemma flat_map_map_ext {A B C} (f : A -> list B) (g : A -> list C) (h : C -> B) l : (forall x, In x l -> f x = map h (g x)) ->
  flat_map f l = map h (flat_map g l).
Proof. induction l as [|x l IH]; intros H; [reflexivity|]. cbn. rewrite map_app, (H x (or_introl eq_refl)), IH; [reflexivity|]. intros y Hy. apply H. right; exact Hy. Qed.
Lemma basis_tags n d : cr_basis n d = map (fun t => mk n n (tg t)) (alltags n d).
Proof.
  unfold cr_basis, alltags. rewrite map_app. f_equal.
  - apply flat_map_map_ext. intros [r s] H. apply in_pairs in H. apply pair_basis_tags, H.
  - cbn [map]. f_equal. apply mk_ext. intros i j _ _. unfold tg, tag0. ring.
Qed.
Lemma cells_tags n d i : i < n -> flat_map (cr_cells d i) (cr_pairs n) ++ [(- (1))%Qc] = map (fun t => (- tg t i i)%Qc) (alltags n d).
Proof.
  intros Hi. unfold alltags. rewrite map_app. f_equal.
  - apply flat_map_map_ext. intros [r s] H. apply in_pairs in H. unfold cr_cells, tags. destruct (cr_both_zero d r s); cbn [map].
    + unfold tg, delta, ind. rewrite Nat.eqb_refl, (Nat.eqb_sym r i), (Nat.eqb_sym s i). destruct (Nat.eqb_spec i r), (Nat.eqb_spec i s); subst; try lia; cbn [andb negb]; repeat f_equal; qclra.
    + unfold tg, delta, ind. rewrite Nat.eqb_refl, (Nat.eqb_sym r i), (Nat.eqb_sym s i). destruct (Nat.eqb_spec i r), (Nat.eqb_spec i s); subst; try lia; cbn [andb negb]; repeat f_equal; qclra.
  - cbn [map]. f_equal. unfold tg, tag0, delta. rewrite Nat.eqb_refl. ring.
Qed.
Lemma alltags_length n d : length d = n -> length (alltags n d) = cr_m n (cr_zeros d).
Proof.
  intros L. unfold alltags, cr_m. rewrite app_length. cbn [length]. f_equal.
  assert (E : length (flat_map (tags d) (cr_pairs n)) = length (cr_pairs n) + length (filter (fun rs => Qceqb (vget d (fst rs)) 0 && Qceqb (vget d (snd rs)) 0) (cr_pairs n))).
  { induction (cr_pairs n) as [|[r s] l IH]; [reflexivity|]. cbn [flat_map filter fst snd]. rewrite app_length, IH. unfold tags, cr_both_zero.
    destruct (Qceqb (vget d r) 0 && Qceqb (vget d s) 0); cbn [length]; lia. }
  rewrite E, cr_pairs_from.
  pose proof (pairs_count (fun _ => true) n 0) as C1. pose proof (pairs_count (fun i => Qceqb (vget d i) 0) n 0) as C2. cbv zeta in C1, C2.
  assert (F1 : forall (A : Type) (l : list A), filter (fun _ => true) l = l) by (induction l; cbn; congruence).
  cbn [andb] in C1. rewrite !F1, seq_length in C1.
  assert (Z : length (filter (fun i => Qceqb (vget d i) 0) (seq 0 n)) = cr_zeros d).
  { unfold cr_zeros. rewrite <- L. clear. induction d as [|x d IH]; [reflexivity|]. cbn [length seq filter]. rewrite <- seq_shift.
    assert (G : forall l, length (filter (fun i => Qceqb (vget (x :: d) i) 0) (map S l)) = length (filter (fun i => Qceqb (vget d i) 0) l)).
    { induction l as [|y l IHl]; [reflexivity|]. cbn [map filter]. change (vget (x :: d) (S y)) with (vget d y). destruct (Qceqb (vget d y) 0); cbn [length]; rewrite IHl; reflexivity. }
    change (vget (x :: d) 0) with x. destruct (Qceqb x 0); cbn [length]; rewrite G, IH; reflexivity. }
  rewrite Z in C2. rewrite <- C1, <- C2, !(Nat.mul_comm 2), !Nat.div_mul by lia. reflexivity.
Qed.

(** ** Combinations of the basis *)
Section Comb.
Variables (n : nat) (d : vec).
Hypothesis (Ld : length d = n) (Pd : forall i, i < n -> (0 <= vget d i)%Qc).
Let T := alltags n d.
Let m := cr_m n (cr_zeros d).
Definition comb (x : vec) (i j : nat) : Qc := sumn (length T) (fun k => vget x k * tg (nth k T tag0) i j)%Qc.
Lemma T_length : length T = m.
Proof using Ld. apply alltags_length, Ld. Qed.
Lemma nth_basis k : k < m -> nth k (cr_basis n d) [] = mk n n (tg (nth k T tag0)).
Proof using Ld.
  intros Hk. rewrite basis_tags. rewrite (nth_indep _ [] (mk n n (tg tag0))) by (rewrite map_length; fold T; rewrite T_length; exact Hk).
  rewrite (map_nth (fun t => mk n n (tg t))). reflexivity.
Qed.
Lemma comb_model x : mk n n (fun r s => sumn m (fun i => vget x i * mget (nth i (cr_basis n d) []) r s)%Qc) = mk n n (comb x).
Proof using Ld.
  apply mk_ext. intros i j Hi Hj. unfold comb. rewrite T_length. apply sumn_ext. intros k Hk. rewrite nth_basis, mget_mk by assumption. reflexivity.
Qed.

Definition good_tag (t : tag) : Prop :=
  let '(r, s, u, v) := t in t = tag0 \/ (r < s < n /\ (0 <= u)%Qc /\ (0 <= v)%Qc /\ (vget d r * u)%Qc = (vget d s * v)%Qc).
Lemma tags_good t : In t T -> good_tag t.
Proof using Ld Pd.
  unfold T, alltags. rewrite in_app_iff. intros [H|[<-|[]]]; [|left; reflexivity].
  apply in_flat_map in H. destruct H as ([r s] & H & Ht). apply in_pairs in H. unfold tags, cr_both_zero in Ht.
  destruct (Qceqb (vget d r) 0) eqn:Zr; [destruct (Qceqb (vget d s) 0) eqn:Zs|]; cbn [andb] in Ht.
  - apply Qceqb_eq in Zr, Zs. destruct Ht as [<-|[<-|[]]]; right; rewrite Zr, Zs; (split; [exact H|]); repeat split; try discriminate; ring.
  - destruct Ht as [<-|[]]; right; (split; [exact H|]); split; [apply Pd; lia|split; [apply Pd; lia|ring]].
  - destruct Ht as [<-|[]]; right; (split; [exact H|]); split; [apply Pd; lia|split; [apply Pd; lia|ring]].
Qed.
Lemma nth_good k : good_tag (nth k T tag0).
Proof using Ld Pd.
  destruct (Nat.lt_ge_cases k (length T)) as [H|H]; [apply tags_good, nth_In, H|]. rewrite nth_overflow by exact H. left. reflexivity.
Qed.
Lemma tg_tag0 i j : tg tag0 i j = delta i j.
Proof. unfold tg, tag0. ring. Qed.
Lemma sumn_delta i : i < n -> sumn n (delta i) = 1q.
Proof. intros Hi. rewrite (sumn_single n _ i) by (try exact Hi; intros; apply delta_neq; congruence). apply delta_refl. Qed.
Lemma ind_sum b r : r < n -> sumn n (fun j => ind (b && Nat.eqb j r)) = ind b.
Proof.
  intros Hr. rewrite (sumn_single n _ r); [|exact Hr|].
  - rewrite Nat.eqb_refl, andb_true_r. reflexivity.
  - intros j Hj Hne. destruct (Nat.eqb_spec j r); [contradiction|]. rewrite andb_false_r. reflexivity.
Qed.
Lemma tg_row t i : good_tag t -> i < n -> sumn n (tg t i) = 1q.
Proof.
  destruct t as [[[r s] u] v]. intros [E|(H & _)] Hi.
  - rewrite E. rewrite (sumn_ext n _ (delta i)) by (intros; apply tg_tag0). apply sumn_delta, Hi.
  - unfold tg. rewrite !sumn_plus, !sumn_mul_l, !sumn_minus, !ind_sum, sumn_delta by lia. ring.
Qed.
Lemma tg_balanced t i j : good_tag t -> (vget d i * tg t i j)%Qc = (vget d j * tg t j i)%Qc.
Proof.
  destruct t as [[[r s] u] v]. intros [E|(H & _ & _ & B)].
  - rewrite E, !tg_tag0. unfold delta. destruct (Nat.eqb_spec i j) as [->|N]; [rewrite Nat.eqb_refl; reflexivity|]. destruct (Nat.eqb_spec j i); [congruence|]. ring.
  - unfold tg, delta, ind. destruct (Nat.eqb_spec i j) as [->|N]; [rewrite Nat.eqb_refl; ring|]. destruct (Nat.eqb_spec j i); [congruence|].
    destruct (Nat.eqb_spec i r), (Nat.eqb_spec i s), (Nat.eqb_spec j r), (Nat.eqb_spec j s); subst; try lia; cbn [andb];
      first [ ring | transitivity (vget d r * u)%Qc; [ring|rewrite B; ring] | transitivity (vget d s * v)%Qc; [ring|rewrite <- B; ring] ].
Qed.
Lemma tg_off t i j : good_tag t -> i <> j -> (0 <= tg t i j)%Qc.
Proof.
  destruct t as [[[r s] u] v]. intros [E|(H & Hu & Hv & _)] N.
  - rewrite E, tg_tag0, delta_neq by exact N. discriminate.
  - unfold tg, ind. rewrite delta_neq by exact N. destruct (Nat.eqb_spec i r), (Nat.eqb_spec i s), (Nat.eqb_spec j r), (Nat.eqb_spec j s); subst; try lia; cbn [andb]; qclra.
Qed.

Lemma vdot_sum k u v : length u = k -> vdot u v = sumn k (fun i => vget u i * vget v i)%Qc.
Proof. intros <-. reflexivity. Qed.
Lemma ineq_iff x : length x = m -> (forall v, In v (cr_ineq (cr_a n m d) x) -> (0 <= v)%Qc) <->
  (forall k, k < m - 1 -> (0 <= vget x k)%Qc) /\ (forall i, i < n -> (0 <= comb x i i)%Qc).
Proof using Ld.
  intros Lx. unfold cr_ineq, cr_a. rewrite map_app.
  assert (R1 : forall k, k < m - 1 -> (0 - vdot (tab m (fun j => if Nat.eqb k j then - (1) else 0)%Qc) x)%Qc = vget x k).
  { intros k Hk. rewrite (vdot_sum m) by apply tab_length. rewrite (sumn_single m _ k).
    - rewrite vget_tab by lia. rewrite Nat.eqb_refl. ring.
    - lia.
    - intros i Hi Hne. rewrite vget_tab by exact Hi. destruct (Nat.eqb_spec k i); [congruence|]. ring. }
  assert (R2 : forall i, i < n -> (0 - vdot (flat_map (cr_cells d i) (cr_pairs n) ++ [(- (1))%Qc]) x)%Qc = comb x i i).
  { intros i Hi. rewrite cells_tags by exact Hi. fold T. rewrite (vdot_sum (length T)) by apply map_length. unfold comb.
    transitivity (0 - sumn (length T) (fun k => (- (1)) * (vget x k * tg (nth k T tag0) i i)))%Qc; [|rewrite sumn_mul_l; ring]. f_equal.
    apply sumn_ext. intros k Hk. unfold vget at 1. rewrite (nth_indep _ 0q (- tg tag0 i i)%Qc) by (rewrite map_length; exact Hk).
    rewrite (map_nth (fun t => (- tg t i i)%Qc)). ring. }
  split.
  - intros H. split.
    + intros k Hk. rewrite <- R1 by exact Hk. apply H, in_app_iff. left. apply in_map_iff. eexists. split; [reflexivity|]. apply in_tab. eauto.
    + intros i Hi. rewrite <- R2 by exact Hi. apply H, in_app_iff. right. apply in_map_iff. eexists. split; [reflexivity|]. apply in_tab. eauto.
  - intros [H1 H2] v Hv. apply in_app_iff in Hv. destruct Hv as [Hv|Hv]; apply in_map_iff in Hv; destruct Hv as (row & <- & Hr); apply in_tab in Hr; destruct Hr as (k & Hk & ->).
    + rewrite R1 by exact Hk. apply H1, Hk.
    + rewrite R2 by exact Hk. apply H2, Hk.
Qed.
Lemma eq_iff x : length x = m -> cr_eq x = 0q <-> sumn m (vget x) = 1q.
Proof.
  intros Lx. unfold cr_eq. rewrite lsum_nth, Lx. fold (vget x). change (fun i => nth i x 0q) with (vget x). split; intros H.
  - transitivity (sumn m (vget x) - 1 + 1)%Qc; [ring|]. rewrite H. ring.
  - rewrite H. ring.
Qed.

Lemma comb_row x i : i < n -> sumn n (comb x i) = sumn (length T) (vget x).
Proof using Ld Pd.
  intros Hi. unfold comb. rewrite sumn_swap. apply sumn_ext. intros k Hk. rewrite sumn_mul_l, (tg_row (nth k T tag0) i (nth_good k) Hi). ring.
Qed.
Lemma comb_balanced x i j : (vget d i * comb x i j)%Qc = (vget d j * comb x j i)%Qc.
Proof using Ld Pd.
  unfold comb. rewrite <- !sumn_mul_l. apply sumn_ext. intros k Hk.
  transitivity (vget x k * (vget d i * tg (nth k T tag0) i j))%Qc; [ring|]. rewrite (tg_balanced _ i j (nth_good k)). ring.
Qed.
Lemma T_last : nth (m - 1) T tag0 = tag0.
Proof using Ld.
  rewrite <- T_length. unfold T, alltags. rewrite app_length. cbn [length]. rewrite app_nth2 by lia.
  replace (_ - _) with 0 by lia. reflexivity.
Qed.
Lemma comb_off x i j : (forall k, k < m - 1 -> (0 <= vget x k)%Qc) -> i <> j -> (0 <= comb x i j)%Qc.
Proof using Ld Pd.
  intros H N. unfold comb. rewrite T_length. apply sumn_nonneg. intros k Hk. destruct (Nat.eq_dec k (m - 1)) as [->|Ne].
  - rewrite T_last, tg_tag0, delta_neq by exact N. qclra.
  - apply Qc_mul_nonneg; [apply H; lia|]. apply tg_off; [apply nth_good|exact N].
Qed.

Theorem point_reversible x : 0 < n -> qp_point m (cr_a n m d) x -> reversible_for n d (mk n n (comb x)) /\ cr_combine n m (cr_basis n d) x = Ok (mk n n (comb x)).
Proof using Ld Pd.
  intros Hn (Lx & E & I). apply (eq_iff x Lx) in E. apply (ineq_iff x Lx) in I. destruct I as [I1 I2].
  assert (S : stochastic n (mk n n (comb x))).
  { split; [apply wf_mk|]. split.
    - intros i j Hi Hj. rewrite mget_mk by assumption. destruct (Nat.eq_dec i j) as [->|N]; [apply I2, Hj|apply comb_off; assumption].
    - intros i Hi. rewrite (sumn_ext n _ (comb x i)) by (intros j Hj; apply mget_mk; assumption). rewrite comb_row, T_length by exact Hi. exact E. }
  split; [split; [exact S|]|].
  - intros i j Hi Hj. rewrite !mget_mk by assumption. apply comb_balanced.
  - unfold cr_combine. rewrite comb_model. destruct S as (W & _ & R).
    rewrite (norm_any_unit n n _ Hn W R), (fill_any_unit n n _ Hn W R).
    replace (forallb _ _) with true; [reflexivity|]. symmetry. apply forallb_forall. intros i Hi. apply in_seq in Hi. apply negb_true_iff, Qceqb_neq.
    rewrite (rowsum_eq n n) by (assumption || lia). rewrite R by lia. discriminate.
Qed.
End Comb.

Lemma pairs_single n (F : nat * nat -> Qc) r s : r < s < n -> (forall p, In p (cr_pairs n) -> p <> (r, s) -> F p = 0q) -> lsum (map F (cr_pairs n)) = F (r, s).
Proof.
  intros H. assert (N : NoDup (cr_pairs n)) by (rewrite cr_pairs_from; apply pairs_nodup). apply in_pairs in H. revert N H.
  induction (cr_pairs n) as [|p l IH]; intros N H Z; [destruct H|]. inversion N; subst. cbn [map lsum fold_right]. fold (lsum (map F l)).
  destruct H as [->|H].
  - rewrite (lsum_map_0 F l); [ring|]. intros p Hp. apply Z; [right; exact Hp|]. intros ->. contradiction.
  - rewrite (Z p), IH; try assumption; [ring| |left; reflexivity|].
    + intros q Hq. apply Z. right; exact Hq.
    + intros ->. contradiction.
Qed.

(** ** Every reversible chain is a combination *)
Section Complete.
Variables (n : nat) (d : vec) (Q : mat).
Hypothesis (Ld : length d = n) (Pd : forall i, i < n -> (0 <= vget d i)%Qc) (Hn : 0 < n) (HQ : reversible_for n d Q).
Definition share (rs : nat * nat) : list (Qc * tag) :=
  let (r, s) := rs in
  if cr_both_zero d r s then [(mget Q r s, (r, s, 1q, 0q)); (mget Q s r, (r, s, 0q, 1q))]
  else [((if Qceqb (vget d s) 0 then mget Q s r / vget d r else mget Q r s / vget d s)%Qc, (r, s, vget d s, vget d r))].
Definition shares : list (Qc * tag) := flat_map share (cr_pairs n).
Definition zl : list (Qc * tag) := shares ++ [((1 - lsum (map fst shares))%Qc, tag0)].
Definition point : vec := map fst zl.
Lemma zl_tags : map snd zl = alltags n d.
Proof.
  unfold zl, alltags, shares. rewrite map_app. f_equal. symmetry. apply flat_map_map_ext. intros [r s] _. unfold tags, share.
  destruct (cr_both_zero d r s); reflexivity.
Qed.
Lemma point_length : length point = length (alltags n d).
Proof. unfold point. rewrite map_length, <- zl_tags, map_length. reflexivity. Qed.
Lemma point_sum g : sumn (length (alltags n d)) (fun k => vget point k * g (nth k (alltags n d) tag0))%Qc = lsum (map (fun z => fst z * g (snd z))%Qc zl).
Proof.
  rewrite lsum_nth, map_length. rewrite <- zl_tags at 1. rewrite map_length. apply sumn_ext. intros k Hk.
  unfold vget, point. rewrite <- zl_tags.
  rewrite (nth_indep (map fst zl) 0q (fst (0q, tag0))) by (rewrite map_length; exact Hk).
  rewrite (map_nth fst). change tag0 with (snd (0q, tag0)) at 2. rewrite (map_nth snd).
  rewrite (nth_indep (map _ zl) 0q ((fun z => (fst z * g (snd z))%Qc) (0q, tag0))) by (rewrite map_length; exact Hk).
  rewrite (map_nth (fun z => (fst z * g (snd z))%Qc)). reflexivity.
Qed.
Lemma point_total : sumn (length (alltags n d)) (vget point) = 1q.
Proof.
  rewrite (sumn_ext _ _ (fun k => vget point k * (fun _ => 1q) (nth k (alltags n d) tag0))%Qc) by (intros; ring).
  rewrite (point_sum (fun _ => 1q)). unfold zl. rewrite map_app, lsum_app. cbn [map lsum fold_right fst snd].
  rewrite (lsum_map_ext (fun z => fst z * 1)%Qc fst) by (intros; ring). ring.
Qed.
(** what a pair adds to the cell (i, j) off the diagonal *)
Lemma share_cell r s i j : r < s < n -> i <> j ->
  lsum (map (fun z => fst z * tg (snd z) i j)%Qc (share (r, s)))
  = (ind (Nat.eqb i r && Nat.eqb j s) * mget Q r s + ind (Nat.eqb i s && Nat.eqb j r) * mget Q s r)%Qc.
Proof using Ld Pd HQ.
  clear Hn.
  intros H N. destruct HQ as [_ B]. unfold share, cr_both_zero.
  assert (Brs : (vget d r * mget Q r s)%Qc = (vget d s * mget Q s r)%Qc) by (apply B; lia).
  destruct (Qceqb (vget d r) 0) eqn:Zr; destruct (Qceqb (vget d s) 0) eqn:Zs; cbn [andb map lsum fold_right fst snd tg]; rewrite delta_neq by exact N.
  - unfold ind. destruct (Nat.eqb_spec i r), (Nat.eqb_spec i s), (Nat.eqb_spec j r), (Nat.eqb_spec j s); subst; try lia; cbn [andb]; ring.
  - apply Qceqb_eq in Zr. apply Qceqb_neq in Zs. rewrite Zr in *.
    assert (Z : mget Q s r = 0q) by (replace (mget Q s r) with (vget d s * mget Q s r / vget d s)%Qc by (field; exact Zs); rewrite <- Brs; field; exact Zs).
    rewrite Z. unfold ind. destruct (Nat.eqb_spec i r), (Nat.eqb_spec i s), (Nat.eqb_spec j r), (Nat.eqb_spec j s); subst; try lia; cbn [andb]; field; exact Zs.
  - apply Qceqb_neq in Zr. apply Qceqb_eq in Zs. rewrite Zs in *.
    assert (Z : mget Q r s = 0q) by (replace (mget Q r s) with (vget d r * mget Q r s / vget d r)%Qc by (field; exact Zr); rewrite Brs; field; exact Zr).
    rewrite Z. unfold ind. destruct (Nat.eqb_spec i r), (Nat.eqb_spec i s), (Nat.eqb_spec j r), (Nat.eqb_spec j s); subst; try lia; cbn [andb]; field; exact Zr.
  - apply Qceqb_neq in Zr. apply Qceqb_neq in Zs.
    assert (Z : mget Q s r = (vget d r * mget Q r s / vget d s)%Qc) by (rewrite Brs; field; exact Zs).
    rewrite Z. unfold ind. destruct (Nat.eqb_spec i r), (Nat.eqb_spec i s), (Nat.eqb_spec j r), (Nat.eqb_spec j s); subst; try lia; cbn [andb]; field; exact Zs.
Qed.
Lemma point_off i j : i < n -> j < n -> i <> j -> comb n d point i j = mget Q i j.
Proof using Ld Pd HQ.
  clear Hn.
  intros Hi Hj N. unfold comb. rewrite (point_sum (fun t => tg t i j)). unfold zl. rewrite map_app, lsum_app. cbn [map lsum fold_right fst snd].
  rewrite tg_tag0, delta_neq by exact N. unfold shares. rewrite lsum_flat_map.
  rewrite (lsum_map_ext _ (fun rs => ind (Nat.eqb i (fst rs) && Nat.eqb j (snd rs)) * mget Q (fst rs) (snd rs) + ind (Nat.eqb i (snd rs) && Nat.eqb j (fst rs)) * mget Q (snd rs) (fst rs))%Qc).
  2:{ intros [r s] H. apply in_pairs in H. apply share_cell; assumption. }
  destruct (Nat.lt_ge_cases i j) as [L|L].
  - rewrite (pairs_single n _ i j) by (try lia; intros [r s] Hp Hne; apply in_pairs in Hp; cbn [fst snd]; unfold ind;
      destruct (Nat.eqb_spec i r), (Nat.eqb_spec i s), (Nat.eqb_spec j r), (Nat.eqb_spec j s); subst; try lia; try (exfalso; apply Hne; reflexivity); cbn [andb]; ring).
    cbn [fst snd]. rewrite !Nat.eqb_refl. destruct (Nat.eqb_spec i j); [lia|]. unfold ind. cbn [andb]. ring.
  - rewrite (pairs_single n _ j i) by (try lia; intros [r s] Hp Hne; apply in_pairs in Hp; cbn [fst snd]; unfold ind;
      destruct (Nat.eqb_spec i r), (Nat.eqb_spec i s), (Nat.eqb_spec j r), (Nat.eqb_spec j s); subst; try lia; try (exfalso; apply Hne; reflexivity); cbn [andb]; ring).
    cbn [fst snd]. rewrite !Nat.eqb_refl. destruct (Nat.eqb_spec i j); [lia|]. unfold ind. cbn [andb]. ring.
Qed.
Lemma sumn_pick k f g i : i < k -> (forall j, j < k -> j <> i -> f j = g j) -> sumn k f = sumn k g -> f i = g i.
Proof.
  intros Hi E S0. assert (Z : sumn k (fun j => f j - g j)%Qc = 0q) by (rewrite sumn_minus, S0; ring).
  rewrite (sumn_single k _ i Hi) in Z by (intros j Hj N; rewrite (E j Hj N); ring).
  transitivity (f i - g i + g i)%Qc; [ring|]. rewrite Z. ring.
Qed.
Lemma point_comb i j : i < n -> j < n -> comb n d point i j = mget Q i j.
Proof using Ld Pd HQ.
  clear Hn.
  intros Hi Hj. destruct (Nat.eq_dec i j) as [->|N]; [|apply point_off; assumption].
  apply (sumn_pick n (comb n d point j) (fun l => mget Q j l) j Hj).
  - intros l Hl N. apply point_off; congruence.
  - rewrite (comb_row n d Ld Pd point j Hj), point_total. symmetry. apply HQ, Hj.
Qed.
Lemma in_zl_nonneg z : In z shares -> (0 <= fst z)%Qc.
Proof using Ld Pd HQ.
  clear Hn.
  destruct HQ as [(_ & P & _) _]. unfold shares. intros H. apply in_flat_map in H. destruct H as ([r s] & H & Hz). apply in_pairs in H. unfold share in Hz.
  destruct (cr_both_zero d r s) eqn:Z.
  - destruct Hz as [<-|[<-|[]]]; apply P; lia.
  - destruct Hz as [<-|[]]. cbn [fst]. destruct (Qceqb (vget d s) 0) eqn:Zs.
    + unfold cr_both_zero in Z. rewrite Zs, andb_true_r in Z. apply Qceqb_neq in Z. apply Qc_div_nonneg; [apply P; lia|].
      assert (0 <= vget d r)%Qc by (apply Pd; lia). apply Qcle_lt_or_eq in H0. destruct H0 as [|E]; [assumption|]. symmetry in E. contradiction.
    + apply Qceqb_neq in Zs. apply Qc_div_nonneg; [apply P; lia|].
      assert (0 <= vget d s)%Qc by (apply Pd; lia). apply Qcle_lt_or_eq in H0. destruct H0 as [|E]; [assumption|]. symmetry in E. contradiction.
Qed.
Theorem reversible_point : let m := cr_m n (cr_zeros d) in qp_point m (cr_a n m d) point /\ mk n n (comb n d point) = Q.
Proof using Ld Pd Hn HQ.
  cbv zeta. assert (Lp : length point = cr_m n (cr_zeros d)) by (rewrite point_length; apply alltags_length, Ld). split.
  - split; [exact Lp|]. split.
    + apply (eq_iff n d point Lp). rewrite <- (alltags_length n d Ld). apply point_total.
    + apply (ineq_iff n d Ld point Lp). split.
      * intros k Hk. unfold vget, point, zl. rewrite map_app. rewrite app_nth1.
        2:{ rewrite map_length. rewrite <- Lp in Hk. unfold point, zl in Hk. rewrite map_length, app_length in Hk. cbn [length] in Hk. lia. }
        destruct (Nat.lt_ge_cases k (length shares)) as [H|H].
        -- rewrite (nth_indep _ 0q (fst (0q, tag0))) by (rewrite map_length; exact H). rewrite (map_nth fst). apply in_zl_nonneg, nth_In, H.
        -- rewrite nth_overflow by (rewrite map_length; exact H). discriminate.
      * intros i Hi. rewrite point_comb by assumption. destruct HQ as [(_ & P & _) _]. apply P; assumption.
  - destruct HQ as [(W & _) _]. transitivity (mk n n (mget Q)); [|apply mk_mget, W]. apply mk_ext. intros i j Hi Hj. apply point_comb; assumption.
Qed.
End Complete.

(** ** The objective *)
Section Objective.
Variables (n : nat) (w : nat -> nat -> Qc).
Definition ip (A B : nat -> nat -> Qc) : Qc := sumn n (fun r => sumn n (fun s => w r s * (A r s * B r s))%Qc).
Lemma ip_ext A A' B B' : (forall r s, r < n -> s < n -> A r s = A' r s) -> (forall r s, r < n -> s < n -> B r s = B' r s) -> ip A B = ip A' B'.
Proof. intros H1 H2. unfold ip. apply sumn_ext. intros r Hr. apply sumn_ext. intros s Hs. rewrite H1, H2 by assumption. reflexivity. Qed.
Lemma ip_sym A B : ip A B = ip B A.
Proof. unfold ip. apply sumn_ext. intros r Hr. apply sumn_ext. intros s Hs. ring. Qed.
Lemma ip_lin k x (A : nat -> nat -> nat -> Qc) B : ip (fun r s => sumn k (fun l => x l * A l r s)%Qc) B = sumn k (fun l => x l * ip (A l) B)%Qc.
Proof.
  unfold ip. rewrite (sumn_ext k _ (fun l => sumn n (fun r => sumn n (fun s => x l * (w r s * (A l r s * B r s)))))%Qc).
  2:{ intros l Hl. rewrite <- sumn_mul_l. apply sumn_ext. intros r Hr. rewrite <- sumn_mul_l. reflexivity. }
  rewrite (sumn_swap k n). apply sumn_ext. intros r Hr. rewrite (sumn_swap k n). apply sumn_ext. intros s Hs.
  transitivity ((w r s * B r s) * sumn k (fun l => x l * A l r s))%Qc; [ring|]. rewrite <- sumn_mul_l. apply sumn_ext. intros l Hl. ring.
Qed.
Lemma ip_dist A B : sumn n (fun i => sumn n (fun j => (w i j * ((A i j - B i j) * (A i j - B i j)))%Qc)) = (ip A A - (1 + 1) * ip A B + ip B B)%Qc.
Proof.
  unfold ip. rewrite <- sumn_mul_l, <- sumn_minus, <- sumn_plus. apply sumn_ext. intros i Hi.
  rewrite <- sumn_mul_l, <- sumn_minus, <- sumn_plus. apply sumn_ext. intros j Hj. ring.
Qed.
End Objective.

Lemma trace_tl n A B : 0 < n -> wf n n A -> wf n n B -> trace (mmul (transpose A) B) = sumn n (fun r => sumn n (fun s => mget A r s * mget B r s)%Qc).
Proof.
  intros Hn HA HB. assert (HT : wf n n (transpose A)) by (unfold transpose; rewrite (wf_nrows _ _ _ HA), (wf_ncols _ _ _ HA Hn); apply wf_mk).
  unfold trace. assert (HM : wf n n (mmul (transpose A) B)) by (apply (wf_mmul n n n); assumption). rewrite (wf_nrows _ _ _ HM).
  rewrite sumn_swap. apply sumn_ext. intros i Hi. rewrite (mget_mmul n n n) by assumption. apply sumn_ext. intros j Hj.
  rewrite (mget_transpose n n) by assumption. reflexivity.
Qed.
Lemma trace_tr n A B : 0 < n -> wf n n A -> wf n n B -> trace (mmul A (transpose B)) = sumn n (fun r => sumn n (fun s => mget A r s * mget B r s)%Qc).
Proof.
  intros Hn HA HB. assert (HT : wf n n (transpose B)) by (unfold transpose; rewrite (wf_nrows _ _ _ HB), (wf_ncols _ _ _ HB Hn); apply wf_mk).
  unfold trace. assert (HM : wf n n (mmul A (transpose B))) by (apply (wf_mmul n n n); assumption). rewrite (wf_nrows _ _ _ HM).
  apply sumn_ext. intros i Hi. rewrite (mget_mmul n n n) by assumption. apply sumn_ext. intros j Hj.
  rewrite (mget_transpose n n) by assumption. reflexivity.
Qed.

Lemma diag_inverse n d : 0 < n -> length d = n -> (forall i, i < n -> vget d i <> 0q) ->
  exists di, minv (diag d) = Some di /\ wf n n di /\ forall i j, i < n -> j < n -> mget di i j = (delta i j / vget d i)%Qc.
Proof.
  intros Hn L NZ. assert (HD : wf n n (diag d)) by (unfold diag; rewrite L; apply wf_mk).
  assert (G : forall i j, i < n -> j < n -> mget (diag d) i j = (if Nat.eqb i j then vget d i else 0q)) by (intros i j Hi Hj; unfold diag; rewrite L, mget_mk by assumption; reflexivity).
  assert (D : forall i (x : nat -> Qc), i < n -> sumn n (fun j => mget (diag d) i j * x j)%Qc = (vget d i * x i)%Qc).
  { intros i x Hi. rewrite (sumn_single n _ i Hi).
    - rewrite G, Nat.eqb_refl by assumption. reflexivity.
    - intros j Hj N. rewrite G by assumption. destruct (Nat.eqb_spec i j); [congruence|]. ring. }
  assert (NS : nonsingular n (diag d)).
  { intros x Hx j Hj. specialize (Hx j Hj). rewrite (D j x Hj) in Hx. replace (x j) with (vget d j * x j / vget d j)%Qc by (field; apply NZ, Hj). rewrite Hx. field. apply NZ, Hj. }
  destruct (minv_complete n (diag d) Hn HD NS) as [di E]. exists di. destruct (minv_spec n _ _ Hn HD E) as (W & _ & M & _).
  split; [exact E|]. split; [exact W|]. intros i j Hi Hj.
  assert (F : mget (mmul (diag d) di) i j = delta i j) by (rewrite M; unfold eye; apply mget_mk; assumption).
  rewrite (mget_mmul n n n) in F by assumption. rewrite (D i (fun l => mget di l j) Hi) in F.
  rewrite <- F. field. apply NZ, Hi.
Qed.
Lemma cr_z_spec n d weighted : 0 < n -> weights_for weighted n d ->
  exists z, cr_z d weighted = Ok z /\ forall b, wf n n b -> wf n n (z b) /\ forall i j, i < n -> j < n -> mget (z b) i j = (cell_weight weighted d i j * mget b i j)%Qc.
Proof.
  intros Hn (L & P & NZ). destruct weighted; cbn [cr_z].
  - destruct (diag_inverse n d Hn L (NZ eq_refl)) as (di & E & W & G). unfold cr_z. rewrite E. eexists. split; [reflexivity|]. intros b Hb.
    assert (HD : wf n n (diag d)) by (unfold diag; rewrite L; apply wf_mk).
    assert (H1 : wf n n (mmul (diag d) b)) by (apply (wf_mmul n n n); assumption). split; [apply (wf_mmul n n n); assumption|].
    intros i j Hi Hj. rewrite (mget_mmul n n n) by assumption. rewrite (sumn_single n _ j Hj).
    + rewrite (mget_mmul n n n) by assumption. rewrite (sumn_single n _ i Hi).
      * rewrite G, delta_refl by assumption. unfold diag. rewrite L, mget_mk, Nat.eqb_refl by assumption. unfold cell_weight. field. apply NZ; auto.
      * intros k Hk N. unfold diag. rewrite L, mget_mk by assumption. destruct (Nat.eqb_spec i k); [congruence|]. ring.
    + intros k Hk N. rewrite G, delta_neq by assumption. unfold Qcdiv. ring.
  - eexists. split; [reflexivity|]. intros b Hb. split; [exact Hb|]. intros i j Hi Hj. unfold cell_weight. ring.
Qed.

(** ** The problem and the distance *)
Section Problem.
Variables (n : nat) (d : vec) (weighted : bool) (P : mat).
Hypothesis (Hn : 0 < n) (Wd : weights_for weighted n d) (HP : wf n n P).
Let m := cr_m n (cr_zeros d).
Let T := alltags n d.
Let w := cell_weight weighted d.
Let B (k : nat) := tg (nth k T tag0).
Variable z : mat -> mat.
Hypothesis (Hz : forall b, wf n n b -> wf n n (z b) /\ forall i j, i < n -> j < n -> mget (z b) i j = (w i j * mget b i j)%Qc).
Lemma f_get k : k < m -> vget (cr_f m (cr_basis n d) z weighted P) k = ((- (1 + 1)) * ip n w (B k) (mget P))%Qc.
Proof using Hn Wd HP Hz.
  intros Hk. destruct Wd as (Ld & _). unfold cr_f. rewrite vget_tab by exact Hk. cbv zeta. rewrite (nth_basis n d Ld k Hk). fold T. fold (B k).
  assert (HB : wf n n (mk n n (B k))) by apply wf_mk. destruct (Hz _ HB) as [Wz Gz]. f_equal. destruct weighted eqn:Ew.
  - rewrite (trace_tr n) by assumption. unfold ip. apply sumn_ext. intros r Hr. apply sumn_ext. intros s Hs. rewrite Gz, mget_mk by assumption. ring.
  - rewrite (trace_tl n) by assumption. unfold ip. apply sumn_ext. intros r Hr. apply sumn_ext. intros s Hs. rewrite mget_mk by assumption. unfold w, cell_weight. ring.
Qed.
Lemma h_get k l : k < m -> l < m -> mget (cr_h m (cr_basis n d) z) k l = ((1 + 1) * ip n w (B k) (B l))%Qc.
Proof using Hn Wd Hz.
  intros Hk Hl. destruct Wd as (Ld & _). unfold cr_h. rewrite mget_mk by assumption. unfold cr_tau.
  assert (G : forall a b, a < m -> b < m -> trace (mmul (transpose (z (nth a (cr_basis n d) []))) (nth b (cr_basis n d) [])) = ip n w (B a) (B b)).
  { intros a b Ha Hb. rewrite (nth_basis n d Ld a Ha), (nth_basis n d Ld b Hb). fold T. fold (B a). fold (B b).
    assert (HB : wf n n (mk n n (B a))) by apply wf_mk. destruct (Hz _ HB) as [Wz Gz]. rewrite (trace_tl n) by (try assumption; apply wf_mk).
    unfold ip. apply sumn_ext. intros r Hr. apply sumn_ext. intros s Hs. rewrite Gz, !mget_mk by assumption. ring. }
  rewrite G by lia. f_equal. destruct (Nat.max_spec k l) as [[H ->]|[H ->]]; destruct (Nat.min_spec k l) as [[H' ->]|[H' ->]]; try lia; first [apply ip_sym|reflexivity|idtac].
Qed.
Lemma m_pos : 0 < m.
Proof. unfold m, cr_m. lia. Qed.
Lemma h_wf : wf m m (cr_h m (cr_basis n d) z).
Proof. apply wf_mk. Qed.
Lemma f_length : length (cr_f m (cr_basis n d) z weighted P) = m.
Proof. apply tab_length. Qed.
Lemma ip_comb x C : ip n w (comb n d x) C = sumn m (fun k => vget x k * ip n w (B k) C)%Qc.
Proof using Wd. destruct Wd as (Ld & _). unfold comb. fold T. rewrite (ip_lin n w (length T) (vget x) (fun k => tg (nth k T tag0)) C). unfold T at 1. rewrite (alltags_length n d Ld). reflexivity. Qed.
Lemma hx_get x k : k < m -> vget (mvmul (cr_h m (cr_basis n d) z) x) k = ((1 + 1) * ip n w (B k) (comb n d x))%Qc.
Proof using Hn Wd Hz.
  intros Hk. unfold mvmul. rewrite (wf_nrows _ _ _ h_wf), (wf_ncols _ _ _ h_wf m_pos), vget_tab by exact Hk.
  rewrite ip_sym, ip_comb, <- sumn_mul_l. apply sumn_ext. intros l Hl. rewrite (h_get k l Hk Hl), (ip_sym n w (B k)). ring.
Qed.
Lemma objective_ip x : length x = m -> cr_objective (cr_h m (cr_basis n d) z) (cr_f m (cr_basis n d) z weighted P) x
  = (ip n w (comb n d x) (comb n d x) - (1 + 1) * ip n w (comb n d x) (mget P))%Qc.
Proof using Hn Wd HP Hz.
  intros Lx. unfold cr_objective, vdot. rewrite f_length, Lx.
  rewrite (sumn_ext m (fun i => vget x i * vget (mvmul _ x) i)%Qc (fun i => (1 + 1) * (vget x i * ip n w (B i) (comb n d x)))%Qc) by (intros k Hk; rewrite (hx_get x k Hk); ring).
  rewrite (sumn_ext m (fun i => vget (cr_f _ _ _ _ _) i * vget x i)%Qc (fun i => (- (1 + 1)) * (vget x i * ip n w (B i) (mget P)))%Qc) by (intros k Hk; rewrite (f_get k Hk); ring).
  rewrite !sumn_mul_l, <- !ip_comb. field. discriminate.
Qed.
Lemma dist2_ip A : dist2 weighted n d (mk n n A) P = (ip n w A A - (1 + 1) * ip n w A (mget P) + ip n w (mget P) (mget P))%Qc.
Proof.
  rewrite <- ip_dist. unfold dist2. apply sumn_ext. intros i Hi. apply sumn_ext. intros j Hj. rewrite mget_mk by assumption. reflexivity.
Qed.
Lemma objective_dist x : length x = m -> cr_objective (cr_h m (cr_basis n d) z) (cr_f m (cr_basis n d) z weighted P) x
  = (dist2 weighted n d (mk n n (comb n d x)) P - ip n w (mget P) (mget P))%Qc.
Proof using Hn Wd HP Hz. intros Lx. rewrite (objective_ip x Lx), dist2_ip. ring. Qed.
(** the gradient *)
Lemma gradient x e : length x = m -> length e = m ->
  let h := cr_h m (cr_basis n d) z in let f := cr_f m (cr_basis n d) z weighted P in
  cr_objective h f (tab m (fun k => vget x k + vget e k)%Qc) = (cr_objective h f x + vdot (cr_jacobian h f x) e + 1 / (1 + 1) * vdot e (mvmul h e))%Qc.
Proof using Hn Wd HP Hz.
  intros Lx Le h f. set (y := tab m (fun k => vget x k + vget e k)%Qc).
  assert (J : vdot (cr_jacobian h f x) e = ((1 + 1) * ip n w (comb n d e) (comb n d x) - (1 + 1) * ip n w (comb n d e) (mget P))%Qc).
  { unfold vdot, cr_jacobian. rewrite tab_length. unfold f. rewrite f_length.
    rewrite (sumn_ext m _ (fun k => (1 + 1) * (vget e k * ip n w (B k) (comb n d x)) - (1 + 1) * (vget e k * ip n w (B k) (mget P)))%Qc).
    - rewrite sumn_minus, !sumn_mul_l, <- !ip_comb. reflexivity.
    - intros k Hk. rewrite vget_tab by exact Hk. rewrite (f_get k Hk). unfold vmul, h. rewrite (wf_nrows _ _ _ h_wf), (wf_ncols _ _ _ h_wf m_pos), vget_tab by exact Hk.
      rewrite (sumn_ext m _ (fun l => (1 + 1) * (vget x l * ip n w (B l) (B k)))%Qc) by (intros l Hl; rewrite (h_get l k Hl Hk); ring).
      rewrite sumn_mul_l, <- ip_comb, (ip_sym n w (comb n d x)). ring. }
  rewrite J. unfold h, f. rewrite (objective_ip y), (objective_ip x) by (try exact Lx; apply tab_length).
  unfold vdot. rewrite Le. rewrite (sumn_ext m (fun i => vget e i * vget (mvmul _ e) i)%Qc (fun i => (1 + 1) * (vget e i * ip n w (B i) (comb n d e)))%Qc) by (intros k Hk; rewrite (hx_get e k Hk); ring).
  rewrite sumn_mul_l, <- ip_comb.
  assert (A : forall C, ip n w (comb n d y) C = (ip n w (comb n d x) C + ip n w (comb n d e) C)%Qc).
  { intros C. rewrite !ip_comb, <- sumn_plus. apply sumn_ext. intros k Hk. unfold y. rewrite vget_tab by exact Hk. ring. }
  rewrite !A, !(ip_sym n w _ (comb n d y)), !A, (ip_sym n w (comb n d x) (comb n d e)). field. discriminate.
Qed.
(** solutions of the problem are the closest chains *)
Lemma best_closest x : let h := cr_h m (cr_basis n d) z in let f := cr_f m (cr_basis n d) z weighted P in
  qp_best h f (cr_a n m d) x -> closest_for weighted n d P (mk n n (comb n d x)) /\ cr_combine n m (cr_basis n d) x = Ok (mk n n (comb n d x)).
Proof using Hn Wd HP Hz.
  intros h f [Px Bx]. assert (Lf : length f = m) by apply f_length. rewrite Lf in *. destruct Wd as (Ld & Pd & _).
  destruct (point_reversible n d Ld Pd x Hn Px) as [R C]. split; [|exact C]. split; [exact R|]. intros Q' RQ.
  destruct (reversible_point n d Q' Ld Pd Hn RQ) as [PQ EQ]. cbv zeta in PQ. specialize (Bx _ PQ). unfold h, f in Bx.
  rewrite (objective_dist x), (objective_dist (point n d Q')), EQ in Bx; [|apply PQ|apply Px]. qclra.
Qed.
Lemma closest_best Q : closest_for weighted n d P Q -> let h := cr_h m (cr_basis n d) z in let f := cr_f m (cr_basis n d) z weighted P in
  exists x, qp_best h f (cr_a n m d) x /\ mk n n (comb n d x) = Q.
Proof using Hn Wd HP Hz.
  intros [RQ BQ] h f. assert (Lf : length f = m) by apply f_length. pose proof Wd as (Ld & Pd & _). destruct (reversible_point n d Q Ld Pd Hn RQ) as [PQ EQ]. cbv zeta in PQ.
  exists (point n d Q). split; [|exact EQ]. split; [rewrite Lf; exact PQ|]. rewrite Lf. intros y Py.
  destruct (point_reversible n d Ld Pd y Hn Py) as [Ry _]. specialize (BQ _ Ry). unfold h, f.
  rewrite (objective_dist y), (objective_dist (point n d Q)), EQ; [|apply PQ|apply Py]. qclra.
Qed.
End Problem.
