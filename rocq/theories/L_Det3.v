(** L_Det3: the rank of elimination is the size of a basis of the rows. *)
From Verif Require Import S_Det L_Det L_Det2 L_Stationary.
Open Scope nat_scope.

Lemma det_kernel n A : laplace n A = 0q -> exists (z : nat -> Qc) j, j < n /\ z j <> 0q /\ forall i, i < n -> sumn n (fun j => A i j * z j)%Qc = 0q.
Proof.
  intros H. set (M := mk n n A). assert (EM : forall i j, i < n -> j < n -> mget M i j = A i j) by (intros; unfold M; apply mget_mk; assumption).
  assert (U0 : unitcols n M 0) by (intros i k _ Hk; lia). destruct (gj_loop n n M (seq 0 n)) as [M'|] eqn:E.
  - exfalso. destruct (gj_loop_spec n n M n 0 M' (le_n n) ltac:(lia) (wf_mk n n A) E U0) as (_ & HU & HK). apply (proj2 (det_injective n A)); [|exact H]. intros z Hz j Hj.
    assert (HZ : kern n n M z) by (intros i Hi; rewrite <- (Hz i Hi); apply sumn_ext; intros l Hl; rewrite EM by assumption; reflexivity). apply HK in HZ. specialize (HZ j Hj). rewrite <- HZ. symmetry. rewrite <- (sumn_delta_l n j z Hj). apply sumn_ext. intros k Hk. rewrite (unit_full n M' j k HU Hj Hk). reflexivity.
  - destruct (gj_loop_fail n n M n 0 (le_n n) ltac:(lia) E U0) as (z & _ & (j & Hj & Hzj) & Hz). exists z, j. split; [exact Hj|]. split; [exact Hzj|]. intros i Hi. rewrite <- (Hz i Hi). apply sumn_ext. intros l Hl. rewrite EM by assumption. reflexivity.
Qed.
(** fewer equations than unknowns *)
Lemma underdetermined r m (c : nat -> nat -> Qc) : r < m -> exists (x : nat -> Qc) a, a < m /\ x a <> 0q /\ forall b, b < r -> sumn m (fun a => x a * c a b)%Qc = 0q.
Proof.
  intros H. set (T := fun b a => if Nat.ltb b r then c a b else 0q). assert (Z : laplace m T = 0q).
  { rewrite (laplace_ext m T (upd T (m - 1) (fun j => 0 * T (m - 1)%nat j)%Qc)); [rewrite laplace_scale by lia; ring|]. intros i j Hi Hj. unfold upd. destruct (Nat.eqb_spec i (m - 1)) as [->|]; [|reflexivity]. unfold T. destruct (Nat.ltb_spec (m - 1) r); [lia|ring]. }
  destruct (det_kernel m T Z) as (x & a & Ha & Hx & HK). exists x, a. split; [exact Ha|]. split; [exact Hx|]. intros b Hb. rewrite <- (HK b ltac:(lia)). apply sumn_ext. intros j Hj. unfold T. destruct (Nat.ltb_spec b r); [ring|lia].
Qed.
Lemma lsum_map_minus {A} (f g : A -> Qc) l : lsum (map (fun x => f x - g x)%Qc l) = (lsum (map f l) - lsum (map g l))%Qc.
Proof. induction l as [|a l IH]; cbn; [ring|]. fold (lsum (map (fun x => (f x - g x)%Qc) l)). rewrite IH. unfold lsum. ring. Qed.
Lemma rank_spec w : forall n M, wf n w M -> is_rank n w (mget M) (matrix_rank n w M).
Proof.
  induction w as [|w IH]; intros n M HW.
  - exists []. split; [constructor|]. split; [reflexivity|]. split; [intros i []|]. split; [intros x _ i []|]. intros i Hi. exists (fun _ => 0q). intros j Hj. lia.
  - cbn [matrix_rank]. set (r := pivot_row n M). destruct (Qceqb (mget M r 0) 0) eqn:E.
    + apply Qceqb_eq in E. pose proof (pivot_zero n M E) as HZ. destruct (IH n (mk n w (fun i j => mget M i (S j))) (wf_mk _ _ _)) as (l & HD & HL & Hlt & HI & HS). exists l. split; [exact HD|]. split; [exact HL|]. split; [exact Hlt|]. split.
      * intros x Hx. apply HI. intros j Hj. rewrite <- (Hx (S j) ltac:(lia)). apply lsum_map_ext. intros i Hi. rewrite mget_mk by auto. reflexivity.
      * intros i Hi. destruct (HS i Hi) as (y & Hy). exists y. intros [|j] Hj.
        -- rewrite HZ by exact Hi. symmetry. apply lsum_map_0. intros k Hk. rewrite HZ by auto. ring.
        -- specialize (Hy j ltac:(lia)). rewrite mget_mk in Hy by lia. rewrite Hy. apply lsum_map_ext. intros k Hk. rewrite mget_mk by (auto; lia). reflexivity.
    + apply Qceqb_neq in E. assert (Hn : 0 < n). { destruct n as [|n]; [|lia]. exfalso. apply E. destruct HW as [HW _]. destruct M; [|discriminate]. unfold mget. destruct r; reflexivity. }
      destruct (pivot_spec n M Hn) as [Hr _]. fold r in Hr. set (s := fun i => swp 0 r (S i)). set (q := mget M r 0) in *.
      assert (Sr : forall i, s i <> r) by (intros i C; apply (f_equal (swp 0 r)) in C; unfold s in C; rewrite swp_invol, swp_r in C; lia).
      assert (Sinj : forall i k, s i = s k -> i = k) by (intros i k C; apply (f_equal (swp 0 r)) in C; unfold s in C; rewrite !swp_invol in C; lia).
      assert (Slt : forall i, i < n - 1 -> s i < n) by (intros i Hi; unfold s; apply swp_lt; lia).
      assert (Sinv : forall i, pred (swp 0 r (s i)) = i) by (intros i; unfold s; rewrite swp_invol; reflexivity).
      assert (Ssur : forall i, i < n -> i <> r -> exists k, k < n - 1 /\ i = s k).
      { intros i Hi Hne. exists (pred (swp 0 r i)). assert (H : swp 0 r i < n) by (apply swp_lt; lia). assert (H0 : swp 0 r i <> 0) by (intros C; apply (f_equal (swp 0 r)) in C; rewrite swp_invol, swp_l in C; contradiction). split; [lia|]. unfold s. replace (S (pred (swp 0 r i))) with (swp 0 r i) by lia. rewrite swp_invol. reflexivity. }
      destruct (IH (n - 1) (eliminate n (S w) M r)) as (l & HD & HL & Hlt & HI & HS). { unfold eliminate. cbn [Nat.sub]. rewrite Nat.sub_0_r. apply wf_mk. }
      assert (EE : forall i j, i < n - 1 -> j < w -> mget (eliminate n (S w) M r) i j = (mget M (s i) (S j) - mget M (s i) 0 / q * mget M r (S j))%Qc) by (intros i j Hi Hj; unfold eliminate; rewrite mget_mk by lia; reflexivity).
      assert (EL : forall (f : nat -> Qc), lsum (map f (r :: map s l)) = (f r + lsum (map (fun i => f (s i)) l))%Qc) by (intros f; cbn [map]; rewrite map_map; reflexivity).
      exists (r :: map s l). split; [constructor; [intros C; apply in_map_iff in C; destruct C as (k & C & _); exact (Sr k C)|apply FinFun.Injective_map_NoDup; [intros a b; apply Sinj|exact HD]]|].
      split; [cbn [length]; rewrite map_length, HL; reflexivity|]. split; [intros i [<-|C]; [exact Hr|apply in_map_iff in C; destruct C as (k & <- & C); auto]|]. split.
      * intros x Hx. assert (HX : forall j, j < S w -> (x r * mget M r j + lsum (map (fun i => x (s i) * mget M (s i) j)%Qc l) = 0)%Qc) by (intros j Hj; rewrite <- (Hx j Hj), EL; reflexivity).
        assert (HZ : forall i, In i l -> x (s i) = 0q).
        { apply (HI (fun i => x (s i))). intros j Hj. rewrite (lsum_map_ext _ (fun i => x (s i) * mget M (s i) (S j) - x (s i) * mget M (s i) 0%nat * (mget M r (S j) / q))%Qc) by (intros i Hi; rewrite EE by auto; unfold Qcdiv; ring).
          rewrite lsum_map_minus, (lsum_map_mul_r (fun i => x (s i) * mget M (s i) 0%nat)%Qc). pose proof (HX (S j) ltac:(lia)) as H1. pose proof (HX 0 ltac:(lia)) as H2. fold q in H2. set (a := lsum (map (fun i => x (s i) * mget M (s i) (S j))%Qc l)) in *. set (b := lsum (map (fun i => x (s i) * mget M (s i) 0%nat)%Qc l)) in *.
          replace a with (- (x r * mget M r (S j)))%Qc by (replace a with (x r * mget M r (S j) + a - x r * mget M r (S j))%Qc by ring; rewrite H1; ring). replace b with (- (x r * q))%Qc by (replace b with (x r * q + b - x r * q)%Qc by ring; rewrite H2; ring). field. exact E. }
        intros i [<-|Hi]; [|apply in_map_iff in Hi; destruct Hi as (k & <- & Hk); apply HZ; exact Hk]. pose proof (HX 0 ltac:(lia)) as H2. rewrite (lsum_map_0 (fun i => x (s i) * mget M (s i) 0%nat)%Qc) in H2 by (intros i Hi; rewrite HZ by exact Hi; ring). fold q in H2. rewrite Qcplus_0_r in H2. apply Qcmult_integral in H2. destruct H2; [assumption|contradiction].
      * intros i Hi. destruct (Nat.eq_dec i r) as [->|Hne].
        -- exists (fun k => if Nat.eqb k r then 1q else 0q). intros j Hj. rewrite EL, Nat.eqb_refl, (lsum_map_0 _ l); [ring|]. intros k Hk. destruct (Nat.eqb_spec (s k) r) as [C|_]; [exfalso; exact (Sr k C)|ring].
        -- destruct (Ssur i Hi Hne) as (i0 & Hi0 & ->). destruct (HS i0 Hi0) as (y & Hy). set (b := lsum (map (fun k => y k * mget M (s k) 0%nat)%Qc l)).
           exists (fun k => if Nat.eqb k r then ((mget M (s i0) 0%nat - b) / q)%Qc else y (pred (swp 0 r k))). intros j Hj. rewrite EL, Nat.eqb_refl. rewrite (lsum_map_ext _ (fun k => y k * mget M (s k) j)%Qc l).
           2: { intros k Hk. destruct (Nat.eqb_spec (s k) r) as [C|_]; [exfalso; exact (Sr k C)|]. rewrite Sinv. reflexivity. }
           destruct j as [|j]; [fold b q; field; exact E|]. specialize (Hy j ltac:(lia)). rewrite EE in Hy by lia.
           rewrite (lsum_map_ext _ (fun k => y k * mget M (s k) (S j) - y k * mget M (s k) 0%nat * (mget M r (S j) / q))%Qc l) in Hy by (intros k Hk; rewrite EE by (auto; lia); unfold Qcdiv; ring). rewrite lsum_map_minus, (lsum_map_mul_r (fun k => y k * mget M (s k) 0%nat)%Qc) in Hy. fold b in Hy.
           set (a := lsum (map (fun k => y k * mget M (s k) (S j))%Qc l)) in *. replace (mget M (s i0) (S j)) with ((mget M (s i0) (S j) - mget M (s i0) 0%nat / q * mget M r (S j)) + mget M (s i0) 0%nat / q * mget M r (S j))%Qc by ring. rewrite Hy. field. exact E.
Qed.
(** independent rows in the span of others are not more than those *)
Lemma steinitz w A l l' : independent_rows w A l' -> NoDup l' -> (forall i, In i l' -> exists y : nat -> Qc, forall j, j < w -> A i j = lsum (map (fun k => y k * A k j)%Qc l)) -> length l' <= length l.
Proof.
  intros HI HD HS. destruct (Nat.le_gt_cases (length l') (length l)) as [H|H]; [exact H|exfalso].
  assert (HC : exists c : nat -> nat -> Qc, forall a, a < length l' -> forall j, j < w -> A (nth a l' 0) j = sumn (length l) (fun b => c a b * A (nth b l 0%nat) j)%Qc).
  { clear HI HD H. induction l' as [|i l' IH]; [exists (fun _ _ => 0q); intros a Ha; cbn in Ha; lia|]. destruct IH as (c & Hc); [intros k Hk; apply HS; right; exact Hk|]. destruct (HS i (or_introl eq_refl)) as (y & Hy).
    exists (fun a b => match a with 0 => y (nth b l 0%nat) | S a => c a b end). intros [|a] Ha j Hj; cbn [nth]; [rewrite Hy by exact Hj; symmetry; apply (sumn_nth_lsum l (fun k => y k * A k j)%Qc)|]. apply Hc; [cbn in Ha; lia|exact Hj]. }
  destruct HC as (c & Hc). destruct (underdetermined (length l) (length l') c H) as (x & a & Ha & Hx & HZ). apply Hx.
  set (x' := fun i => match index_of Nat.eqb i l' with Some a => x a | None => 0q end).
  assert (Ex : forall a, a < length l' -> x' (nth a l' 0) = x a) by (intros b Hb; unfold x'; rewrite index_of_nat_nth by assumption; reflexivity).
  rewrite <- (Ex a Ha). apply HI; [|apply nth_In; exact Ha]. intros j Hj. rewrite <- (sumn_nth_lsum l' (fun i => x' i * A i j)%Qc).
  transitivity (sumn (length l') (fun a => sumn (length l) (fun b => x a * c a b * A (nth b l 0%nat) j)%Qc)).
  - apply sumn_ext. intros b Hb. rewrite Ex by exact Hb. rewrite (Hc b Hb j Hj), <- sumn_mul_l. apply sumn_ext. intros d Hd. ring.
  - rewrite sumn_swap. apply sumn_0. intros b Hb. rewrite sumn_mul_r, HZ by exact Hb. ring.
Qed.
Lemma rank_unique n w A r r' : is_rank n w A r -> is_rank n w A r' -> r = r'.
Proof.
  intros (l & D1 & L1 & B1 & I1 & S1) (l' & D2 & L2 & B2 & I2 & S2).
  assert (H1 : length l' <= length l) by (apply (steinitz w A); [exact I2|exact D2|]; intros i Hi; apply S1; auto).
  assert (H2 : length l <= length l') by (apply (steinitz w A); [exact I1|exact D1|]; intros i Hi; apply S2; auto). lia.
Qed.
Lemma rank_le_rows n w A r : is_rank n w A r -> r <= n.
Proof. intros (l & D & L & B & _). rewrite <- L, <- (seq_length n 0). apply NoDup_incl_length; [exact D|]. intros i Hi. apply in_seq. specialize (B i Hi). lia. Qed.
Lemma rank_le_columns n w A r : is_rank n w A r -> r <= w.
Proof.
  intros (l & D & L & B & I & _). destruct (Nat.le_gt_cases r w) as [H|H]; [exact H|exfalso]. rewrite <- L in H. destruct (underdetermined w (length l) (fun a j => A (nth a l 0) j) H) as (x & a & Ha & Hx & HZ). apply Hx.
  set (x' := fun i => match index_of Nat.eqb i l with Some a => x a | None => 0q end).
  assert (Ex : forall a, a < length l -> x' (nth a l 0) = x a) by (intros b Hb; unfold x'; rewrite index_of_nat_nth by assumption; reflexivity).
  rewrite <- (Ex a Ha). apply I; [|apply nth_In; exact Ha]. intros j Hj. rewrite <- (sumn_nth_lsum l (fun i => x' i * A i j)%Qc), <- (HZ j Hj). apply sumn_ext. intros b Hb. rewrite Ex by exact Hb. reflexivity.
Qed.
(** ** Full rank *)
Lemma full_rank n w A : is_rank n w A n <-> forall x : nat -> Qc, (forall j, j < w -> sumn n (fun i => x i * A i j)%Qc = 0q) -> forall i, i < n -> x i = 0q.
Proof.
  split.
  - intros (l & D & L & B & I & _) x Hx i Hi.
    assert (HA : forall i, i < n -> In i l). { intros k Hk. apply (NoDup_length_incl D (l' := seq 0 n)); [rewrite seq_length; lia| |apply in_seq; lia]. intros m Hm. apply in_seq. specialize (B m Hm). lia. }
    apply I; [|apply HA; exact Hi]. intros j Hj. rewrite <- (sumn_nth_lsum l (fun i => x i * A i j)%Qc), (sumn_block n l (fun i => x i * A i j)%Qc D B); [apply Hx; exact Hj|]. intros k Hk C. exfalso. apply C, HA, Hk.
  - intros H. exists (seq 0 n). split; [apply seq_NoDup|]. split; [apply seq_length|]. split; [intros i Hi; apply in_seq in Hi; lia|].
    assert (EL : forall f : nat -> Qc, lsum (map f (seq 0 n)) = sumn n f) by (intros f; rewrite <- (sumn_nth_lsum (seq 0 n) f), seq_length; apply sumn_ext; intros k Hk; rewrite seq_nth by exact Hk; reflexivity).
    split.
    + intros x Hx i Hi. apply in_seq in Hi. apply H; [|lia]. intros j Hj. rewrite <- (Hx j Hj). symmetry. apply EL.
    + intros i Hi. exists (fun k => delta i k). intros j Hj. rewrite EL. symmetry. apply (sumn_delta_l n i (fun k => A k j) Hi).
Qed.
Lemma square_full_rank n A : is_rank n n A n <-> laplace n A <> 0q.
Proof.
  rewrite full_rank. destruct (Nat.eq_dec n 0) as [->|Hn]; [split; intros H; [discriminate|intros x _ i Hi; lia]|]. split.
  - intros H C. destruct (det_kernel n A C) as (z & j & Hj & Hz & HK). apply Hz. set (T := fun i j => A j i).
    assert (HT : injective_on n T) by (intros x Hx; apply H; intros k Hk; rewrite <- (Hx k Hk); apply sumn_ext; intros i Hi; unfold T; ring).
    destruct (injective_onto n T ltac:(lia) HT (delta j)) as (x & Hx). transitivity (sumn n (fun k => sumn n (fun i => T k i * x i) * z k)%Qc).
    + symmetry. rewrite <- (sumn_delta_l n j z Hj). apply sumn_ext. intros k Hk. rewrite Hx by exact Hk. reflexivity.
    + transitivity (sumn n (fun k => sumn n (fun i => x i * (A i k * z k))%Qc)); [apply sumn_ext; intros k Hk; rewrite <- sumn_mul_r; apply sumn_ext; intros i Hi; unfold T; ring|]. rewrite sumn_swap. apply sumn_0. intros i Hi. rewrite sumn_mul_l, HK by exact Hi. ring.
  - intros H x Hx i Hi. apply det_injective in H. destruct (injective_onto n A ltac:(lia) H (delta i)) as (z & Hz). transitivity (sumn n (fun k => x k * sumn n (fun j => A k j * z j))%Qc).
    + symmetry. transitivity (sumn n (fun k => delta i k * x k)%Qc); [|apply (sumn_delta_l n i x Hi)]. apply sumn_ext. intros k Hk. rewrite Hz by exact Hk. ring.
    + transitivity (sumn n (fun k => sumn n (fun j => x k * A k j * z j)%Qc)); [apply sumn_ext; intros k Hk; rewrite <- sumn_mul_l; apply sumn_ext; intros j Hj; ring|]. rewrite sumn_swap. apply sumn_0. intros j Hj. rewrite sumn_mul_r, Hx by exact Hj. ring.
Qed.
(** for rows of sum one *)
Lemma full_rank_loses n w A : 0 < n -> (forall i, i < n -> sumn w (A i) = 1q) -> (is_rank n w A n <-> loses_nothing n w A).
Proof.
  intros Hn HS. rewrite full_rank. split.
  - intros H u v _ _ _ _ E i Hi. assert (Z : (u i - v i)%Qc = 0q). { apply (H (fun i => u i - v i)%Qc); [|exact Hi]. intros j Hj. transitivity (sumn n (fun i => u i * A i j - v i * A i j)%Qc); [apply sumn_ext; intros; ring|]. rewrite sumn_minus, E by exact Hj. ring. } qclra.
  - intros H x Hx i Hi. assert (X0 : sumn n x = 0q).
    { transitivity (sumn w (fun j => sumn n (fun i => x i * A i j)%Qc)); [|apply sumn_0; exact Hx]. rewrite sumn_swap. apply sumn_ext. intros k Hk. rewrite sumn_mul_l, HS by exact Hk. ring. }
    destruct (Qc_eq_dec (x i) 0q) as [E|E]; [exact E|exfalso]. set (m := sumn n (fun i => Qcabs (x i))). assert (Hm : (0 < m)%Qc). { apply (sumn_pos n _ i Hi); [|intros; apply Qcabs_nonneg]. destruct (Qcle_lt_or_eq _ _ (Qcabs_nonneg (x i))) as [C|C]; [exact C|]. exfalso. apply E. apply Qcabs_0. symmetry. exact C. }
    assert (HN : (0 < Qcn n)%Qc) by (apply Qcn_pos; exact Hn). assert (HmN : (Qcn n * m)%Qc <> 0q) by (intros C; apply Qcmult_integral in C; destruct C as [C|C]; rewrite C in *; [discriminate HN|discriminate Hm]).
    assert (HN0 : Qcn n <> 0q) by (intros C; rewrite C in HN; discriminate). assert (Hm0 : m <> 0q) by (intros C; rewrite C in Hm; discriminate).
    set (u := fun i => ((m + x i) / (Qcn n * m))%Qc). set (v := fun _ : nat => (1 / Qcn n)%Qc).
    assert (Hb : forall i, i < n -> (- m <= x i)%Qc). { intros k Hk. assert (Hle : (Qcabs (x k) <= m)%Qc) by (apply (sumn_term_le n (fun i => Qcabs (x i)) k Hk); intros; apply Qcabs_nonneg). apply Qcabs_le in Hle. tauto. }
    assert (C : u i = v i).
    { apply (H u v); [| | | | |exact Hi].
      - intros k Hk. unfold u. apply Qc_div_nonneg; [specialize (Hb k Hk); qclra|]. apply Qc_mul_pos; assumption.
      - unfold u. rewrite sumn_div, sumn_plus, X0, sumn_const_n. field. auto.
      - intros k Hk. unfold v. apply Qc_div_nonneg; [discriminate|exact HN].
      - unfold v. rewrite sumn_const_n. field. exact HN0.
      - intros j Hj. transitivity (sumn n (fun i => v i * A i j + / (Qcn n * m) * (x i * A i j))%Qc); [apply sumn_ext; intros k Hk; unfold u, v; field; auto|]. rewrite sumn_plus, sumn_mul_l, Hx by exact Hj. ring. }
    unfold u, v in C. apply E. assert (C2 : ((m + x i) / (Qcn n * m) * (Qcn n * m) = 1 / Qcn n * (Qcn n * m))%Qc) by (rewrite C; reflexivity). replace ((m + x i) / (Qcn n * m) * (Qcn n * m))%Qc with (m + x i)%Qc in C2 by (field; auto). replace (1 / Qcn n * (Qcn n * m))%Qc with m in C2 by (field; auto). qclra.
Qed.
Lemma rank_one n w A : 0 < n -> (forall i, i < n -> sumn w (A i) = 1q) -> (is_rank n w A 1 <-> forall i k j, i < n -> k < n -> j < w -> A i j = A k j).
Proof.
  intros Hn HS. split.
  - intros (l & D & L & B & I & S1). destruct l as [|a [|b l]]; [discriminate L| |discriminate L]. assert (Ha : a < n) by (apply B; left; reflexivity).
    assert (G : forall i j, i < n -> j < w -> A i j = A a j).
    { intros i j Hi Hj. destruct (S1 i Hi) as (y & Hy). assert (HY : forall j, j < w -> A i j = (y a * A a j)%Qc) by (intros m Hm; rewrite Hy by exact Hm; cbn; ring). assert (Y1 : y a = 1q). { pose proof (HS i Hi) as E. rewrite (sumn_ext w (A i) (fun j => y a * A a j)%Qc HY), sumn_mul_l, HS in E by exact Ha. rewrite <- E. ring. } rewrite HY by exact Hj. rewrite Y1. ring. }
    intros i k j Hi Hk Hj. rewrite (G i j), (G k j) by assumption. reflexivity.
  - intros H. assert (Hw : exists j, j < w /\ A 0%nat j <> 0q).
    { assert (HD : (exists j, j < w /\ A 0%nat j <> 0q) \/ (forall j, j < w -> A 0%nat j = 0q)).
      { clear HS H. induction w as [|w IH]; [right; intros j Hj; lia|]. destruct IH as [(j & Hj & E)|IH]; [left; exists j; split; [lia|exact E]|]. destruct (Qc_eq_dec (A 0%nat w) 0q) as [E|E]; [right|left; exists w; split; [lia|exact E]]. intros j Hj. destruct (Nat.eq_dec j w) as [->|]; [exact E|apply IH; lia]. }
      destruct HD as [HD|HD]; [exact HD|]. exfalso. pose proof (HS 0 Hn) as E. rewrite sumn_0 in E by exact HD. discriminate. }
    exists [0]. split; [repeat constructor; intros []|]. split; [reflexivity|]. split; [intros i [<-|[]]; exact Hn|]. split.
    + intros x Hx i [<-|[]]. destruct Hw as (j & Hj & Hne). specialize (Hx j Hj). cbn in Hx. rewrite Qcplus_0_r in Hx. apply Qcmult_integral in Hx. destruct Hx; [assumption|contradiction].
    + intros i Hi. exists (fun _ => 1q). intros j Hj. cbn. rewrite (H i 0 j) by assumption. ring.
Qed.
