(** L_Float1: what any order of summation computes. *)
From Coq Require Import Reals Lra Lia List ZArith Permutation.
From Flocq Require Import Core.
From Verif Require Import Fl M_Float S_Float.
Import ListNotations.
Local Open Scope R_scope.

(** ** sums *)
Lemma rsum_app l m : rsum (l ++ m) = rsum l + rsum m.
Proof. induction l; simpl; lra. Qed.
Lemma rsum_perm l m : Permutation l m -> rsum l = rsum m.
Proof. induction 1; simpl; lra. Qed.
Lemma rsum_nonneg l : (forall x, In x l -> 0 <= x) -> 0 <= rsum l.
Proof. induction l as [|x l IH]; intros H; simpl; [lra|]. assert (0 <= x) by (apply H; now left).
  assert (0 <= rsum l) by (apply IH; intros; apply H; now right). lra. Qed.
Lemma rsum_in l x : (forall x, In x l -> 0 <= x) -> In x l -> x <= rsum l.
Proof. induction l as [|y l IH]; intros H I; [easy|]. simpl.
  assert (0 <= y) by (apply H; now left).
  assert (0 <= rsum l) by (apply rsum_nonneg; intros; apply H; now right).
  destruct I as [->|I]; [lra|]. assert (x <= rsum l) by (apply IH; auto; intros; apply H; now right). lra. Qed.

Lemma rsumn_ext n f g : (forall i, (i < n)%nat -> f i = g i) -> rsumn n f = rsumn n g.
Proof. intros H. unfold rsumn. f_equal. apply map_ext_in. intros i I. apply H. apply in_seq in I. lia. Qed.
Lemma rsum_map_le (A : Type) (l : list A) f g : (forall i, In i l -> f i <= g i) -> rsum (map f l) <= rsum (map g l).
Proof. induction l as [|x l IH]; intros H; simpl; [lra|].
  assert (f x <= g x) by (apply H; now left).
  assert (rsum (map f l) <= rsum (map g l)) by (apply IH; intros; apply H; now right). lra. Qed.
Lemma rsumn_le n f g : (forall i, (i < n)%nat -> f i <= g i) -> rsumn n f <= rsumn n g.
Proof. intros H. apply rsum_map_le. intros i I. apply H. apply in_seq in I. lia. Qed.
Lemma rsum_map_add (A : Type) (l : list A) f g : rsum (map (fun i => f i + g i) l) = rsum (map f l) + rsum (map g l).
Proof. induction l as [|x l IH]; simpl; lra. Qed.
Lemma rsumn_add n f g : rsumn n (fun i => f i + g i) = rsumn n f + rsumn n g.
Proof. apply rsum_map_add. Qed.
Lemma rsum_map_scal (A : Type) (l : list A) c f : rsum (map (fun i => c * f i) l) = c * rsum (map f l).
Proof. induction l as [|x l IH]; simpl; lra. Qed.
Lemma rsumn_scal n c f : rsumn n (fun i => c * f i) = c * rsumn n f.
Proof. apply rsum_map_scal. Qed.
Lemma rsum_map_const (A : Type) (l : list A) c : rsum (map (fun _ => c) l) = INR (length l) * c.
Proof. induction l as [|x l IH]; [simpl; lra|]. cbn [map rsum length]. rewrite IH, S_INR. lra. Qed.
Lemma rsumn_const n c : rsumn n (fun _ => c) = INR n * c.
Proof. unfold rsumn. now rewrite rsum_map_const, seq_length. Qed.
Lemma rsumn_nonneg n f : (forall i, (i < n)%nat -> 0 <= f i) -> 0 <= rsumn n f.
Proof. intros H. apply rsum_nonneg. intros x I. apply in_map_iff in I. destruct I as (i & <- & I).
  apply H. apply in_seq in I; lia. Qed.
Lemma rsumn_in n f i : (forall i, (i < n)%nat -> 0 <= f i) -> (i < n)%nat -> f i <= rsumn n f.
Proof. intros H L. apply rsum_in.
  - intros x I. apply in_map_iff in I. destruct I as (j & <- & I). apply H. apply in_seq in I; lia.
  - apply in_map_iff. exists i. split; auto. apply in_seq; lia. Qed.
Lemma rsum_swap (A B : Type) (l : list A) (m : list B) (f : A -> B -> R) :
  rsum (map (fun i => rsum (map (f i) m)) l) = rsum (map (fun j => rsum (map (fun i => f i j) l)) m).
Proof.
  induction l as [|x l IH]; simpl.
  - rewrite rsum_map_const. lra.
  - rewrite IH, <- rsum_map_add. reflexivity.
Qed.
Lemma rsumn_swap n m f : rsumn n (fun i => rsumn m (f i)) = rsumn m (fun j => rsumn n (fun i => f i j)).
Proof. apply rsum_swap. Qed.
Lemma rsumn_zero n f : (forall i, (i < n)%nat -> f i = 0) -> rsumn n f = 0.
Proof. intros H. rewrite (rsumn_ext n f (fun _ => 0)) by exact H. rewrite rsumn_const. lra. Qed.

(** ** powers of 1 + u *)
Definition hi (n : nat) : R := (1 + uu) ^ n.
Definition lo (n : nat) : R := (1 - uu) ^ n.
Lemma hi_pos n : 0 < hi n. Proof. apply pow_lt. pose proof uu_pos; lra. Qed.
Lemma uu_lt1 : uu < / 2. Proof. rewrite uu_val. lra. Qed.
Lemma lo_pos n : 0 < lo n. Proof. apply pow_lt. pose proof uu_lt1; lra. Qed.
Lemma hi_ge1 n : 1 <= hi n. Proof. apply pow_R1_Rle. pose proof uu_pos; lra. Qed.
Lemma lo_le1 n : lo n <= 1.
Proof. unfold lo. eapply Rle_trans; [apply (pow_incr _ 1)|rewrite pow1; lra]. pose proof uu_pos; pose proof uu_lt1; lra. Qed.
Lemma hi_mono n m : (n <= m)%nat -> hi n <= hi m.
Proof. intros; apply Rle_pow; auto. pose proof uu_pos; lra. Qed.
Lemma lo_S n : lo (S n) = (1 - uu) * lo n. Proof. reflexivity. Qed.
Lemma hi_S n : hi (S n) = (1 + uu) * hi n. Proof. reflexivity. Qed.
Lemma lo_anti n m : (n <= m)%nat -> lo m <= lo n.
Proof. induction 1 as [|m H IH]; [lra|]. rewrite lo_S. pose proof (lo_pos m). pose proof uu_pos. nra. Qed.
Lemma bernoulli x n : 0 <= x <= 1 -> 1 - INR n * x <= (1 - x) ^ n.
Proof.
  intros X. induction n as [|n IH]; [simpl; lra|]. rewrite S_INR. simpl pow.
  destruct (Rle_lt_dec (1 - INR n * x) 0) as [N|N].
  - assert (0 <= (1 - x) ^ n) by (apply pow_le; lra).
    assert (0 <= (1 - x) * (1 - x) ^ n) by (apply Rmult_le_pos; lra). pose proof (pos_INR n). nra.
  - pose proof (pos_INR n). 
    assert ((1 - x) * (1 - INR n * x) <= (1 - x) * (1 - x) ^ n) by (apply Rmult_le_compat_l; lra).
    assert (0 <= INR n * (x * x)) by (apply Rmult_le_pos; nra). nra.
Qed.
Lemma pow_up x n : 0 <= x -> INR n * x <= / 2 -> (1 + x) ^ n <= 1 + 2 * (INR n * x).
Proof.
  intros X. induction n as [|n IH]; intros L; [simpl; lra|]. rewrite S_INR in *. simpl pow.
  pose proof (pos_INR n). assert (0 <= INR n * x) by (apply Rmult_le_pos; lra).
  assert (J : (1 + x) ^ n <= 1 + 2 * (INR n * x)) by (apply IH; lra).
  eapply Rle_trans; [apply Rmult_le_compat_l; [lra|exact J]|].
  assert (x * (2 * (INR n * x)) <= x * 1) by (apply Rmult_le_compat_l; lra). lra.
Qed.
Lemma lo_ge n : 1 - INR n * uu <= lo n.
Proof. apply bernoulli. pose proof uu_pos; pose proof uu_lt1; lra. Qed.
Lemma hi_le n : INR n * uu <= / 2 -> hi n <= 1 + 2 * (INR n * uu).
Proof. apply pow_up. pose proof uu_pos; lra. Qed.

(** ** the computed sum *)
Lemma rnd_add_up x y : is_double x -> is_double y -> 0 <= x + y -> rnd (x + y) <= (1 + uu) * (x + y).
Proof. intros A B C. pose proof (rnd_add x y A B) as E. rewrite (Rabs_pos_eq (x + y)) in E by lra.
  apply Rabs_le_inv in E. lra. Qed.
Lemma rnd_add_lo x y : is_double x -> is_double y -> 0 <= x + y -> (1 - uu) * (x + y) <= rnd (x + y).
Proof. intros A B C. pose proof (rnd_add x y A B) as E. rewrite (Rabs_pos_eq (x + y)) in E by lra.
  apply Rabs_le_inv in E. lra. Qed.

Definition dnn (x : R) : Prop := is_double x /\ 0 <= x.

Lemma fsum_nil v : fsum [] v -> v = 0.
Proof.
  intros H. remember [] as l eqn:E. induction H; try easy.
  subst l. apply Permutation_nil in H. apply app_eq_nil in H. destruct H as [-> ->].
  rewrite IHfsum1, IHfsum2, Rplus_0_r by easy. apply rnd_0.
Qed.
Lemma fsum_bounds l v : fsum l v -> (forall x, In x l -> dnn x) ->
  dnn v /\ lo (length l) * rsum l <= v <= hi (length l) * rsum l.
Proof.
  induction 1 as [|x|l l1 l2 v1 v2 P H1 IH1 H2 IH2]; intros D.
  - repeat split; simpl; try lra. apply is_double_0.
  - assert (X : dnn x) by (apply D; now left). split; [exact X|]. destruct X as [_ X].
    cbn [rsum length]. rewrite Rplus_0_r. pose proof (lo_le1 1). pose proof (hi_ge1 1). nra.
  - assert (D1 : forall x, In x l1 -> dnn x) by (intros; apply D; apply (Permutation_in x (Permutation_sym P)), in_app_iff; auto).
    assert (D2 : forall x, In x l2 -> dnn x) by (intros; apply D; apply (Permutation_in x (Permutation_sym P)), in_app_iff; auto).
    destruct (IH1 D1) as [[F1 P1] [L1 U1]]. destruct (IH2 D2) as [[F2 P2] [L2 U2]].
    rewrite (rsum_perm _ _ P), rsum_app, (Permutation_length P), app_length.
    assert (N1 : 0 <= rsum l1) by (apply rsum_nonneg; intros; now apply D1).
    assert (N2 : 0 <= rsum l2) by (apply rsum_nonneg; intros; now apply D2).
    split. { split; [apply is_double_rnd|apply rnd_nonneg; lra]. }
    destruct l1 as [|a1 l1].
    { rewrite (fsum_nil _ H1), (Rplus_0_l v2), rnd_id by exact F2. cbn [length rsum plus]. rewrite Rplus_0_l. now split. }
    destruct l2 as [|a2 l2].
    { rewrite (fsum_nil _ H2), (Rplus_0_r v1), rnd_id by exact F1. simpl (length []). simpl (rsum []). rewrite Rplus_0_r, Nat.add_0_r. now split. }
    set (n1 := length (a1 :: l1)) in *. set (n2 := length (a2 :: l2)) in *.
    assert (K : exists k, (n1 + n2)%nat = S k /\ (n1 <= k)%nat /\ (n2 <= k)%nat) by (exists (n1 + n2 - 1)%nat; subst n1 n2; simpl; lia).
    destruct K as (k & -> & K1 & K2). rewrite lo_S, hi_S.
    set (s1 := rsum (a1 :: l1)) in *. set (s2 := rsum (a2 :: l2)) in *.
    pose proof (rnd_add_up v1 v2 F1 F2 ltac:(lra)). pose proof (rnd_add_lo v1 v2 F1 F2 ltac:(lra)).
    assert (V1 : v1 <= hi k * s1) by (eapply Rle_trans; [exact U1|]; apply Rmult_le_compat_r; auto using hi_mono).
    assert (V2 : v2 <= hi k * s2) by (eapply Rle_trans; [exact U2|]; apply Rmult_le_compat_r; auto using hi_mono).
    assert (W1 : lo k * s1 <= v1) by (eapply Rle_trans; [|exact L1]; apply Rmult_le_compat_r; auto using lo_anti).
    assert (W2 : lo k * s2 <= v2) by (eapply Rle_trans; [|exact L2]; apply Rmult_le_compat_r; auto using lo_anti).
    pose proof uu_pos. pose proof uu_lt1.
    assert (A1 : (1 + uu) * (v1 + v2) <= (1 + uu) * (hi k * s1 + hi k * s2)) by (apply Rmult_le_compat_l; lra).
    assert (A2 : (1 - uu) * (lo k * s1 + lo k * s2) <= (1 - uu) * (v1 + v2)) by (apply Rmult_le_compat_l; lra).
    split; lra.
Qed.

(** ** the computed dot product *)
Definition prods (l : list (R * R)) : list R := map (fun ab => fst ab * snd ab) l.
Definition nnp (ab : R * R) : Prop := 0 <= fst ab /\ 0 <= snd ab.
Lemma prods_perm l m : Permutation l m -> Permutation (prods l) (prods m).
Proof. apply Permutation_map. Qed.
Lemma prods_nonneg l : (forall x, In x l -> nnp x) -> 0 <= rsum (prods l).
Proof. intros H. apply rsum_nonneg. intros x I. apply in_map_iff in I. destruct I as (ab & <- & I).
  destruct (H _ I). now apply Rmult_le_pos. Qed.

Lemma fdot_nil v : fdot [] v -> v = 0.
Proof.
  intros H. remember [] as l eqn:E. induction H; try easy.
  - subst l. apply Permutation_nil in H. apply app_eq_nil in H. destruct H as [-> ->].
    rewrite IHfdot1, IHfdot2, Rplus_0_r by easy. apply rnd_0.
  - subst l. apply Permutation_nil in H. easy.
Qed.

Lemma fdot_double l v : fdot l v -> is_double v.
Proof. destruct 1; auto using is_double_rnd, is_double_0. Qed.
Lemma fdot_nonneg l v : fdot l v -> (forall x, In x l -> nnp x) -> 0 <= v.
Proof.
  induction 1 as [|a b|l l1 l2 v1 v2 P H1 IH1 H2 IH2|l a b l' v P H IH]; intros D.
  - lra.
  - destruct (D (a, b) ltac:(now left)). apply rnd_nonneg, Rmult_le_pos; auto.
  - apply rnd_nonneg.
    assert (0 <= v1) by (apply IH1; intros; apply D, (Permutation_in _ (Permutation_sym P)), in_app_iff; auto).
    assert (0 <= v2) by (apply IH2; intros; apply D, (Permutation_in _ (Permutation_sym P)), in_app_iff; auto). lra.
  - apply rnd_nonneg.
    assert (0 <= v) by (apply IH; intros; apply D, (Permutation_in _ (Permutation_sym P)); now right).
    destruct (D (a, b)) as [A B]; [apply (Permutation_in _ (Permutation_sym P)); now left|].
    simpl in A, B. assert (0 <= a * b) by now apply Rmult_le_pos. lra.
Qed.

Lemma fdot_bounds l v : fdot l v -> (forall x, In x l -> nnp x) ->
  lo (length l) * rsum (prods l) - INR (length l) * tiny <= v /\
  v <= hi (length l) * (rsum (prods l) + INR (length l) * tiny).
Proof.
  induction 1 as [|a b|l l1 l2 v1 v2 P H1 IH1 H2 IH2|l a b l' v P H IH]; intros D; pose proof tiny_pos as TP;
    pose proof uu_pos as UP; pose proof uu_lt1 as UL.
  - simpl. lra.
  - destruct (D (a, b) ltac:(now left)) as [A B]. simpl in A, B.
    assert (N : 0 <= a * b) by now apply Rmult_le_pos.
    pose proof (rnd_0_up _ N). pose proof (rnd_0_lo _ N).
    unfold lo, hi; cbn [length prods map rsum fst snd pow INR]. rewrite !Rplus_0_r, !Rmult_1_r, !Rmult_1_l.
    assert (0 <= uu * tiny) by (apply Rmult_le_pos; lra). split; lra.
  - assert (D1 : forall x, In x l1 -> nnp x) by (intros; apply D, (Permutation_in _ (Permutation_sym P)), in_app_iff; auto).
    assert (D2 : forall x, In x l2 -> nnp x) by (intros; apply D, (Permutation_in _ (Permutation_sym P)), in_app_iff; auto).
    destruct (IH1 D1) as [L1 U1]. destruct (IH2 D2) as [L2 U2].
    pose proof (fdot_nonneg _ _ H1 D1) as P1. pose proof (fdot_nonneg _ _ H2 D2) as P2.
    pose proof (fdot_double _ _ H1) as F1. pose proof (fdot_double _ _ H2) as F2.
    rewrite (rsum_perm _ _ (prods_perm _ _ P)), (Permutation_length P), app_length.
    unfold prods at 1 2; rewrite map_app; fold (prods l1) (prods l2). rewrite rsum_app.
    pose proof (prods_nonneg l1 D1) as N1. pose proof (prods_nonneg l2 D2) as N2.
    destruct l1 as [|a1 l1].
    { rewrite (fdot_nil _ H1), (Rplus_0_l v2), rnd_id by exact F2. cbn [length rsum plus prods map]. rewrite Rplus_0_l. now split. }
    destruct l2 as [|a2 l2].
    { rewrite (fdot_nil _ H2), (Rplus_0_r v1), rnd_id by exact F1. simpl (length []). simpl (rsum (prods [])). rewrite Rplus_0_r, Nat.add_0_r. now split. }
    set (n1 := length (a1 :: l1)) in *. set (n2 := length (a2 :: l2)) in *.
    assert (EN : INR (n1 + n2) = INR n1 + INR n2) by apply plus_INR. rewrite EN.
    assert (K : exists k, (n1 + n2)%nat = S k /\ (n1 <= k)%nat /\ (n2 <= k)%nat) by (exists (n1 + n2 - 1)%nat; subst n1 n2; simpl; lia).
    destruct K as (k & -> & K1 & K2). rewrite lo_S, hi_S.
    set (s1 := rsum (prods (a1 :: l1))) in *. set (s2 := rsum (prods (a2 :: l2))) in *.
    pose proof (rnd_add_up v1 v2 F1 F2 ltac:(lra)). pose proof (rnd_add_lo v1 v2 F1 F2 ltac:(lra)).
    pose proof (pos_INR n1) as I1. pose proof (pos_INR n2) as I2.
    assert (T1 : 0 <= INR n1 * tiny) by (apply Rmult_le_pos; lra).
    assert (T2 : 0 <= INR n2 * tiny) by (apply Rmult_le_pos; lra).
    assert (V1 : v1 <= hi k * (s1 + INR n1 * tiny)) by (eapply Rle_trans; [exact U1|]; apply Rmult_le_compat_r; [lra|auto using hi_mono]).
    assert (V2 : v2 <= hi k * (s2 + INR n2 * tiny)) by (eapply Rle_trans; [exact U2|]; apply Rmult_le_compat_r; [lra|auto using hi_mono]).
    assert (W1 : lo k * s1 - INR n1 * tiny <= v1).
    { eapply Rle_trans; [|exact L1]. apply Rplus_le_compat_r, Rmult_le_compat_r; auto using lo_anti. }
    assert (W2 : lo k * s2 - INR n2 * tiny <= v2).
    { eapply Rle_trans; [|exact L2]. apply Rplus_le_compat_r, Rmult_le_compat_r; auto using lo_anti. }
    assert (A1 : (1 + uu) * (v1 + v2) <= (1 + uu) * (hi k * (s1 + INR n1 * tiny) + hi k * (s2 + INR n2 * tiny))) by (apply Rmult_le_compat_l; lra).
    assert (A2 : (1 - uu) * (lo k * s1 - INR n1 * tiny + (lo k * s2 - INR n2 * tiny)) <= (1 - uu) * (v1 + v2)) by (apply Rmult_le_compat_l; lra).
    assert (0 <= uu * (INR n1 * tiny)) by (apply Rmult_le_pos; lra).
    assert (0 <= uu * (INR n2 * tiny)) by (apply Rmult_le_pos; lra).
    split; lra.
  - assert (D' : forall x, In x l' -> nnp x) by (intros; apply D, (Permutation_in _ (Permutation_sym P)); now right).
    destruct (D (a, b)) as [A B]; [apply (Permutation_in _ (Permutation_sym P)); now left|]. simpl in A, B.
    assert (AB : 0 <= a * b) by now apply Rmult_le_pos.
    destruct (IH D') as [L U]. pose proof (fdot_nonneg _ _ H D') as Pv. pose proof (prods_nonneg l' D') as N.
    rewrite (rsum_perm _ _ (prods_perm _ _ P)), (Permutation_length P). cbn [length prods map rsum fst snd]. fold (prods l').
    set (k := length l') in *. rewrite lo_S, hi_S, S_INR. set (s := rsum (prods l')) in *.
    pose proof (rnd_0_up (a * b + v) ltac:(lra)). pose proof (rnd_0_lo (a * b + v) ltac:(lra)).
    pose proof (pos_INR k) as Ik. assert (T : 0 <= INR k * tiny) by (apply Rmult_le_pos; lra).
    pose proof (hi_ge1 k). pose proof (lo_le1 k). pose proof (lo_pos k).
    assert (a * b <= hi k * (a * b)) by nra. assert (lo k * (a * b) <= a * b) by nra.
    assert (tiny <= hi k * tiny) by nra.
    assert (A1 : (1 + uu) * (a * b + v) <= (1 + uu) * (hi k * (a * b) + hi k * (s + INR k * tiny))) by (apply Rmult_le_compat_l; lra).
    assert (A2 : (1 - uu) * (lo k * (a * b) + (lo k * s - INR k * tiny)) <= (1 - uu) * (a * b + v)) by (apply Rmult_le_compat_l; lra).
    assert (0 <= uu * (INR k * tiny)) by (apply Rmult_le_pos; lra).
    assert (0 <= uu * (hi k * tiny)) by (apply Rmult_le_pos; [lra|apply Rmult_le_pos; lra]).
    split; lra.
Qed.

(** a sum below half the smallest double is rounded to zero, whatever the order *)
Lemma fdot_zero l v : fdot l v -> (forall x, In x l -> nnp x) -> rsum (prods l) < tiny -> v = 0.
Proof.
  induction 1 as [|a b|l l1 l2 v1 v2 P H1 IH1 H2 IH2|l a b l' v P H IH]; intros D T.
  - reflexivity.
  - destruct (D (a, b) ltac:(now left)) as [A B]. simpl in A, B, T. rewrite Rplus_0_r in T.
    apply rnd_tiny; auto. now apply Rmult_le_pos.
  - assert (D1 : forall x, In x l1 -> nnp x) by (intros; apply D, (Permutation_in _ (Permutation_sym P)), in_app_iff; auto).
    assert (D2 : forall x, In x l2 -> nnp x) by (intros; apply D, (Permutation_in _ (Permutation_sym P)), in_app_iff; auto).
    rewrite (rsum_perm _ _ (prods_perm _ _ P)) in T. unfold prods in T; rewrite map_app in T; fold (prods l1) (prods l2) in T. rewrite rsum_app in T.
    pose proof (prods_nonneg l1 D1). pose proof (prods_nonneg l2 D2).
    rewrite IH1, IH2, Rplus_0_r by (auto; lra). apply rnd_0.
  - assert (D' : forall x, In x l' -> nnp x) by (intros; apply D, (Permutation_in _ (Permutation_sym P)); now right).
    destruct (D (a, b)) as [A B]; [apply (Permutation_in _ (Permutation_sym P)); now left|]. simpl in A, B.
    assert (AB : 0 <= a * b) by now apply Rmult_le_pos.
    rewrite (rsum_perm _ _ (prods_perm _ _ P)) in T. cbn [prods map rsum fst snd] in T. fold (prods l') in T.
    pose proof (prods_nonneg l' D').
    rewrite IH by (auto; lra). rewrite Rplus_0_r. apply rnd_tiny; lra.
Qed.

(** the computed sum is at least each of the rounded products *)
Lemma fdot_ge l v a b : fdot l v -> (forall x, In x l -> nnp x) -> In (a, b) l -> rnd (a * b) <= v.
Proof.
  intros H. induction H as [|a' b'|l l1 l2 v1 v2 P H1 IH1 H2 IH2|l a' b' l' v P H IH]; intros D I.
  - easy.
  - destruct I as [E|[]]. injection E as -> ->. lra.
  - assert (D1 : forall x, In x l1 -> nnp x) by (intros; apply D, (Permutation_in _ (Permutation_sym P)), in_app_iff; auto).
    assert (D2 : forall x, In x l2 -> nnp x) by (intros; apply D, (Permutation_in _ (Permutation_sym P)), in_app_iff; auto).
    pose proof (fdot_nonneg _ _ H1 D1) as P1. pose proof (fdot_nonneg _ _ H2 D2) as P2.
    apply (Permutation_in _ P), in_app_iff in I. destruct I as [I|I].
    + eapply Rle_trans; [apply IH1; auto|]. rewrite <- (rnd_id v1) at 1 by exact (fdot_double _ _ H1). apply rnd_le; lra.
    + eapply Rle_trans; [apply IH2; auto|]. rewrite <- (rnd_id v2) at 1 by exact (fdot_double _ _ H2). apply rnd_le; lra.
  - assert (D' : forall x, In x l' -> nnp x) by (intros; apply D, (Permutation_in _ (Permutation_sym P)); now right).
    destruct (D (a', b')) as [A B]; [apply (Permutation_in _ (Permutation_sym P)); now left|]. simpl in A, B.
    assert (AB : 0 <= a' * b') by now apply Rmult_le_pos.
    pose proof (fdot_nonneg _ _ H D') as Pv.
    apply (Permutation_in _ P) in I. destruct I as [E|I].
    + injection E as -> ->. apply rnd_le; lra.
    + eapply Rle_trans; [apply IH; auto|]. rewrite <- (rnd_id v) at 1 by exact (fdot_double _ _ H). apply rnd_le; lra.
Qed.

(** ** the plain loops are among the possible ways *)
Lemma seq_summing : summing seq_sum.
Proof.
  intros l. induction l as [|x l IH] using rev_ind.
  - constructor.
  - unfold seq_sum. rewrite fold_left_app. cbn [fold_left].
    apply (fs_add _ l [x]); [reflexivity|exact IH|constructor].
Qed.
Lemma seq_dotting : dotting seq_dot.
Proof.
  intros l. induction l as [|[a b] l IH] using rev_ind.
  - constructor.
  - unfold seq_dot. rewrite fold_left_app. cbn [fold_left fst snd].
    apply (fd_add _ l [(a, b)]); [reflexivity| exact IH | constructor].
Qed.
