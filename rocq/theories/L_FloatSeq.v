(** L_FloatSeq: the probability of a sequence in doubles. *)
From Coq Require Import Reals Lra Lia List ZArith.
From Flocq Require Import Core.
From Verif Require Import Fl M_Float S_Float L_Float1 L_Float2 M_FloatSeq S_FloatSeq.
Import ListNotations.
Local Open Scope R_scope.

Fixpoint prodm (p : nat -> nat -> R) (m : list (nat * nat)) : R := match m with [] => 1 | (i, j) :: r => p i j * prodm p r end.
Definition movesof (w : list nat) : list (nat * nat) := combine (removelast w) (tl w).
Lemma moves_cons i j r : movesof (i :: j :: r) = (i, j) :: movesof (j :: r).
Proof. reflexivity. Qed.
Lemma walk_prodm p w : walkR p w = prodm p (movesof w).
Proof.
  induction w as [|i [|j r] IH]; [reflexivity|reflexivity|]. rewrite moves_cons. cbn [prodm]. rewrite <- IH. reflexivity.
Qed.
Lemma moves_length w : length (movesof w) = (length w - 1)%nat.
Proof. induction w as [|i [|j r] IH]; [reflexivity|reflexivity|]. rewrite moves_cons. cbn [length] in *. lia. Qed.
Lemma rnd_neg x : rnd (- x) = - rnd x.
Proof. unfold rnd. apply round_NE_opp. Qed.

Lemma ln_nonpos x : 0 < x <= 1 -> ln x <= 0.
Proof. intros [A [B|B]]; [rewrite <- ln_1; left; now apply ln_increasing|subst; rewrite ln_1; lra]. Qed.

(** the loop adds up minus logarithms *)
Lemma loop_near lg p m : log_ok lg -> forall acc k s,
  (forall i j, In (i, j) m -> is_double (p i j) /\ p i j <= 1) -> is_double acc -> 0 <= s ->
  (1 - 4 * uu) * lo k * s <= - acc <= (1 + 4 * uu) * hi k * s ->
  match f_log_loop lg p m acc with
  | None => prodm p m = 0 \/ exists i j, In (i, j) m /\ p i j <= 0
  | Some wp => is_double wp /\ 0 < prodm p m /\
      (1 - 4 * uu) * lo (k + length m) * (s - ln (prodm p m)) <= - wp <= (1 + 4 * uu) * hi (k + length m) * (s - ln (prodm p m))
      /\ 0 <= s - ln (prodm p m)
  end.
Proof.
  intros LG. induction m as [|[i j] m IH]; intros acc k s D F S0 B.
  - cbn [f_log_loop prodm length]. rewrite ln_1, Rminus_0_r, Nat.add_0_r. repeat split; auto; lra.
  - cbn [f_log_loop]. destruct (Rlt_dec 0 (p i j)) as [P|P]; [|right; exists i, j; split; [now left|lra]].
    destruct (D i j (or_introl eq_refl)) as [Fp P1]. destruct (LG (p i j) Fp (conj P P1)) as [Fl El].
    pose proof (ln_nonpos _ (conj P P1)) as L0. rewrite (Rabs_left1 (ln (p i j))) in El by exact L0.
    apply Rabs_le_inv in El. pose proof uu_pos as UP. assert (UV : uu <= / 1000000) by (rewrite uu_val; lra).
    pose proof (lo_pos k) as LP. pose proof (lo_le1 k) as L1. pose proof (hi_ge1 k) as H1.
    set (l := - ln (p i j)) in *. assert (l0 : 0 <= l) by (unfold l; lra).
    assert (Bl : (1 - 4 * uu) * l <= - lg (p i j) <= (1 + 4 * uu) * l) by (unfold l in *; lra).
    assert (Fa : is_double (- acc)) by now apply is_double_opp.
    assert (Fg : is_double (- lg (p i j))) by now apply is_double_opp.
    assert (C0 : 0 <= (1 - 4 * uu) * lo k * s) by (apply Rmult_le_pos; [apply Rmult_le_pos; lra|exact S0]).
    assert (C1 : 0 <= (1 - 4 * uu) * l) by (apply Rmult_le_pos; lra).
    assert (A0 : 0 <= - acc + - lg (p i j)) by lra.
    pose proof (rnd_add_up _ _ Fa Fg A0) as RU. pose proof (rnd_add_lo _ _ Fa Fg A0) as RL.
    assert (E : - rnd (acc + lg (p i j)) = rnd (- acc + - lg (p i j))) by (rewrite <- rnd_neg; f_equal; ring).
    rewrite <- E in RU, RL.
    assert (LO : (1 - 4 * uu) * lo k * (s + l) <= - acc + - lg (p i j)).
    { assert ((1 - 4 * uu) * lo k * l <= (1 - 4 * uu) * l).
      { rewrite Rmult_assoc. apply Rmult_le_compat_l; [lra|]. rewrite <- (Rmult_1_l l) at 2. apply Rmult_le_compat_r; lra. }
      rewrite Rmult_plus_distr_l. lra. }
    assert (HI : - acc + - lg (p i j) <= (1 + 4 * uu) * hi k * (s + l)).
    { assert ((1 + 4 * uu) * l <= (1 + 4 * uu) * hi k * l).
      { rewrite Rmult_assoc. apply Rmult_le_compat_l; [lra|]. rewrite <- (Rmult_1_l l) at 1. apply Rmult_le_compat_r; lra. }
      rewrite Rmult_plus_distr_l. lra. }
    assert (B' : (1 - 4 * uu) * lo (S k) * (s + l) <= - rnd (acc + lg (p i j)) <= (1 + 4 * uu) * hi (S k) * (s + l)).
    { rewrite lo_S, hi_S. split.
      - eapply Rle_trans; [|exact RL].
        replace ((1 - 4 * uu) * ((1 - uu) * lo k) * (s + l)) with ((1 - uu) * ((1 - 4 * uu) * lo k * (s + l))) by ring.
        apply Rmult_le_compat_l; lra.
      - eapply Rle_trans; [exact RU|].
        replace ((1 + 4 * uu) * ((1 + uu) * hi k) * (s + l)) with ((1 + uu) * ((1 + 4 * uu) * hi k * (s + l))) by ring.
        apply Rmult_le_compat_l; lra. }
    specialize (IH (rnd (acc + lg (p i j))) (S k) (s + l) (fun a b I => D a b (or_intror I)) (is_double_rnd _) ltac:(lra) B').
    destruct (f_log_loop lg p m _) as [wp|].
    + destruct IH as (Fw & PP & Q & Q0). cbn [prodm length]. split; [exact Fw|]. split; [now apply Rmult_lt_0_compat|].
      rewrite ln_mult by assumption. replace (k + S (length m))%nat with (S k + length m)%nat by lia.
      replace (s - (ln (p i j) + ln (prodm p m))) with (s + l - ln (prodm p m)) by (unfold l; ring). split; [exact Q|exact Q0].
    + destruct IH as [Z|(a & b & I & Z)]; [left; cbn [prodm]; rewrite Z; ring|right; exists a, b; split; [now right|exact Z]].
Qed.

Lemma prodm_zero p m : (forall i j, In (i, j) m -> 0 <= p i j) -> (exists i j, In (i, j) m /\ p i j <= 0) -> prodm p m = 0.
Proof.
  induction m as [|[a b] m IH]; intros D (i & j & I & Z); [destruct I|]. cbn [prodm]. destruct I as [I|I].
  - injection I as -> ->. assert (E : p i j = 0) by (pose proof (D i j (or_introl eq_refl)); lra). rewrite E. ring.
  - rewrite IH; [ring|intros; apply D; now right|now exists i, j].
Qed.

(** the exponential near the exact exponent *)
Lemma one_minus x : 1 - exp (- x) <= x.
Proof. pose proof (exp_ineq1_le (- x)). lra. Qed.
Lemma exp_gap a b : a <= b -> 0 <= exp (- a) - exp (- b) <= (b - a) * exp (- a).
Proof.
  intros L. replace (exp (- b)) with (exp (- a) * exp (- (b - a))) by (rewrite <- exp_plus; f_equal; ring).
  pose proof (exp_pos (- a)) as EP. pose proof (one_minus (b - a)) as O.
  assert (M : exp (- (b - a)) <= 1) by (rewrite <- exp_0; destruct L as [L| ->]; [left; apply exp_increasing; lra|right; f_equal; ring]).
  split; nra.
Qed.
Lemma half_decay s : 0 <= s -> s * exp (- (s / 2)) <= 2.
Proof.
  intros S0. pose proof (exp_ineq1_le (s / 2)) as E. pose proof (exp_pos (- (s / 2))) as P.
  assert (M : exp (s / 2) * exp (- (s / 2)) = 1) by (rewrite <- exp_plus, <- exp_0; f_equal; ring).
  nra.
Qed.
Lemma exp_le a b : a <= b -> exp a <= exp b.
Proof. intros [L| ->]; [left; now apply exp_increasing|lra]. Qed.
Lemma exp_near s t d : 0 <= s -> 0 <= d <= / 2 -> (1 - d) * s <= t <= (1 + d) * s -> Rabs (exp (- t) - exp (- s)) <= 2 * d.
Proof.
  intros S0 D [L U]. pose proof (half_decay s S0) as H.
  assert (DS : 0 <= d * s) by (apply Rmult_le_pos; lra).
  assert (G : forall a b, a <= b -> b - a <= d * s -> s / 2 <= a -> exp (- a) - exp (- b) <= 2 * d).
  { intros a b AB W A. destruct (exp_gap a b AB) as [_ X]. eapply Rle_trans; [exact X|].
    apply Rle_trans with (d * s * exp (- (s / 2))).
    - apply Rmult_le_compat; [lra|left; apply exp_pos|exact W|apply exp_le; lra].
    - rewrite Rmult_assoc. replace (2 * d) with (d * 2) by ring. apply Rmult_le_compat_l; lra. }
  assert (T : s / 2 <= t) by nra.
  destruct (Rle_dec t s) as [TS|TS].
  - pose proof (G t s TS ltac:(lra) T). destruct (exp_gap t s TS) as [Q _]. rewrite Rabs_pos_eq by exact Q. lra.
  - pose proof (G s t ltac:(lra) ltac:(lra) ltac:(lra)). destruct (exp_gap s t ltac:(lra)) as [Q _].
    rewrite Rabs_left1 by lra. lra.
Qed.

Lemma prodm_pos_le p m : (forall i j, In (i, j) m -> 0 <= p i j <= 1) -> 0 <= prodm p m <= 1.
Proof.
  induction m as [|[i j] m IH]; intros D; cbn [prodm]; [lra|]. pose proof (D i j (or_introl eq_refl)).
  pose proof (IH (fun a b I => D a b (or_intror I))). nra.
Qed.

Lemma tiny_u : 4 * tiny <= uu.
Proof.
  apply Rle_trans with (bpow radix2 2 * tiny); [simpl; pose proof tiny_pos; lra|]. unfold tiny, uu. rewrite <- bpow_plus. apply bpow_le. lia.
Qed.

Lemma rel_bounds k s wp : INR k * uu <= / 100 -> 0 <= s ->
  (1 - 4 * uu) * lo k * s <= - wp <= (1 + 4 * uu) * hi k * s ->
  (1 - (2 * (INR k * uu) + 5 * uu)) * s <= - wp <= (1 + (2 * (INR k * uu) + 5 * uu)) * s.
Proof.
  intros K S0 [L U]. pose proof uu_pos as UP. assert (UV : uu <= / 1000000) by (rewrite uu_val; lra).
  pose proof (lo_ge k) as Lo. pose proof (hi_le k ltac:(lra)) as H. pose proof (lo_pos k). pose proof (hi_ge1 k).
  assert (X : 0 <= INR k * uu) by (apply Rmult_le_pos; [apply pos_INR|lra]). set (x := INR k * uu) in *. clearbody x. split.
  - eapply Rle_trans; [|exact L]. apply Rmult_le_compat_r; [exact S0|]. nra.
  - eapply Rle_trans; [exact U|]. apply Rmult_le_compat_r; [exact S0|]. nra.
Qed.

Theorem sequence_near lg ex p w : log_ok lg -> exp_ok ex -> INR (length w) <= 1000000000000 ->
  (forall i j, In (i, j) (movesof w) -> is_double (p i j) /\ 0 <= p i j <= 1) ->
  Rabs (f_sequence_probability lg ex p w - walkR p w) <= 15 * INR (S (length w)) * uu.
Proof.
  intros LG EX N D. unfold f_sequence_probability. fold (movesof w). rewrite walk_prodm.
  assert (D' : forall i j, In (i, j) (movesof w) -> is_double (p i j) /\ p i j <= 1) by (intros i j I; destruct (D i j I) as (A & B & C); now split).
  pose proof (loop_near lg p (movesof w) LG 0 0 0 D' is_double_0 (Rle_refl 0)) as H.
  assert (B0 : (1 - 4 * uu) * lo 0 * 0 <= - 0 <= (1 + 4 * uu) * hi 0 * 0) by (rewrite !Rmult_0_r; lra).
  specialize (H B0). pose proof uu_pos as UP. rewrite S_INR. pose proof (pos_INR (length w)) as WP.
  assert (WU : 0 <= INR (length w) * uu) by (apply Rmult_le_pos; lra).
  destruct (f_log_loop lg p (movesof w) 0) as [wp|].
  - destruct H as (F & PP & B & S0). rewrite Rminus_0_l in B, S0. cbn [plus] in B.
    set (m := movesof w) in *. assert (ML : INR (length m) <= INR (length w)) by (apply le_INR; unfold m; rewrite moves_length; lia).
    assert (MU : INR (length m) * uu <= INR (length w) * uu) by (apply Rmult_le_compat_r; lra).
    assert (SM : INR (length w) * uu <= / 1000) by (rewrite uu_val; lra).
    apply rel_bounds in B; [|lra|exact S0].
    set (d := 2 * (INR (length m) * uu) + 5 * uu) in *.
    assert (UV : uu <= / 1000000) by (rewrite uu_val; lra).
    assert (MP : 0 <= INR (length m) * uu) by (apply Rmult_le_pos; [apply pos_INR|lra]).
    assert (DB : 0 <= d <= / 2) by (unfold d; lra).
    pose proof (exp_near _ _ d S0 DB B) as G. rewrite !Ropp_involutive, exp_ln in G by exact PP.
    assert (W0 : wp <= 0).
    { assert (0 <= (1 - d) * - ln (prodm p m)) by (apply Rmult_le_pos; lra). lra. }
    pose proof (EX wp F W0) as X. assert (E1 : exp wp <= 1) by (rewrite <- exp_0; now apply exp_le).
    pose proof tiny_u as TU. pose proof (exp_pos wp) as E0.
    replace (ex wp - prodm p m) with ((ex wp - exp wp) + (exp wp - prodm p m)) by ring.
    eapply Rle_trans; [apply Rabs_triang|].
    assert (4 * uu * exp wp <= 4 * uu * 1) by (apply Rmult_le_compat_l; lra). unfold d in G. lra.
  - rewrite Rminus_0_l, Rabs_Ropp.
    assert (Z : prodm p (movesof w) = 0) by (destruct H as [Z|Z]; [exact Z|apply prodm_zero; [intros i j I; now apply D|exact Z]]).
    rewrite Z, Rabs_R0. apply Rmult_le_pos; lra.
Qed.

Lemma moves_In w i j : In (i, j) (movesof w) -> In i w /\ In j w.
Proof.
  induction w as [|a [|b r] IH]; [intros []|intros []|]. rewrite moves_cons. intros [E|I].
  - injection E as <- <-. split; [now left|right; now left].
  - destruct (IH I). split; now right.
Qed.

Theorem blocked_zero lg ex p w : blocked p w -> f_sequence_probability lg ex p w = 0.
Proof.
  unfold f_sequence_probability. fold (movesof w). generalize 0 at 1 as acc.
  induction w as [|i [|j r] IH]; intros acc B; [destruct B|destruct B|]. rewrite moves_cons. cbn [f_log_loop].
  destruct (Rlt_dec 0 (p i j)) as [P|P]; [|reflexivity]. destruct B as [B|B]; [lra|]. now apply IH.
Qed.

(** probabilities typed by the user *)
Lemma prodm_close p q m : (forall i j, In (i, j) m -> 0 <= p i j <= 1 /\ 0 <= q i j <= 1 /\ Rabs (p i j - q i j) <= 2 * uu) ->
  Rabs (prodm p m - prodm q m) <= 2 * INR (length m) * uu.
Proof.
  induction m as [|[i j] m IH]; intros D; [cbn; rewrite Rminus_diag_eq, Rabs_R0 by reflexivity; lra|].
  cbn [prodm length]. rewrite S_INR. destruct (D i j (or_introl eq_refl)) as (A & B & C).
  pose proof (IH (fun a b I => D a b (or_intror I))) as E.
  pose proof (prodm_pos_le p m (fun a b I => proj1 (D a b (or_intror I)))) as P.
  replace (p i j * prodm p m - q i j * prodm q m) with ((p i j - q i j) * prodm p m + q i j * (prodm p m - prodm q m)) by ring.
  eapply Rle_trans; [apply Rabs_triang|]. rewrite !Rabs_mult, (Rabs_pos_eq (prodm p m)), (Rabs_pos_eq (q i j)) by lra.
  pose proof (Rabs_pos (p i j - q i j)). pose proof (Rabs_pos (prodm p m - prodm q m)). nra.
Qed.
Theorem typed_sequence lg ex n q w : log_ok lg -> exp_ok ex -> INR (length w) <= 1000000000000 -> stochasticR n q ->
  (forall i, In i w -> (i < n)%nat) ->
  Rabs (f_sequence_probability lg ex (fun i j => rnd (q i j)) w - walkR q w) <= 17 * INR (S (length w)) * uu.
Proof.
  intros LG EX N [Q T] W.
  assert (D : forall i j, In (i, j) (movesof w) -> 0 <= q i j <= 1).
  { intros i j I. destruct (moves_In w i j I) as [A B]. apply W in A, B. split; [now apply Q|]. rewrite <- (T i A). apply rsumn_in; auto. }
  pose proof (sequence_near lg ex (fun i j => rnd (q i j)) w LG EX N) as E.
  assert (D' : forall i j, In (i, j) (movesof w) -> is_double (rnd (q i j)) /\ 0 <= rnd (q i j) <= 1).
  { intros i j I. pose proof (D i j I). split; [apply is_double_rnd|]. split; [now apply rnd_nonneg|now apply rnd_le_1]. }
  specialize (E D'). cbn beta in E. pose proof uu_pos as UP. pose proof tiny_u as TU. pose proof tiny_pos.
  assert (C : Rabs (prodm (fun i j => rnd (q i j)) (movesof w) - prodm q (movesof w)) <= 2 * INR (length (movesof w)) * uu).
  { apply prodm_close. intros i j I. pose proof (D i j I) as DI. split; [apply (D' i j I)|]. split; [exact DI|].
    pose proof (rnd_0_up _ (proj1 DI)). pose proof (rnd_0_lo _ (proj1 DI)). apply Rabs_le. nra. }
  rewrite <- !walk_prodm in C.
  assert (ML : INR (length (movesof w)) <= INR (S (length w))) by (apply le_INR; rewrite moves_length; lia).
  assert (MU : INR (length (movesof w)) * uu <= INR (S (length w)) * uu) by (apply Rmult_le_compat_r; lra).
  replace (f_sequence_probability lg ex (fun i j => rnd (q i j)) w - walkR q w) with
    ((f_sequence_probability lg ex (fun i j => rnd (q i j)) w - walkR (fun i j => rnd (q i j)) w) +
     (walkR (fun i j => rnd (q i j)) w - walkR q w)) by ring.
  eapply Rle_trans; [apply Rabs_triang|]. lra.
Qed.

(** ** correctly rounded functions qualify *)
Lemma below_one x : is_double x -> x < 1 -> x <= 1 - uu.
Proof.
  intros F L. pose proof (pred_ge_gt radix2 fexp64 x 1 F is_double_1 L) as H.
  assert (E : pred radix2 fexp64 1 = 1 - uu).
  { change 1 with (bpow radix2 0) at 1. rewrite pred_bpow. reflexivity. }
  lra.
Qed.
Lemma ln_gap x : is_double x -> 0 < x < 1 -> uu <= - ln x.
Proof.
  intros F [P L]. pose proof (below_one x F L) as B. pose proof (exp_ineq1_le (ln x)) as E. rewrite exp_ln in E by exact P. lra.
Qed.
Lemma rounded_log : log_ok (fun x => rnd (ln x)).
Proof.
  intros x F [P [L|L]].
  - split; [apply is_double_rnd|]. pose proof (ln_gap x F (conj P L)) as G. pose proof (ln_nonpos x (conj P (Rlt_le _ _ L))) as N0.
    rewrite (Rabs_left1 (ln x)) by exact N0. set (y := - ln x) in *. assert (Y : 0 <= y) by (unfold y; lra).
    replace (ln x) with (- y) by (unfold y; ring). rewrite rnd_neg. clearbody y.
    pose proof (rnd_0_up y Y). pose proof (rnd_0_lo y Y). pose proof uu_pos as UP. pose proof tiny_pos.
    assert (T : tiny <= uu * y).
    { apply Rle_trans with (uu * uu); [unfold tiny, uu; rewrite <- bpow_plus; apply bpow_le; lia|apply Rmult_le_compat_l; lra]. }
    apply Rabs_le. lra.
  - subst x. rewrite ln_1, rnd_0. split; [apply is_double_0|]. rewrite Rminus_0_r, Rabs_R0. lra.
Qed.
Lemma rounded_exp : exp_ok (fun x => rnd (exp x)).
Proof.
  intros x F _. pose proof (exp_pos x) as P. pose proof (rnd_0_up (exp x) ltac:(lra)). pose proof (rnd_0_lo (exp x) ltac:(lra)).
  pose proof uu_pos. pose proof tiny_pos. assert (0 <= uu * exp x) by (apply Rmult_le_pos; lra). apply Rabs_le. lra.
Qed.

(** ** underflow: staying many times in a state that is left with probability one half *)
Definition halves : nat -> nat -> R := fun _ _ => / 2.
Lemma halves_stochastic : stochasticR 2 halves.
Proof. split; [intros; unfold halves; lra|]. intros. unfold rsumn, halves; cbn [seq map rsum]. lra. Qed.
Lemma half_double : is_double (/ 2).
Proof. change (/ 2) with (bpow radix2 (-1)). apply is_double_bpow. lia. Qed.
Lemma stay_moves k : movesof (repeat 0%nat (S k)) = repeat (0%nat, 0%nat) k.
Proof. induction k as [|k IH]; [reflexivity|]. change (repeat 0%nat (S (S k))) with (0%nat :: 0%nat :: repeat 0%nat k). rewrite moves_cons. cbn [repeat]. f_equal. exact IH. Qed.
Lemma stay_prod k : prodm halves (repeat (0%nat, 0%nat) k) = / 2 ^ k.
Proof. induction k as [|k IH]; [cbn; lra|]. cbn [repeat prodm pow]. rewrite IH, Rinv_mult. reflexivity. Qed.
Theorem long_stay lg k : log_ok lg -> (1100 <= k)%nat -> INR k <= 1000000 ->
  f_sequence_probability lg (fun x => rnd (exp x)) halves (repeat 0%nat (S k)) = 0 /\
  walkR halves (repeat 0%nat (S k)) = / 2 ^ k /\ 0 < walkR halves (repeat 0%nat (S k)).
Proof.
  intros LG K N. rewrite walk_prodm, stay_moves, stay_prod.
  assert (P2 : 0 < 2 ^ k) by (apply pow_lt; lra).
  split; [|split; [reflexivity|now apply Rinv_0_lt_compat]].
  unfold f_sequence_probability. fold (movesof (repeat 0%nat (S k))). rewrite stay_moves.
  pose proof (loop_near lg halves (repeat (0%nat, 0%nat) k) LG 0 0 0) as H.
  assert (D : forall i j, In (i, j) (repeat (0%nat, 0%nat) k) -> is_double (halves i j) /\ halves i j <= 1) by (intros; unfold halves; split; [apply half_double|lra]).
  assert (B0 : (1 - 4 * uu) * lo 0 * 0 <= - 0 <= (1 + 4 * uu) * hi 0 * 0) by (rewrite !Rmult_0_r; lra).
  specialize (H D is_double_0 (Rle_refl 0) B0).
  destruct (f_log_loop lg halves _ 0) as [wp|]; [|reflexivity].
  destruct H as (F & _ & B & S0). rewrite stay_prod, repeat_length, Rminus_0_l in *. cbn [plus] in B.
  pose proof uu_pos as UP. apply rel_bounds in B; [|rewrite uu_val; lra|exact S0].
  rewrite ln_Rinv, Ropp_involutive in * by exact P2.
  assert (LP : ln (2 ^ k) = INR k * ln 2).
  { clear. induction k as [|k IH]; [cbn; rewrite ln_1; ring|]. cbn [pow]. rewrite ln_mult by (try apply pow_lt; lra).
    rewrite IH, S_INR. ring. }
  assert (L2 : 0 < ln 2) by (rewrite <- ln_1; apply ln_increasing; lra).
  assert (K1 : 1100 <= INR k) by (replace 1100 with (INR 1100) by (rewrite INR_IZR_INZ; reflexivity); now apply le_INR).
  assert (G : 1098 * ln 2 <= - wp).
  { destruct B as [B _]. eapply Rle_trans; [|exact B]. rewrite LP, <- Rmult_assoc. apply Rmult_le_compat_r; [lra|].
    assert (2 * (INR k * uu) + 5 * uu <= / 1000) by (rewrite uu_val; lra). nra. }
  apply rnd_tiny; [left; apply exp_pos|].
  apply Rle_lt_trans with (bpow radix2 (-1098)); [|unfold tiny; apply bpow_lt; lia].
  rewrite bpow_exp. apply exp_le. change (IZR radix2) with 2. lra.
Qed.
