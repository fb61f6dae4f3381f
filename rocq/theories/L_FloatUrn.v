(** L_FloatUrn: urn models and bounded chains in doubles. *)
From Coq Require Import Reals Lra Lia List ZArith Bool.
From Flocq Require Import Core.
From Verif Require Import Fl M_Float S_Float L_Float1 L_Float2 L_Float3 M_FloatNorm S_FloatNorm L_FloatNorm L_FloatRed M_FloatBirth L_FloatBirth
  M_FloatMoran S_FloatMoran L_FloatMoran M_FloatUrn S_FloatUrn.
Import ListNotations.
Local Open Scope R_scope.

Lemma row_close sm n f : summing sm -> INR n <= 1000000000 -> (forall j, (j < n)%nat -> is_double (f j) /\ 0 <= f j <= 1) ->
  Rabs (rsumn n f - 1) <= 100 * e16 -> f_close1 (sm (frow n f)).
Proof.
  intros S Nn D T. destruct (row_bounds sm n f S) as [[F _] [L U]].
  { intros j J. destruct (D j J) as [A B]. split; [exact A|lra]. }
  apply close_in; [exact F|]. set (x := sm _) in *. set (t := rsumn n f) in *. clearbody x t.
  pose proof uu_val as UV. pose proof uu_pos as UP. pose proof (pos_INR n) as Np.
  assert (E0 : 0 < e16 <= 12 / 100000000000000000) by (unfold e16; lra). apply Rabs_le_inv in T.
  assert (K : 0 <= INR n * uu <= 12 / 100000000).
  { split; [apply Rmult_le_pos; lra|]. apply Rle_trans with (1000000000 * uu); [apply Rmult_le_compat_r; lra|rewrite UV; lra]. }
  pose proof (lo_ge n) as LG. pose proof (hi_le n ltac:(lra)) as HL.
  assert (lo n * t >= (1 - 12 / 100000000) * t) by (apply Rle_ge, Rmult_le_compat_r; lra).
  assert (hi n * t <= (1 + 24 / 100000000) * t) by (apply Rmult_le_compat_r; lra).
  apply Rabs_le. lra.
Qed.
Lemma d1 : is_double 1.
Proof. change 1 with (INR 1). apply double_small. lia. Qed.
Lemma d0 : is_double 0.
Proof. change 0 with (INR 0). apply double_small. lia. Qed.
Lemma one_sum n c v : (c < n)%nat -> rsumn n (fun j => if Nat.eqb j c then v else 0) = v.
Proof. intros C. rewrite (rsumn_single 2 (le_n 2)), (proj2 (Nat.ltb_lt c n) C). reflexivity. Qed.
Lemma two_sum n c d a b : (c < n)%nat -> (d < n)%nat -> c <> d ->
  rsumn n (fun j => if Nat.eqb j c then a else if Nat.eqb j d then b else 0) = a + b.
Proof.
  intros C D N. rewrite (rsumn_ext n _ (fun j => (if Nat.eqb j c then a else 0) + (if Nat.eqb j d then b else 0))).
  - rewrite rsumn_add, !one_sum by assumption. reflexivity.
  - intros j J. destruct (Nat.eqb_spec j c), (Nat.eqb_spec j d); try lia; ring.
Qed.

(** one step of the urns *)
Section Step.
Variables (sq : R -> R) (x : R).
Hypothesis SQ : squaring sq.
Hypothesis X : / 1000000000 <= x <= 1 - / 1000000000.
Let q := rnd x.
Let c := rnd (1 - q).
Lemma q_near : is_double q /\ 0 < q < 1 /\ Rabs (q - x) <= 2 * e16.
Proof.
  pose proof (rb x 1 ltac:(rewrite Rabs_pos_eq; lra)) as E. fold q in E.
  assert (E0 : 0 < e16 <= 12 / 100000000000000000) by (unfold e16; lra).
  split; [apply is_double_rnd|]. apply Rabs_le_inv in E. split; [lra|]. apply Rabs_le. lra.
Qed.
Lemma c_near : is_double c /\ / 2000000000 <= c <= 1 /\ Rabs (c - (1 - x)) <= 4 * e16.
Proof.
  destruct q_near as (_ & Q & E). assert (E0 : 0 < e16 <= 12 / 100000000000000000) by (unfold e16; lra).
  pose proof (rb (1 - q) 1 ltac:(rewrite Rabs_pos_eq; lra)) as F. fold c in F.
  pose proof (rnd_le_1 (1 - q) ltac:(lra)) as G. fold c in G.
  split; [apply is_double_rnd|]. apply Rabs_le_inv in E. apply Rabs_le_inv in F. split; [lra|]. apply Rabs_le. lra.
Qed.
Lemma sq_near y z : is_double y -> / 2000000000 <= y <= 1 -> 0 <= z <= 1 -> Rabs (y - z) <= 4 * e16 ->
  is_double (sq y) /\ 0 < sq y <= 1 /\ Rabs (sq y - z * z) <= 11 * e16.
Proof.
  intros D Y Z E. destruct (SQ y D ltac:(lra)) as (A & B & C). assert (E0 : 0 < e16) by (unfold e16; lra).
  pose proof uu_pos as UP. pose proof uu_val as UV. pose proof tiny_small as T. pose proof tiny_pos as TP.
  assert (U : uu <= e16) by (rewrite UV; unfold e16; lra).
  assert (P0 : / 4000000000000000000 <= y * y).
  { replace (/ 4000000000000000000) with (/ 2000000000 * / 2000000000) by lra. apply Rmult_le_compat; lra. }
  assert (P1 : y * y <= 1) by nra.
  split; [exact A|]. apply Rabs_le_inv in C. split.
  - assert (2 * uu * (y * y) <= 1 / 2 * (y * y)) by (apply Rmult_le_compat_r; lra). lra.
  - assert (F : Rabs (y * y - z * z) <= 8 * e16).
    { replace (y * y - z * z) with ((y - z) * (y + z)) by ring. rewrite Rabs_mult, (Rabs_pos_eq (y + z)) by lra.
      replace (8 * e16) with (4 * e16 * 2) by ring. apply Rmult_le_compat; [apply Rabs_pos|lra|exact E|lra]. }
    assert (2 * uu * (y * y) <= 2 * uu * 1) by (apply Rmult_le_compat_l; lra).
    apply Rabs_le_inv in F. apply Rabs_le. lra.
Qed.
Lemma down_near : is_double (sq q) /\ 0 < sq q <= 1 /\ Rabs (sq q - x * x) <= 11 * e16.
Proof.
  destruct q_near as (A & B & C). assert (E0 : 0 < e16 <= 12 / 100000000000000000) by (unfold e16; lra).
  pose proof (Rabs_le_inv _ _ C). apply sq_near; [exact A|lra|lra|lra].
Qed.
Lemma up_near : is_double (sq c) /\ 0 < sq c <= 1 /\ Rabs (sq c - (1 - x) * (1 - x)) <= 11 * e16.
Proof. destruct c_near as (A & B & C). apply sq_near; [exact A|exact B|lra|exact C]. Qed.
Lemma mid_near : 0 < rnd (rnd (2 * q) * c) <= 1 /\ Rabs (rnd (rnd (2 * q) * c) - (1 - x * x - (1 - x) * (1 - x))) <= 20 * e16.
Proof.
  destruct q_near as (_ & Q & QE). destruct c_near as (_ & C & CE). assert (E0 : 0 < e16 <= 12 / 100000000000000000) by (unfold e16; lra).
  pose proof (rb (2 * q) 2 ltac:(rewrite Rabs_pos_eq; lra)) as E. set (d := rnd (2 * q)) in *. clearbody d.
  apply Rabs_le_inv in QE. apply Rabs_le_inv in E.
  assert (DE : Rabs (d - 2 * x) <= 7 * e16) by (apply Rabs_le; lra).
  assert (D : / 1000000000 <= d <= 21 / 10) by lra.
  assert (P : / 2000000000000000000 <= d * c).
  { replace (/ 2000000000000000000) with (/ 1000000000 * / 2000000000) by lra. apply Rmult_le_compat; lra. }
  assert (F : Rabs (d * c - 2 * x * (1 - x)) <= 15 * e16).
  { replace (d * c - 2 * x * (1 - x)) with ((d - 2 * x) * c + 2 * x * (c - (1 - x))) by ring. eapply Rle_trans; [apply Rabs_triang|].
    rewrite !Rabs_mult, (Rabs_pos_eq c), (Rabs_pos_eq 2), (Rabs_pos_eq x) by lra.
    assert (Rabs (d - 2 * x) * c <= 7 * e16 * 1) by (apply Rmult_le_compat; [apply Rabs_pos|lra|exact DE|lra]).
    assert (2 * x * Rabs (c - (1 - x)) <= 2 * (4 * e16)) by (apply Rmult_le_compat; [lra|apply Rabs_pos|lra|exact CE]). lra. }
  assert (H : 2 * x * (1 - x) <= 1 / 2) by (pose proof (Rle_0_sqr (x - 1 / 2)) as SQ0; unfold Rsqr in SQ0; lra).
  apply Rabs_le_inv in F. pose proof (rnd_err (d * c)) as G. rewrite (Rabs_pos_eq (d * c)) in G by lra.
  pose proof uu_pos as UP. pose proof uu_val as UV. pose proof tiny_small as T. pose proof tiny_pos as TP.
  assert (U : uu <= e16) by (rewrite UV; unfold e16; lra).
  assert (K : uu * (d * c) <= uu * 1) by (apply Rmult_le_compat_l; lra).
  assert (K' : uu * (d * c) <= 1 / 2 * (d * c)) by (apply Rmult_le_compat_r; lra).
  apply Rabs_le_inv in G. split; [split; lra|]. apply Rabs_le. lra.
Qed.
End Step.

Lemma inner_share d i : INR d + 1 <= 1000000000 -> (1 <= i < d)%nat -> / 1000000000 <= INR i / INR d <= 1 - / 1000000000.
Proof.
  intros N I. assert (A : 1 <= INR i) by (apply (le_INR 1); lia). assert (B : INR i + 1 <= INR d) by (rewrite <- S_INR; apply le_INR; lia).
  assert (V : / 1000000000 <= / INR d) by (apply Rinv_le_contravar; lra).
  assert (Iv : INR d * / INR d = 1) by (apply Rinv_r; lra). unfold Rdiv.
  split; [nra|]. assert ((INR i + 1) * / INR d <= INR d * / INR d) by (apply Rmult_le_compat_r; lra). lra.
Qed.
Lemma big n : INR (2 * n + 1) <= 1000000000 -> INR (n * 2) + 1 <= 1000000000.
Proof. intros H. rewrite <- S_INR. replace (S (n * 2)) with (2 * n + 1)%nat by lia. exact H. Qed.

(** both models at the ends *)
Lemma ends d dn up i j : (1 <= d)%nat -> (i = 0 \/ i = d)%nat -> dn 0 = 0 -> dn 1 = 1 -> up 0 = 1 -> up 1 = 0 -> (j < d + 1)%nat ->
  chainR d dn up i j = if Nat.eqb i 0 then (if Nat.eqb j 1 then 1 else 0) else (if Nat.eqb j (d - 1) then 1 else 0).
Proof.
  intros D I A0 A1 B0 B1 J. unfold chainR. assert (P : 1 <= INR d) by (apply (le_INR 1); lia).
  destruct I as [I|I]; subst i.
  - replace (INR 0 / INR d) with 0 by (simpl; field; lra). rewrite A0, B0. simpl.
    destruct (Nat.eqb_spec j 0), (Nat.eqb_spec j 1); try lia; ring.
  - replace (INR d / INR d) with 1 by (field; lra). rewrite A1, B1. rewrite (proj2 (Nat.eqb_neq d 0)) by lia.
    destruct (Nat.eqb_spec (S j) d), (Nat.eqb_spec j d), (Nat.eqb_spec j (S d)), (Nat.eqb_spec j (d - 1)); try lia; ring.
Qed.

Section Urn.
Variables (sq : R -> R) (n : nat).
Hypothesis SQ : squaring sq.
Hypothesis N1 : (1 <= n)%nat.
Hypothesis NB : INR (2 * n + 1) <= 1000000000.
Lemma bit (b : bool) : is_double (if b then 1 else 0) /\ 0 <= (if b then 1 else 0) <= 1 /\ Rabs ((if b then 1 else 0) - (if b then 1 else 0)) <= 20 * e16 /\
  (0 < (if b then 1 else 0) <-> (if b then 1 else 0) <> 0).
Proof.
  assert (E0 : 0 < e16) by (unfold e16; lra).
  destruct b; (split; [exact d1 || exact d0|]; split; [lra|]; split; [|split; lra]).
  - replace (1 - 1) with 0 by ring. rewrite Rabs_R0. lra.
  - replace (0 - 0) with 0 by ring. rewrite Rabs_R0. lra.
Qed.
Lemma laplace_entry i j : (i < 2 * n + 1)%nat -> (j < 2 * n + 1)%nat ->
  is_double (f_laplace sq n i j) /\ 0 <= f_laplace sq n i j <= 1 /\ Rabs (f_laplace sq n i j - laplaceR n i j) <= 20 * e16 /\
  (0 < f_laplace sq n i j <-> laplaceR n i j <> 0).
Proof.
  intros I J. unfold f_laplace, laplaceR. replace (n * 2)%nat with (2 * n)%nat by lia.
  destruct (Nat.eqb_spec i 0) as [I0|I0].
  { rewrite (ends (2 * n) _ _ i j) by (try lia; ring). rewrite (proj2 (Nat.eqb_eq i 0) I0). apply bit. }
  destruct (Nat.eqb_spec i (2 * n)) as [In|In].
  { rewrite (ends (2 * n) _ _ i j) by (try lia; ring). rewrite (proj2 (Nat.eqb_neq i 0) I0). apply bit. }
  assert (X : / 1000000000 <= INR i / INR (2 * n) <= 1 - / 1000000000).
  { apply inner_share; [replace (2 * n)%nat with (n * 2)%nat by lia; apply big; exact NB|lia]. }
  unfold chainR. set (x := INR i / INR (2 * n)) in *. clearbody x. assert (E0 : 0 < e16) by (unfold e16; lra).
  destruct (Nat.eqb (S j) i).
  { destruct (down_near sq x SQ X) as (A & B & C). split; [exact A|]. split; [lra|]. split; [lra|]. split; intros _; [nra|lra]. }
  destruct (Nat.eqb j i).
  { destruct (mid_near x X) as (B & C). split; [apply is_double_rnd|]. split; [lra|]. split; [lra|]. split; intros _; [nra|lra]. }
  destruct (Nat.eqb j (S i)); [|exact (bit false)].
  destruct (up_near sq x SQ X) as (A & B & C). split; [exact A|]. split; [lra|]. split; [lra|]. split; intros _; [nra|lra].
Qed.
Lemma laplace_total i : (i < 2 * n + 1)%nat -> Rabs (rsumn (2 * n + 1) (f_laplace sq n i) - 1) <= 100 * e16.
Proof.
  intros I. assert (E0 : 0 < e16) by (unfold e16; lra). unfold f_laplace. replace (n * 2)%nat with (2 * n)%nat by lia.
  assert (Z : Rabs (1 - 1) <= 100 * e16) by (replace (1 - 1) with 0 by ring; rewrite Rabs_R0; lra).
  destruct (Nat.eqb_spec i 0) as [I0|I0]; [rewrite one_sum by lia; exact Z|].
  destruct (Nat.eqb_spec i (2 * n)) as [In|In]; [rewrite one_sum by lia; exact Z|].
  rewrite three_sum by lia.
  assert (X : / 1000000000 <= INR i / INR (2 * n) <= 1 - / 1000000000).
  { apply inner_share; [replace (2 * n)%nat with (n * 2)%nat by lia; apply big; exact NB|lia]. }
  set (x := INR i / INR (2 * n)) in *. clearbody x.
  destruct (down_near sq x SQ X) as (_ & _ & A). destruct (mid_near x X) as (_ & B). destruct (up_near sq x SQ X) as (_ & _ & C).
  apply Rabs_le_inv in A. apply Rabs_le_inv in B. apply Rabs_le_inv in C. apply Rabs_le. lra.
Qed.
Lemma ehrenfest_entry i j : (i < 2 * n + 1)%nat -> (j < 2 * n + 1)%nat ->
  is_double (f_ehrenfest n i j) /\ 0 <= f_ehrenfest n i j <= 1 /\ Rabs (f_ehrenfest n i j - ehrenfestR n i j) <= 20 * e16 /\
  (0 < f_ehrenfest n i j <-> ehrenfestR n i j <> 0).
Proof.
  intros I J. unfold f_ehrenfest, ehrenfestR. replace (n * 2)%nat with (2 * n)%nat by lia.
  destruct (Nat.eqb_spec i 0) as [I0|I0].
  { rewrite (ends (2 * n) _ _ i j) by (try lia; ring). rewrite (proj2 (Nat.eqb_eq i 0) I0). apply bit. }
  destruct (Nat.eqb_spec i (2 * n)) as [In|In].
  { rewrite (ends (2 * n) _ _ i j) by (try lia; ring). rewrite (proj2 (Nat.eqb_neq i 0) I0). apply bit. }
  assert (X : / 1000000000 <= INR i / INR (2 * n) <= 1 - / 1000000000).
  { apply inner_share; [replace (2 * n)%nat with (n * 2)%nat by lia; apply big; exact NB|lia]. }
  unfold chainR. set (x := INR i / INR (2 * n)) in *. clearbody x. assert (E0 : 0 < e16) by (unfold e16; lra).
  destruct (q_near x X) as (A & B & C). destruct (c_near x X) as (A' & B' & C').
  destruct (Nat.eqb (S j) i).
  { split; [exact A|]. split; [lra|]. split; [lra|]. split; intros _; lra. }
  destruct (Nat.eqb_spec j i) as [e|e].
  { rewrite (proj2 (Nat.eqb_neq j (S i))) by lia. replace (1 - x - (1 - x)) with 0 by ring. exact (bit false). }
  destruct (Nat.eqb j (S i)); [|exact (bit false)].
  split; [exact A'|]. split; [lra|]. split; [lra|]. split; intros _; lra.
Qed.
Lemma ehrenfest_total i : (i < 2 * n + 1)%nat -> Rabs (rsumn (2 * n + 1) (f_ehrenfest n i) - 1) <= 100 * e16.
Proof.
  intros I. assert (E0 : 0 < e16) by (unfold e16; lra). unfold f_ehrenfest. replace (n * 2)%nat with (2 * n)%nat by lia.
  assert (Z : Rabs (1 - 1) <= 100 * e16) by (replace (1 - 1) with 0 by ring; rewrite Rabs_R0; lra).
  destruct (Nat.eqb_spec i 0) as [I0|I0]; [rewrite one_sum by lia; exact Z|].
  destruct (Nat.eqb_spec i (2 * n)) as [In|In]; [rewrite one_sum by lia; exact Z|].
  assert (X : / 1000000000 <= INR i / INR (2 * n) <= 1 - / 1000000000).
  { apply inner_share; [replace (2 * n)%nat with (n * 2)%nat by lia; apply big; exact NB|lia]. }
  set (x := INR i / INR (2 * n)) in *. clearbody x.
  rewrite (rsumn_ext _ _ (fun j => if Nat.eqb (S j) i then rnd x else if Nat.eqb j i then 0 else if Nat.eqb j (S i) then rnd (1 - rnd x) else 0)).
  - rewrite three_sum by lia. destruct (q_near x X) as (_ & _ & C). destruct (c_near x X) as (_ & _ & C').
    apply Rabs_le_inv in C. apply Rabs_le_inv in C'. apply Rabs_le. lra.
  - intros j J. destruct (Nat.eqb_spec (S j) i), (Nat.eqb_spec j i), (Nat.eqb_spec j (S i)); try lia; reflexivity.
Qed.
End Urn.

Theorem laplace_accepted sm sq n : summing sm -> squaring sq -> (1 <= n)%nat -> INR (2 * n + 1) <= 1000000000 ->
  f_accepts sm (2 * n + 1) (f_laplace sq n).
Proof.
  intros S SQ N B. split; [lia|]. split.
  - intros i j I J. destruct (laplace_entry sq n SQ N B i j I J) as (A & C & _). split; [exact A|exact C].
  - intros i I. apply row_close; [exact S|exact B| |apply laplace_total; assumption].
    intros j J. destruct (laplace_entry sq n SQ N B i j I J) as (A & C & _). split; [exact A|exact C].
Qed.
Theorem ehrenfest_accepted sm n : summing sm -> (1 <= n)%nat -> INR (2 * n + 1) <= 1000000000 ->
  f_accepts sm (2 * n + 1) (f_ehrenfest n).
Proof.
  intros S N B. split; [lia|]. split.
  - intros i j I J. destruct (ehrenfest_entry n N B i j I J) as (A & C & _). split; [exact A|exact C].
  - intros i I. apply row_close; [exact S|exact B| |apply ehrenfest_total; assumption].
    intros j J. destruct (ehrenfest_entry n N B i j I J) as (A & C & _). split; [exact A|exact C].
Qed.
Theorem laplace_right sq n i j : squaring sq -> (1 <= n)%nat -> INR (2 * n + 1) <= 1000000000 -> (i < 2 * n + 1)%nat -> (j < 2 * n + 1)%nat ->
  Rabs (f_laplace sq n i j - laplaceR n i j) <= 1 / 100000000000000 /\ (0 < f_laplace sq n i j <-> laplaceR n i j <> 0).
Proof.
  intros SQ N B I J. destruct (laplace_entry sq n SQ N B i j I J) as (_ & _ & C & D). split; [|exact D].
  eapply Rle_trans; [exact C|unfold e16; lra].
Qed.
Theorem ehrenfest_right n i j : (1 <= n)%nat -> INR (2 * n + 1) <= 1000000000 -> (i < 2 * n + 1)%nat -> (j < 2 * n + 1)%nat ->
  Rabs (f_ehrenfest n i j - ehrenfestR n i j) <= 1 / 100000000000000 /\ (0 < f_ehrenfest n i j <-> ehrenfestR n i j <> 0).
Proof.
  intros N B I J. destruct (ehrenfest_entry n N B i j I J) as (_ & _ & C & D). split; [|exact D].
  eapply Rle_trans; [exact C|unfold e16; lra].
Qed.

(** bounded chains *)
Lemma first_row n c : (2 <= n)%nat -> good_bound c ->
  (forall j, is_double (f_first c j) /\ 0 <= f_first c j <= 1) /\ Rabs (rsumn n (f_first c) - 1) <= 100 * e16.
Proof.
  intros N G. assert (E0 : 0 < e16) by (unfold e16; lra).
  assert (Z : Rabs (1 - 1) <= 100 * e16) by (replace (1 - 1) with 0 by ring; rewrite Rabs_R0; lra).
  assert (T : forall b : bool, is_double (if b then 1 else 0) /\ 0 <= (if b then 1 else 0) <= 1) by (intros b; destruct (bit b) as (A & B & _); split; [exact A|exact B]).
  destruct c as [b| |]; unfold f_first.
  - destruct G as [D B]. destruct (compl_near b B) as [C E]. split.
    + intros j. destruct (Nat.eqb j 0); [split; [apply is_double_rnd|exact C]|]. destruct (Nat.eqb j 1); [split; [exact D|exact B]|exact (T false)].
    + rewrite two_sum by lia. apply Rabs_le_inv in E. apply Rabs_le. lra.
  - split; [intros j; apply T|]. rewrite one_sum by lia. exact Z.
  - split; [intros j; apply T|]. rewrite one_sum by lia. exact Z.
Qed.
Lemma last_row n c : (2 <= n)%nat -> good_bound c ->
  (forall j, is_double (f_last n c j) /\ 0 <= f_last n c j <= 1) /\ Rabs (rsumn n (f_last n c) - 1) <= 100 * e16.
Proof.
  intros N G. assert (E0 : 0 < e16) by (unfold e16; lra).
  assert (Z : Rabs (1 - 1) <= 100 * e16) by (replace (1 - 1) with 0 by ring; rewrite Rabs_R0; lra).
  assert (T : forall b : bool, is_double (if b then 1 else 0) /\ 0 <= (if b then 1 else 0) <= 1) by (intros b; destruct (bit b) as (A & B & _); split; [exact A|exact B]).
  destruct c as [b| |]; unfold f_last.
  - destruct G as [D B]. destruct (compl_near b B) as [C E]. split.
    + intros j. destruct (Nat.eqb j (n - 1)); [split; [exact D|exact B]|]. destruct (Nat.eqb j (n - 2)); [split; [apply is_double_rnd|exact C]|exact (T false)].
    + rewrite two_sum by lia. apply Rabs_le_inv in E. apply Rabs_le. lra.
  - split; [intros j; apply T|]. rewrite one_sum by lia. exact Z.
  - split; [intros j; apply T|]. rewrite one_sum by lia. exact Z.
Qed.
Theorem bounded_accepted sm n p c : summing sm -> INR n <= 1000000000 -> f_accepts sm n p -> good_bound c -> f_accepts sm n (f_bounded n p c).
Proof.
  intros S B (N & D & R) G. destruct (first_row n c N G) as [F1 F2]. destruct (last_row n c N G) as [L1 L2].
  split; [exact N|]. split.
  - intros i j I J. unfold f_bounded. destruct (Nat.eqb i (n - 1)); [apply L1|]. destruct (Nat.eqb i 0); [apply F1|]. apply D; assumption.
  - intros i I. unfold f_bounded. destruct (Nat.eqb i (n - 1)); [apply row_close; auto|]. destruct (Nat.eqb i 0); [apply row_close; auto|]. apply R, I.
Qed.
(** what the rows are *)
Theorem bounded_rows n p c i j : (2 <= n)%nat -> good_bound c -> (i < n)%nat -> (j < n)%nat ->
  ((0 < i < n - 1)%nat -> f_bounded n p c i j = p i j) /\
  (i = 0%nat -> match c with
    | Semi b => Rabs (f_bounded n p c i j - edgeR 0 1 b j) <= uu
    | Absorbing => f_bounded n p c i j = edgeR 0 1 0 j
    | Reflecting => f_bounded n p c i j = edgeR 0 1 1 j end) /\
  (i = (n - 1)%nat -> match c with
    | Semi b => Rabs (f_bounded n p c i j - edgeR (n - 1) (n - 2) (1 - b) j) <= uu
    | Absorbing => f_bounded n p c i j = edgeR (n - 1) (n - 2) 0 j
    | Reflecting => f_bounded n p c i j = edgeR (n - 1) (n - 2) 1 j end).
Proof.
  intros N G I J. unfold f_bounded. pose proof uu_pos as UP.
  assert (Z : forall y z, y = z -> Rabs (y - z) <= uu) by (intros y z ->; replace (z - z) with 0 by ring; rewrite Rabs_R0; lra).
  assert (CN : forall b, is_double b -> 0 <= b <= 1 -> Rabs (rnd (1 - b) - (1 - b)) <= uu).
  { intros b D B. pose proof (rnd_add 1 (- b) d1 (is_double_opp b D)) as E. change (1 + - b) with (1 - b) in E.
    rewrite (Rabs_pos_eq (1 - b)) in E by lra. assert (uu * (1 - b) <= uu * 1) by (apply Rmult_le_compat_l; lra). lra. }
  split; [|split].
  - intros K. rewrite (proj2 (Nat.eqb_neq i (n - 1))), (proj2 (Nat.eqb_neq i 0)) by lia. reflexivity.
  - intros ->. rewrite (proj2 (Nat.eqb_neq 0 (n - 1))) by lia. rewrite Nat.eqb_refl. unfold f_first, edgeR.
    destruct c as [b| |].
    + destruct G as [D B]. destruct (Nat.eqb_spec j 0), (Nat.eqb_spec j 1); try lia; [apply CN; assumption|apply Z; reflexivity|apply Z; reflexivity].
    + destruct (Nat.eqb_spec j 0), (Nat.eqb_spec j 1); try lia; ring.
    + destruct (Nat.eqb_spec j 0), (Nat.eqb_spec j 1); try lia; ring.
  - intros ->. rewrite Nat.eqb_refl. unfold f_last, edgeR.
    destruct c as [b| |].
    + destruct G as [D B]. destruct (Nat.eqb_spec j (n - 1)), (Nat.eqb_spec j (n - 2)); try lia; [apply Z; ring|apply CN; assumption|apply Z; reflexivity].
    + destruct (Nat.eqb_spec j (n - 1)), (Nat.eqb_spec j (n - 2)); try lia; ring.
    + destruct (Nat.eqb_spec j (n - 1)), (Nat.eqb_spec j (n - 2)); try lia; ring.
Qed.
(** correct rounding is one way of squaring *)
Lemma exact_squaring : squaring (fun x => rnd (x * x)).
Proof.
  intros x D X. assert (P : 0 <= x * x <= 1) by nra. split; [apply is_double_rnd|].
  split; [split; [apply rnd_nonneg; lra|apply rnd_le_1; lra]|].
  pose proof (rnd_err (x * x)) as E. rewrite (Rabs_pos_eq (x * x)) in E by lra. pose proof uu_pos.
  assert (0 <= uu * (x * x)) by (apply Rmult_le_pos; lra). lra.
Qed.
