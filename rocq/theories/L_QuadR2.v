(** L_QuadR2: the Gauss-Legendre quadrature with two nodes converges. *)
From Coq Require Import Reals ZArith Lra Lia Psatz Bool.
From Verif Require Import M_QuadR L_QuadR.
Close Scope R_scope.
Open Scope nat_scope.
Open Scope res_scope.

Definition root : R := (/ sqrt 3)%R.
Lemma root_sq : (root * root = 1 / 3)%R.
Proof. unfold root. assert (sqrt 3 <> 0)%R by (apply Rgt_not_eq, sqrt_lt_R0; lra). rewrite <- Rinv_mult. rewrite sqrt_def by lra. lra. Qed.
Lemma root_pos : (0 < root)%R.
Proof. apply Rinv_0_lt_compat, sqrt_lt_R0. lra. Qed.
Lemma root_bounds : (1 / 2 < root)%R /\ (root < 3 / 5)%R.
Proof. pose proof root_sq. pose proof root_pos. split; nra. Qed.
Definition half_step (z : R) : R := (z / 2 + / (6 * z))%R.
Lemma step_two z : (1 / 2 <= z)%R -> (z < 1)%R -> legendre_step 2 z = Ok (half_step z, (3 * z)%R).
Proof.
  intros A B. unfold legendre_step. cbn [legendre]. cbn [INR].
  destruct (Req_EM_T (z * z - 1) 0) as [E|N]; [exfalso; nra|].
  assert (E : ((1 + 1) * ((z * (((2 * (1 + 1) - 1) * z * (((2 * 1 - 1) * z * 1 - (1 - 1) * 0) / 1) - (1 + 1 - 1) * 1) / (1 + 1)) - ((2 * 1 - 1) * z * 1 - (1 - 1) * 0) / 1) / (z * z - 1)) = 3 * z)%R) by (field; exact N).
  rewrite E. destruct (Req_EM_T (3 * z) 0) as [E0|N0]; [exfalso; lra|]. f_equal. f_equal. unfold half_step. field. lra.
Qed.
Lemma half_step_above z : (0 < z)%R -> (root <= half_step z)%R.
Proof.
  intros P. unfold half_step. pose proof root_sq as S. assert (E : (z / 2 + / (6 * z) - root = (z - root) * (z - root) / (2 * z))%R).
  { replace (/ (6 * z))%R with (root * root / (2 * z))%R by (rewrite S; field; lra). field. lra. }
  assert (0 <= (z - root) * (z - root) / (2 * z))%R by (apply Rmult_le_pos; [apply Rle_0_sqr|left; apply Rinv_0_lt_compat; lra]). lra.
Qed.
Lemma half_step_close z : (root <= z)%R -> (half_step z - root <= (z - root) / 2)%R.
Proof.
  intros A. pose proof root_pos. unfold half_step. pose proof root_sq as S. assert (/ (6 * z) <= root / 2)%R; [|lra].
  replace (/ (6 * z))%R with (root * root / (2 * z))%R by (rewrite S; field; lra). apply (Rmult_le_reg_r (2 * z)); [lra|]. replace (root * root / (2 * z) * (2 * z))%R with (root * root)%R by (field; lra). nra.
Qed.
Lemma half_step_below z : (1 / 2 <= z)%R -> (z < 1)%R -> (half_step z < 1)%R.
Proof. intros A B. unfold half_step. assert (/ (6 * z) <= / 3)%R by (apply Rinv_le_contravar; lra). lra. Qed.
Lemma newton_two : forall l left z, l + 2 <= left -> (root <= z)%R -> (z < 1)%R -> (z - root <= 2 ^ l * (1 / 10 ^ 8))%R ->
  exists z' pp, legendre_newton 2 left [z] = Ok [(z', pp)] /\ (root <= z')%R /\ (z' < 1)%R.
Proof.
  pose proof root_bounds as [Rb _]. induction l as [|l IH]; intros left z Hl A B C; (destruct left as [|left]; [lia|]); cbn [legendre_newton map all_ok]; rewrite step_two by lra; cbn [bind combine forallb fst snd].
  - pose proof (half_step_above z ltac:(lra)). pose proof (half_step_close z A). destruct (Rle_dec _ _) as [T|T].
    + cbn [andb]. destruct (Nat.eqb_spec left 0); [lia|]. exists (half_step z), (3 * z)%R. split; [reflexivity|]. split; [assumption|apply half_step_below; lra].
    + exfalso. apply T. cbn [pow] in C. rewrite Rminus_0_r. rewrite Rabs_Rabsolu. apply Rabs_le. lra.
  - pose proof (half_step_above z ltac:(lra)). pose proof (half_step_close z A). pose proof (half_step_below z ltac:(lra) B). destruct (Rle_dec _ _) as [T|T].
    + cbn [andb]. destruct (Nat.eqb_spec left 0); [lia|]. exists (half_step z), (3 * z)%R. split; [reflexivity|]. split; assumption.
    + cbn [andb map fst]. apply IH; [lia|assumption|assumption|]. replace (2 ^ S l * (1 / 10 ^ 8))%R with (2 * (2 ^ l * (1 / 10 ^ 8)))%R in C by (cbn [pow]; ring). lra.
Qed.
Lemma start_two : (1 / 2 <= cos (PI * (INR 0 + 1 - 1 / 4) / (INR 2 + 1 / 2)))%R /\ (cos (PI * (INR 0 + 1 - 1 / 4) / (INR 2 + 1 / 2)) < 1)%R.
Proof.
  cbn [INR]. replace (PI * (0 + 1 - 1 / 4) / (1 + 1 + 1 / 2))%R with (3 * PI / 10)%R by field. pose proof PI_RGT_0.
  split; [rewrite <- cos_PI3; left; apply cos_decreasing_1; lra|]. rewrite <- cos_0. apply cos_decreasing_1; lra.
Qed.
Lemma newton_start z : (1 / 2 <= z)%R -> (z < 1)%R -> exists z' pp, legendre_newton 2 100 [z] = Ok [(z', pp)] /\ (root <= z')%R /\ (z' < 1)%R.
Proof.
  intros A B. pose proof root_bounds as [Rb Rc]. pose proof (half_step_above z ltac:(lra)) as H1. pose proof (half_step_below z A B) as H2.
  change 100 with (S 99) at 1. set (left := 99). cbn [legendre_newton map all_ok]. rewrite step_two by lra. cbn [bind combine forallb fst snd].
  destruct (Rle_dec _ _) as [T|T].
  - cbn [andb]. exists (half_step z), (3 * z)%R. split; [reflexivity|]. split; assumption.
  - cbn [andb map fst]. apply (newton_two 30 left); [unfold left; lia|assumption|assumption|]. apply Rle_trans with 1%R; [lra|].
    replace (2 ^ 30)%R with 1073741824%R by (cbn [pow]; lra). replace (10 ^ 8)%R with 100000000%R by (cbn [pow]; lra). lra.
Qed.
Lemma legendre_two a b : (a < b)%R -> exists x w, gauss_legendre a b 2 = Ok (x, w) /\ forall i, i < 2 -> (a < x i < b)%R.
Proof.
  intros Hab. destruct start_two as [A B]. destruct (newton_start _ A B) as [z [pp [E [C D]]]]. pose proof root_pos.
  unfold gauss_legendre. change ((2 + 1) / 2) with 1. cbn [seq map]. rewrite E. cbn [bind]. eexists. eexists. split; [reflexivity|]. intros i Hi. cbv beta.
  destruct i as [|[|i]]; [| |lia]; cbn [Nat.sub Nat.ltb Nat.leb nth fst]; (assert (0 < 1 / 2 * (b - a) * z)%R by (apply Rmult_lt_0_compat; lra)); (assert (1 / 2 * (b - a) * z < 1 / 2 * (b - a) * 1)%R by (apply Rmult_lt_compat_l; lra)); lra.
Qed.
Lemma chebyshev_rule a b n : (a < b)%R -> 2 <= n ->
  (forall i, i < n -> (a < cheb_node a b n i < b)%R /\ (0 < cheb_weight a b n i)%R) /\
  (forall i j, i < j -> j < n -> (cheb_node a b n i < cheb_node a b n j)%R) /\
  forall c d, tot n (fun i => cheb_weight a b n i * (c + d * cheb_node a b n i))%R = (c * (b - a) + d * ((b * b - a * a) / 2))%R.
Proof.
  intros Hab Hn. split; [intros i Hi; split; [apply cheb_in; assumption|apply cheb_positive; assumption]|]. split; [intros; apply cheb_increasing; assumption|]. intros c d. apply cheb_linear; assumption.
Qed.
Lemma niederreiter_rule a b n : (a < b)%R -> 2 <= n ->
  (forall i, (a <= nied_node a b i < b)%R) /\ (forall i j, nied_node a b i = nied_node a b j -> i = j) /\
  (0 < nied_weight a b n)%R /\ tot n (fun _ => nied_weight a b n) = (b - a)%R.
Proof.
  intros Hab Hn. split; [intros i; apply nied_in, Hab|]. split; [intros i j; apply nied_distinct, Hab|]. apply nied_total; assumption.
Qed.
Lemma quad_example : (0 < 1)%R /\ (forall j, j < 2 -> (0 < cheb_weight 0 1 2 j)%R) /\ (forall j, j < 2 -> (0 <= cheb_node 0 1 2 j)%R) /\
  exists x w, gauss_legendre 0 1 2 = Ok (x, w) /\ forall i, i < 2 -> (0 < x i < 1)%R.
Proof.
  split; [lra|]. split; [intros j Hj; apply cheb_positive; [lra|lia]|]. split; [intros j Hj; destruct (cheb_in 0 1 2 ltac:(lra) ltac:(lia) j Hj); lra|]. apply legendre_two. lra.
Qed.
