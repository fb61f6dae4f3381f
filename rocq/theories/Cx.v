(** Cx: complex numbers as pairs of the standard library's real numbers.  Definitions and
    elementary facts; a library file that models no code. *)
From Verif Require Export Base.
From Coq Require Import Reals Lra Psatz.
Close Scope Q_scope. Close Scope R_scope.
Open Scope nat_scope.

Definition cx : Type := (R * R)%type.
Definition RtoC (x : R) : cx := (x, 0%R).
Definition zeroC : cx := RtoC 0.
Definition oneC : cx := RtoC 1.
Definition cadd (a b : cx) : cx := (fst a + fst b, snd a + snd b)%R.
Definition copp (a : cx) : cx := (- fst a, - snd a)%R.
Definition csub (a b : cx) : cx := (fst a - fst b, snd a - snd b)%R.
Definition cmul (a b : cx) : cx := (fst a * fst b - snd a * snd b, fst a * snd b + snd a * fst b)%R.
(** Absolute value. *)
Definition cmod (a : cx) : R := sqrt (fst a * fst a + snd a * snd a).
Declare Scope cx_scope.
Delimit Scope cx_scope with C.
Bind Scope cx_scope with cx.
Infix "+" := cadd : cx_scope.
Infix "-" := csub : cx_scope.
Infix "*" := cmul : cx_scope.

Fixpoint csum (n : nat) (f : nat -> cx) : cx := match n with O => zeroC | S n' => (csum n' f + f n')%C end.
Fixpoint cpow (a : cx) (k : nat) : cx := match k with O => oneC | S k' => (a * cpow a k')%C end.

Lemma cx_eq (a b : cx) : fst a = fst b -> snd a = snd b -> a = b.
Proof. destruct a, b; cbn; intros -> ->; reflexivity. Qed.
Lemma cx_ring : ring_theory zeroC oneC cadd cmul csub copp eq.
Proof.
  constructor; intros; apply cx_eq; unfold cadd, cmul, csub, copp, zeroC, oneC, RtoC; cbn [fst snd]; ring.
Qed.
Add Ring cxring : cx_ring.

Lemma c0_neq_c1 : zeroC <> oneC. Proof. intros E. apply (f_equal fst) in E. cbn in E. lra. Qed.
Lemma cmod_nonneg a : (0 <= cmod a)%R. Proof. apply sqrt_pos. Qed.
Lemma cmod_0 : cmod zeroC = 0%R. Proof. unfold cmod, zeroC, RtoC; cbn [fst snd]. replace (0 * 0 + 0 * 0)%R with 0%R by ring. apply sqrt_0. Qed.
Lemma cmod_R x : cmod (RtoC x) = Rabs x.
Proof. unfold cmod, RtoC; cbn [fst snd]. replace (x * x + 0 * 0)%R with (x²)%R by (unfold Rsqr; ring). apply sqrt_Rsqr_abs. Qed.
Lemma cmod_1 : cmod oneC = 1%R. Proof. unfold oneC. rewrite cmod_R. apply Rabs_R1. Qed.
Lemma sq_nonneg (x y : R) : (0 <= x * x + y * y)%R. Proof. nra. Qed.
Lemma cmod_sq a : (cmod a * cmod a = fst a * fst a + snd a * snd a)%R.
Proof. apply sqrt_sqrt. apply sq_nonneg. Qed.
Lemma cmod_mul a b : cmod (a * b)%C = (cmod a * cmod b)%R.
Proof.
  unfold cmod. rewrite <- sqrt_mult by apply sq_nonneg. f_equal. unfold cmul; cbn [fst snd]. ring.
Qed.
Lemma cmod_eq0 a : cmod a = 0%R -> a = zeroC.
Proof.
  intros H. pose proof (cmod_sq a) as E. rewrite H in E. apply cx_eq; cbn; nra.
Qed.
Lemma cmod_pos a : a <> zeroC -> (0 < cmod a)%R.
Proof. intros H. destruct (cmod_nonneg a) as [L|E]; [exact L|]. exfalso. apply H, cmod_eq0. auto. Qed.
Lemma cmod_triangle a b : (cmod (a + b)%C <= cmod a + cmod b)%R.
Proof.
  apply Rsqr_incr_0_var; [|pose proof (cmod_nonneg a); pose proof (cmod_nonneg b); lra].
  unfold Rsqr. rewrite cmod_sq. unfold cadd; cbn [fst snd].
  pose proof (cmod_sq a) as Ea. pose proof (cmod_sq b) as Eb. pose proof (cmod_nonneg a) as Na. pose proof (cmod_nonneg b) as Nb.
  destruct a as [a1 a2], b as [b1 b2]; cbn [fst snd] in *.
  set (x := cmod (a1, a2)) in *. set (y := cmod (b1, b2)) in *.
  assert (K : (a1 * b1 + a2 * b2 <= x * y)%R).
  { apply Rsqr_incr_0_var; [|nra]. unfold Rsqr.
    replace (x * y * (x * y))%R with ((x * x) * (y * y))%R by ring. rewrite Ea, Eb.
    pose proof (Rle_0_sqr (a1 * b2 - a2 * b1)) as K. unfold Rsqr in K. lra. }
  nra.
Qed.
Lemma cmod_opp a : cmod (copp a) = cmod a.
Proof. unfold cmod, copp; cbn [fst snd]. f_equal. ring. Qed.
Lemma cmod_sub_sym a b : cmod (a - b)%C = cmod (b - a)%C.
Proof. rewrite <- cmod_opp. f_equal. apply cx_eq; cbn; ring. Qed.
Lemma cmod_sub_le a b : (cmod a <= cmod (a - b)%C + cmod b)%R.
Proof. replace a with ((a - b) + b)%C at 1 by ring. apply cmod_triangle. Qed.
Lemma cmod_fst a : (Rabs (fst a) <= cmod a)%R.
Proof.
  apply Rsqr_incr_0_var; [|apply cmod_nonneg]. unfold Rsqr. rewrite cmod_sq, <- Rabs_mult, Rabs_pos_eq by nra. nra.
Qed.
Lemma cmul_eq0 a b : (a * b)%C = zeroC -> a = zeroC \/ b = zeroC.
Proof.
  intros E. apply (f_equal cmod) in E. rewrite cmod_mul, cmod_0 in E. apply Rmult_integral in E.
  destruct E as [E|E]; [left|right]; apply cmod_eq0; exact E.
Qed.
Lemma cx_dec (a b : cx) : {a = b} + {a <> b}.
Proof.
  destruct a as [a1 a2], b as [b1 b2]. destruct (Req_EM_T a1 b1) as [->|N]; [|right; congruence].
  destruct (Req_EM_T a2 b2) as [->|N]; [left; reflexivity|right; congruence].
Qed.
Lemma cmod_pow a k : cmod (cpow a k) = (cmod a ^ k)%R.
Proof. induction k; cbn [cpow pow]; [apply cmod_1|rewrite cmod_mul, IHk; reflexivity]. Qed.
Lemma cpow_1 k : cpow oneC k = oneC. Proof. induction k; cbn [cpow]; [reflexivity|rewrite IHk; ring]. Qed.
Lemma RtoC_add x y : RtoC (x + y) = (RtoC x + RtoC y)%C. Proof. apply cx_eq; cbn; ring. Qed.
Lemma RtoC_mul x y : RtoC (x * y) = (RtoC x * RtoC y)%C. Proof. apply cx_eq; cbn; ring. Qed.
Lemma RtoC_sub x y : RtoC (x - y) = (RtoC x - RtoC y)%C. Proof. apply cx_eq; cbn; ring. Qed.

(** ** finite sums *)
Lemma csum_ext n f g : (forall i, i < n -> f i = g i) -> csum n f = csum n g.
Proof. induction n; intros H; [reflexivity|]. cbn [csum]. rewrite IHn, H by (auto; lia). reflexivity. Qed.
Lemma csum_0 n f : (forall i, i < n -> f i = zeroC) -> csum n f = zeroC.
Proof. induction n; intros H; [reflexivity|]. cbn [csum]. rewrite IHn, H by (auto; lia). ring. Qed.
Lemma csum_add n f g : csum n (fun i => f i + g i)%C = (csum n f + csum n g)%C.
Proof. induction n; cbn [csum]; [ring|rewrite IHn; ring]. Qed.
Lemma csum_sub n f g : csum n (fun i => f i - g i)%C = (csum n f - csum n g)%C.
Proof. induction n; cbn [csum]; [ring|rewrite IHn; ring]. Qed.
Lemma csum_mul_l n c f : csum n (fun i => c * f i)%C = (c * csum n f)%C.
Proof. induction n; cbn [csum]; [ring|rewrite IHn; ring]. Qed.
Lemma csum_mul_r n c f : csum n (fun i => f i * c)%C = (csum n f * c)%C.
Proof. induction n; cbn [csum]; [ring|rewrite IHn; ring]. Qed.
Lemma csum_swap n m f : csum n (fun i => csum m (fun j => f i j)) = csum m (fun j => csum n (fun i => f i j)).
Proof.
  induction n; cbn [csum]; [symmetry; apply csum_0; reflexivity|]. rewrite IHn, <- csum_add. reflexivity.
Qed.
Lemma csum_single n f i : i < n -> (forall j, j < n -> j <> i -> f j = zeroC) -> csum n f = f i.
Proof.
  induction n; intros Hi H; [lia|]. cbn [csum]. destruct (Nat.eq_dec i n) as [->|N].
  - rewrite csum_0; [ring|]. intros j Hj. apply H; lia.
  - rewrite IHn, (H n) by (try lia; intros; apply H; lia). ring.
Qed.
Fixpoint rsm (n : nat) (f : nat -> R) : R := match n with O => 0%R | S n' => (rsm n' f + f n')%R end.
Lemma cmod_csum n f : (cmod (csum n f) <= rsm n (fun i => cmod (f i)))%R.
Proof.
  induction n; cbn [csum rsm]; [rewrite cmod_0; lra|].
  eapply Rle_trans; [apply cmod_triangle|]. lra.
Qed.
Lemma rsm_ext n f g : (forall i, i < n -> f i = g i) -> rsm n f = rsm n g.
Proof. induction n; intros H; [reflexivity|]. cbn [rsm]. rewrite IHn, H by (auto; lia). reflexivity. Qed.
Lemma rsm_le n f g : (forall i, i < n -> (f i <= g i)%R) -> (rsm n f <= rsm n g)%R.
Proof. induction n; intros H; cbn [rsm]; [lra|]. specialize (IHn (fun i Hi => H i ltac:(lia))). specialize (H n ltac:(lia)). lra. Qed.
Lemma rsm_const n c : rsm n (fun _ => c) = (INR n * c)%R.
Proof. induction n; cbn [rsm]; [cbn; ring|]. rewrite IHn, S_INR. ring. Qed.
Lemma rsm_mul_l n c f : rsm n (fun i => c * f i)%R = (c * rsm n f)%R.
Proof. induction n; cbn [rsm]; [ring|rewrite IHn; ring]. Qed.
Lemma rsm_mul_r n c f : rsm n (fun i => f i * c)%R = (rsm n f * c)%R.
Proof. induction n; cbn [rsm]; [ring|rewrite IHn; ring]. Qed.
Lemma rsm_add n f g : rsm n (fun i => f i + g i)%R = (rsm n f + rsm n g)%R.
Proof. induction n; cbn [rsm]; [ring|rewrite IHn; ring]. Qed.
Lemma rsm_swap n m f : rsm n (fun i => rsm m (fun j => f i j)) = rsm m (fun j => rsm n (fun i => f i j)).
Proof.
  induction n; cbn [rsm]; [|rewrite IHn, <- rsm_add; reflexivity].
  induction m; cbn [rsm]; [reflexivity|rewrite <- IHm; ring].
Qed.
Lemma rsm_nonneg n f : (forall i, i < n -> (0 <= f i)%R) -> (0 <= rsm n f)%R.
Proof. intros H. replace 0%R with (rsm n (fun _ => 0%R)); [apply rsm_le, H|rewrite rsm_const; ring]. Qed.
Lemma rsm_term n f i : (forall j, j < n -> (0 <= f j)%R) -> i < n -> (f i <= rsm n f)%R.
Proof.
  induction n; intros H Hi; [lia|]. cbn [rsm]. destruct (Nat.eq_dec i n) as [->|N].
  - pose proof (rsm_nonneg n f (fun j Hj => H j ltac:(lia))). lra.
  - specialize (IHn (fun j Hj => H j ltac:(lia)) ltac:(lia)). specialize (H n ltac:(lia)). lra.
Qed.
Lemma rsm_single n f i : i < n -> (forall j, j < n -> j <> i -> f j = 0%R) -> rsm n f = f i.
Proof.
  induction n; intros Hi H; [lia|]. cbn [rsm]. destruct (Nat.eq_dec i n) as [->|N].
  - rewrite (rsm_ext n f (fun _ => 0%R)), rsm_const; [ring|]. intros j Hj. apply H; lia.
  - rewrite IHn, (H n) by (try lia; intros; apply H; lia). ring.
Qed.
Lemma csum_R n f : csum n (fun i => RtoC (f i)) = RtoC (rsm n f).
Proof. induction n; cbn [csum rsm]; [reflexivity|]. rewrite IHn. apply cx_eq; cbn; ring. Qed.

(** ** square matrices as functions of two indices below n *)
Definition cmat := nat -> nat -> cx.
Definition cid : cmat := fun i j => if Nat.eqb i j then oneC else zeroC.
Definition cmm (n : nat) (A B : cmat) : cmat := fun i j => csum n (fun k => A i k * B k j)%C.
Fixpoint cmpow (n : nat) (A : cmat) (k : nat) : cmat := match k with O => cid | S k' => cmm n A (cmpow n A k') end.
Definition ceq (n : nat) (A B : cmat) : Prop := forall i j, i < n -> j < n -> A i j = B i j.
Lemma ceq_refl n A : ceq n A A. Proof. intros i j _ _. reflexivity. Qed.
Lemma ceq_sym n A B : ceq n A B -> ceq n B A. Proof. intros H i j Hi Hj. symmetry. apply H; assumption. Qed.
Lemma ceq_trans n A B D : ceq n A B -> ceq n B D -> ceq n A D. Proof. intros H K i j Hi Hj. rewrite H by assumption. apply K; assumption. Qed.
Lemma cmm_ceq n A A' B B' : ceq n A A' -> ceq n B B' -> ceq n (cmm n A B) (cmm n A' B').
Proof. intros H K i j Hi Hj. apply csum_ext. intros k Hk. rewrite H, K by assumption. reflexivity. Qed.
Lemma cmm_assoc n A B D : ceq n (cmm n (cmm n A B) D) (cmm n A (cmm n B D)).
Proof.
  intros i j Hi Hj. unfold cmm.
  rewrite (csum_ext n (fun k => (csum n (fun l => (A i l * B l k)%C) * D k j)%C) (fun k => csum n (fun l => (A i l * B l k * D k j)%C))).
  - rewrite csum_swap. apply csum_ext. intros l Hl. rewrite <- csum_mul_l. apply csum_ext. intros; ring.
  - intros k Hk. rewrite csum_mul_r. reflexivity.
Qed.
Lemma cmm_id_l n A : ceq n (cmm n cid A) A.
Proof.
  intros i j Hi Hj. unfold cmm, cid. rewrite (csum_single n _ i Hi); [rewrite Nat.eqb_refl; ring|].
  intros k Hk N. destruct (Nat.eqb_spec i k); [congruence|ring].
Qed.
Lemma cmm_id_r n A : ceq n (cmm n A cid) A.
Proof.
  intros i j Hi Hj. unfold cmm, cid. rewrite (csum_single n _ j Hj); [rewrite Nat.eqb_refl; ring|].
  intros k Hk N. destruct (Nat.eqb_spec k j); [congruence|ring].
Qed.
