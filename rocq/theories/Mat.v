(** Mat: two-dimensional and one-dimensional arrays of exact rationals.
    (Library file standing for the numpy operations used by PyDTMC: indexing,
    numpy.dot, transpose, eye, matrix_power, sums along an axis.  A numpy
    array of shape (n, m) is a list of n rows of length m; [wf] is that shape
    invariant.) *)
From Verif Require Export QcX.

Definition vec := list Qc.
Definition mat := list (list Qc).

Definition vget (v : vec) (i : nat) : Qc := nth i v 0q.
Definition mget (M : mat) (i j : nat) : Qc := nth j (nth i M []) 0q.
Definition mrow (M : mat) (i : nat) : vec := nth i M [].
Definition mk (n m : nat) (f : nat -> nat -> Qc) : mat := tab n (fun i => tab m (f i)).
Definition nrows (M : mat) : nat := length M.
Definition ncols (M : mat) : nat := length (hd [] M).
Definition wf (n m : nat) (M : mat) : Prop := length M = n /\ forall r, In r M -> length r = m.

Lemma wf_mk n m f : wf n m (mk n m f).
Proof.
  split; [apply tab_length|]. intros r Hr. apply in_tab in Hr. destruct Hr as (i & _ & ->). apply tab_length.
Qed.
Lemma mget_mk n m f i j : i < n -> j < m -> mget (mk n m f) i j = f i j.
Proof. intros Hi Hj; unfold mget, mk. rewrite tab_nth by exact Hi. apply tab_nth; exact Hj. Qed.
Lemma mrow_mk n m f i : i < n -> mrow (mk n m f) i = tab m (f i).
Proof. intros Hi; unfold mrow, mk. rewrite tab_nth by exact Hi; reflexivity. Qed.
Lemma vget_tab n f i : i < n -> vget (tab n f) i = f i.
Proof. apply tab_nth. Qed.
Lemma mget_mrow M i j : mget M i j = vget (mrow M i) j.
Proof. reflexivity. Qed.
Lemma wf_mrow n m M i : wf n m M -> i < n -> length (mrow M i) = m.
Proof. intros [H1 H2] Hi. apply H2, nth_In. lia. Qed.
Lemma wf_nrows n m M : wf n m M -> nrows M = n.
Proof. intros [H _]; exact H. Qed.
Lemma wf_ncols n m M : wf n m M -> 0 < n -> ncols M = m.
Proof.
  intros [H1 H2] Hn. unfold ncols. destruct M as [|r M]; simpl in *; [lia|]. apply H2; left; reflexivity.
Qed.
Lemma mk_ext n m f g : (forall i j, i < n -> j < m -> f i j = g i j) -> mk n m f = mk n m g.
Proof. intros H; unfold mk; apply tab_ext; intros i Hi; apply tab_ext; intros j Hj; apply H; assumption. Qed.
Lemma mk_mget n m M : wf n m M -> mk n m (mget M) = M.
Proof.
  intros [H1 H2]. unfold mk. transitivity (tab n (fun i => nth i M [])).
  - apply tab_ext. intros i Hi. transitivity (tab m (fun j => nth j (nth i M []) 0q)); [reflexivity|].
    rewrite <- (H2 (nth i M [])) by (apply nth_In; lia). apply tab_of_nth.
  - rewrite <- H1. apply tab_of_nth.
Qed.
Lemma mat_ext n m A B : wf n m A -> wf n m B ->
  (forall i j, i < n -> j < m -> mget A i j = mget B i j) -> A = B.
Proof.
  intros HA HB H. rewrite <- (mk_mget n m A HA), <- (mk_mget n m B HB). apply mk_ext; exact H.
Qed.
Lemma vec_ext (u v : vec) n : length u = n -> length v = n ->
  (forall i, i < n -> vget u i = vget v i) -> u = v.
Proof.
  intros Hu Hv H. apply nth_ext with (d := 0q) (d' := 0q); [congruence|].
  intros i Hi; apply H; lia.
Qed.

Definition delta (i j : nat) : Qc := if Nat.eqb i j then 1q else 0q.
Lemma delta_refl i : delta i i = 1q.
Proof. unfold delta; rewrite Nat.eqb_refl; reflexivity. Qed.
Lemma delta_neq i j : i <> j -> delta i j = 0q.
Proof. intros H; unfold delta; apply Nat.eqb_neq in H; rewrite H; reflexivity. Qed.
Lemma delta_sym i j : delta i j = delta j i.
Proof. unfold delta; rewrite Nat.eqb_sym; reflexivity. Qed.
Lemma sumn_delta_l n k f : k < n -> sumn n (fun i => delta k i * f i)%Qc = f k.
Proof.
  intros H. rewrite (sumn_single n _ k H).
  - rewrite delta_refl; ring.
  - intros i _ Hi. rewrite delta_neq by auto. ring.
Qed.
Lemma sumn_delta_r n k f : k < n -> sumn n (fun i => f i * delta i k)%Qc = f k.
Proof.
  intros H. rewrite (sumn_single n _ k H).
  - rewrite delta_refl; ring.
  - intros i _ Hi. rewrite delta_neq by auto. ring.
Qed.
Lemma sumn_delta n k : k < n -> sumn n (fun i => delta k i) = 1q.
Proof.
  intros H. rewrite <- (sumn_delta_l n k (fun _ => 1q) H). apply sumn_ext; intros; ring.
Qed.
Lemma delta_nonneg i j : (0 <= delta i j)%Qc.
Proof. unfold delta; destruct (Nat.eqb i j); discriminate. Qed.

Definition eye (n : nat) : mat := mk n n delta.
Definition transpose (M : mat) : mat := mk (ncols M) (nrows M) (fun i j => mget M j i).
Definition mmul (A B : mat) : mat :=
  mk (nrows A) (ncols B) (fun i j => sumn (nrows B) (fun k => mget A i k * mget B k j)%Qc).
Definition madd (A B : mat) : mat := mk (nrows A) (ncols A) (fun i j => mget A i j + mget B i j)%Qc.
Definition msub (A B : mat) : mat := mk (nrows A) (ncols A) (fun i j => mget A i j - mget B i j)%Qc.
Definition mscale (c : Qc) (A : mat) : mat := mk (nrows A) (ncols A) (fun i j => c * mget A i j)%Qc.
Definition vdot (u v : vec) : Qc := sumn (length u) (fun i => vget u i * vget v i)%Qc.
(** numpy.dot of a vector with a matrix, and of a matrix with a vector. *)
Definition vmul (v : vec) (M : mat) : vec := tab (ncols M) (fun j => sumn (nrows M) (fun i => vget v i * mget M i j)%Qc).
Definition mvmul (M : mat) (v : vec) : vec := tab (nrows M) (fun i => sumn (ncols M) (fun j => mget M i j * vget v j)%Qc).
(** numpy.linalg.matrix_power for a non-negative exponent (repeated
    multiplication instead of binary powering; equal in exact arithmetic). *)
Fixpoint mpow (M : mat) (k : nat) : mat :=
  match k with O => eye (nrows M) | S k' => mmul (mpow M k') M end.
Definition rowsum (M : mat) (i : nat) : Qc := sumn (ncols M) (fun j => mget M i j).

Lemma wf_eye n : wf n n (eye n). Proof. apply wf_mk. Qed.
Lemma mget_eye n i j : i < n -> j < n -> mget (eye n) i j = delta i j.
Proof. apply mget_mk. Qed.
Lemma wf_transpose n m M : 0 < n -> wf n m M -> wf m n (transpose M).
Proof. intros Hn H. unfold transpose. rewrite (wf_ncols n m M H Hn), (wf_nrows n m M H). apply wf_mk. Qed.
Lemma mget_transpose n m M i j : wf n m M -> i < m -> j < n -> mget (transpose M) i j = mget M j i.
Proof.
  intros H Hi Hj. unfold transpose. rewrite (wf_ncols n m M H) by lia. rewrite (wf_nrows n m M H).
  rewrite mget_mk by assumption; reflexivity.
Qed.
Lemma wf_mmul n k m A B : 0 < k -> wf n k A -> wf k m B -> wf n m (mmul A B).
Proof. intros Hk HA HB. unfold mmul. rewrite (wf_nrows _ _ _ HA), (wf_ncols _ _ _ HB Hk). apply wf_mk. Qed.
Lemma mget_mmul n k m A B i j : wf n k A -> wf k m B -> 0 < k -> i < n -> j < m ->
  mget (mmul A B) i j = sumn k (fun l => mget A i l * mget B l j)%Qc.
Proof.
  intros HA HB Hk Hi Hj. unfold mmul.
  rewrite (wf_nrows _ _ _ HA), (wf_nrows _ _ _ HB), (wf_ncols _ _ _ HB Hk).
  rewrite mget_mk by assumption; reflexivity.
Qed.
Lemma wf_madd n m A B : 0 < n -> wf n m A -> wf n m (madd A B).
Proof. intros Hn HA. unfold madd. rewrite (wf_nrows _ _ _ HA), (wf_ncols _ _ _ HA Hn). apply wf_mk. Qed.
Lemma mget_madd n m A B i j : wf n m A -> i < n -> j < m ->
  mget (madd A B) i j = (mget A i j + mget B i j)%Qc.
Proof. intros HA Hi Hj. unfold madd. rewrite (wf_nrows _ _ _ HA), (wf_ncols _ _ _ HA) by lia. rewrite mget_mk by assumption; reflexivity. Qed.
Lemma wf_msub n m A B : 0 < n -> wf n m A -> wf n m (msub A B).
Proof. intros Hn HA. unfold msub. rewrite (wf_nrows _ _ _ HA), (wf_ncols _ _ _ HA Hn). apply wf_mk. Qed.
Lemma mget_msub n m A B i j : wf n m A -> i < n -> j < m ->
  mget (msub A B) i j = (mget A i j - mget B i j)%Qc.
Proof. intros HA Hi Hj. unfold msub. rewrite (wf_nrows _ _ _ HA), (wf_ncols _ _ _ HA) by lia. rewrite mget_mk by assumption; reflexivity. Qed.
Lemma wf_mscale n m c A : 0 < n -> wf n m A -> wf n m (mscale c A).
Proof. intros Hn HA. unfold mscale. rewrite (wf_nrows _ _ _ HA), (wf_ncols _ _ _ HA Hn). apply wf_mk. Qed.
Lemma mget_mscale n m c A i j : wf n m A -> i < n -> j < m ->
  mget (mscale c A) i j = (c * mget A i j)%Qc.
Proof. intros HA Hi Hj. unfold mscale. rewrite (wf_nrows _ _ _ HA), (wf_ncols _ _ _ HA) by lia. rewrite mget_mk by assumption; reflexivity. Qed.
Lemma length_vmul n m v M : 0 < n -> wf n m M -> length (vmul v M) = m.
Proof. intros Hn H. unfold vmul. rewrite tab_length. apply (wf_ncols n m); assumption. Qed.
Lemma vget_vmul n m v M j : wf n m M -> 0 < n -> j < m ->
  vget (vmul v M) j = sumn n (fun i => vget v i * mget M i j)%Qc.
Proof.
  intros H Hn Hj. unfold vmul. rewrite (wf_ncols _ _ _ H Hn), (wf_nrows _ _ _ H). rewrite vget_tab by exact Hj; reflexivity.
Qed.
Lemma length_mvmul n m v M : wf n m M -> length (mvmul M v) = n.
Proof. intros H. unfold mvmul. rewrite tab_length. apply H. Qed.
Lemma vget_mvmul n m v M i : wf n m M -> i < n ->
  vget (mvmul M v) i = sumn m (fun j => mget M i j * vget v j)%Qc.
Proof.
  intros H Hi. unfold mvmul. rewrite (wf_ncols _ _ _ H) by lia. rewrite (wf_nrows _ _ _ H).
  rewrite vget_tab by exact Hi; reflexivity.
Qed.
Lemma rowsum_eq n m M i : wf n m M -> 0 < n -> rowsum M i = sumn m (fun j => mget M i j).
Proof. intros H Hn; unfold rowsum; rewrite (wf_ncols _ _ _ H Hn); reflexivity. Qed.

Lemma mmul_assoc n k l m A B C : 0 < k -> 0 < l -> wf n k A -> wf k l B -> wf l m C ->
  mmul (mmul A B) C = mmul A (mmul B C).
Proof.
  intros Hk Hl HA HB HC.
  assert (HAB := wf_mmul _ _ _ _ _ Hk HA HB). assert (HBC := wf_mmul _ _ _ _ _ Hl HB HC).
  apply (mat_ext n m); [apply (wf_mmul n l m); assumption|apply (wf_mmul n k m); assumption|].
  intros i j Hi Hj.
  rewrite (mget_mmul n l m) by assumption. rewrite (mget_mmul n k m) by assumption.
  transitivity (sumn l (fun x => sumn k (fun y => mget A i y * mget B y x * mget C x j)%Qc)).
  - apply sumn_ext; intros x Hx. rewrite (mget_mmul n k l) by assumption. rewrite <- sumn_mul_r. reflexivity.
  - rewrite sumn_swap. apply sumn_ext; intros y Hy. rewrite (mget_mmul k l m) by assumption.
    rewrite <- sumn_mul_l. apply sumn_ext; intros; ring.
Qed.
Lemma mmul_eye_l n m A : 0 < n -> wf n m A -> mmul (eye n) A = A.
Proof.
  intros Hn HA. apply (mat_ext n m); [apply (wf_mmul n n m); auto using wf_eye|exact HA|].
  intros i j Hi Hj. rewrite (mget_mmul n n m) by (auto using wf_eye).
  rewrite (sumn_ext n _ (fun l => delta i l * mget A l j)%Qc).
  - apply (sumn_delta_l n i (fun l => mget A l j)); exact Hi.
  - intros l Hl; rewrite mget_eye by assumption; reflexivity.
Qed.
Lemma mmul_eye_r n m A : 0 < m -> wf n m A -> mmul A (eye m) = A.
Proof.
  intros Hm HA. apply (mat_ext n m); [apply (wf_mmul n m m); auto using wf_eye|exact HA|].
  intros i j Hi Hj. rewrite (mget_mmul n m m) by (auto using wf_eye).
  rewrite (sumn_ext m _ (fun l => mget A i l * delta l j)%Qc).
  - apply (sumn_delta_r m j (fun l => mget A i l)); exact Hj.
  - intros l Hl; rewrite mget_eye by assumption; reflexivity.
Qed.
Lemma wf_mpow n M k : 0 < n -> wf n n M -> wf n n (mpow M k).
Proof.
  intros Hn HM; induction k as [|k IH]; simpl.
  - rewrite (wf_nrows _ _ _ HM). apply wf_eye.
  - apply (wf_mmul n n n); assumption.
Qed.
Lemma mpow_add n M a b : 0 < n -> wf n n M -> mpow M (a + b) = mmul (mpow M a) (mpow M b).
Proof.
  intros Hn HM. induction b as [|b IH]; simpl.
  - rewrite Nat.add_0_r, (wf_nrows _ _ _ HM). symmetry. apply (mmul_eye_r n n); [exact Hn|apply wf_mpow; assumption].
  - rewrite Nat.add_succ_r; simpl. rewrite IH. apply (mmul_assoc n n n n); auto using wf_mpow.
Qed.
Lemma mpow_1 n M : 0 < n -> wf n n M -> mpow M 1 = M.
Proof. intros Hn HM; simpl. rewrite (wf_nrows _ _ _ HM). apply (mmul_eye_l n n); assumption. Qed.
Lemma mpow_S_l n M k : 0 < n -> wf n n M -> mpow M (S k) = mmul M (mpow M k).
Proof.
  intros Hn HM. change (S k) with (1 + k). rewrite (mpow_add n) by assumption.
  rewrite (mpow_1 n) by assumption. reflexivity.
Qed.
Lemma vmul_mmul n m l v A B : 0 < n -> 0 < m -> wf n m A -> wf m l B ->
  vmul (vmul v A) B = vmul v (mmul A B).
Proof.
  intros Hn Hm HA HB. assert (HAB := wf_mmul _ _ _ _ _ Hm HA HB).
  apply (vec_ext _ _ l); [apply (length_vmul m l); assumption|apply (length_vmul n l); assumption|].
  intros j Hj. rewrite (vget_vmul m l) by assumption. rewrite (vget_vmul n l) by assumption.
  transitivity (sumn m (fun x => sumn n (fun y => vget v y * mget A y x * mget B x j)%Qc)).
  - apply sumn_ext; intros x Hx. rewrite (vget_vmul n m) by assumption. rewrite <- sumn_mul_r. reflexivity.
  - rewrite sumn_swap. apply sumn_ext; intros y Hy. rewrite (mget_mmul n m l) by assumption.
    rewrite <- sumn_mul_l. apply sumn_ext; intros; ring.
Qed.
Lemma mvmul_mmul n m l v A B : 0 < m -> wf n m A -> wf m l B ->
  mvmul A (mvmul B v) = mvmul (mmul A B) v.
Proof.
  intros Hm HA HB. assert (HAB := wf_mmul _ _ _ _ _ Hm HA HB).
  apply (vec_ext _ _ n); [apply (length_mvmul n m); assumption|apply (length_mvmul n l); assumption|].
  intros i Hi. rewrite (vget_mvmul n m) by assumption. rewrite (vget_mvmul n l) by assumption.
  transitivity (sumn m (fun x => sumn l (fun y => mget A i x * mget B x y * vget v y)%Qc)).
  - apply sumn_ext; intros x Hx. rewrite (vget_mvmul m l) by assumption. rewrite <- sumn_mul_l.
    apply sumn_ext; intros; ring.
  - rewrite sumn_swap. apply sumn_ext; intros y Hy. rewrite (mget_mmul n m l) by assumption.
    rewrite <- sumn_mul_r. apply sumn_ext; intros; ring.
Qed.
Lemma vmul_eye n v : 0 < n -> length v = n -> vmul v (eye n) = v.
Proof.
  intros Hn Hv. apply (vec_ext _ _ n); [apply (length_vmul n n); auto using wf_eye|exact Hv|].
  intros j Hj. rewrite (vget_vmul n n) by auto using wf_eye.
  rewrite (sumn_ext n _ (fun i => vget v i * delta i j)%Qc).
  - apply (sumn_delta_r n j (vget v)); exact Hj.
  - intros i Hi; rewrite mget_eye by assumption; reflexivity.
Qed.
Lemma mvmul_eye n v : length v = n -> mvmul (eye n) v = v.
Proof.
  intros Hv. apply (vec_ext _ _ n); [apply (length_mvmul n n); auto using wf_eye|exact Hv|].
  intros i Hi. rewrite (vget_mvmul n n) by auto using wf_eye.
  rewrite (sumn_ext n _ (fun j => delta i j * vget v j)%Qc).
  - apply (sumn_delta_l n i (vget v)); exact Hi.
  - intros j Hj; rewrite mget_eye by assumption; reflexivity.
Qed.

(** Boolean equality of arrays (numpy.array_equal). *)
Fixpoint veqb (u v : vec) : bool :=
  match u, v with
  | [], [] => true
  | a :: u', b :: v' => Qceqb a b && veqb u' v'
  | _, _ => false
  end.
Fixpoint meqb (A B : mat) : bool :=
  match A, B with
  | [], [] => true
  | a :: A', b :: B' => veqb a b && meqb A' B'
  | _, _ => false
  end.
Lemma veqb_eq u v : veqb u v = true <-> u = v.
Proof.
  revert v; induction u as [|a u IH]; intros [|b v]; simpl; split; try congruence; try reflexivity.
  - rewrite andb_true_iff, Qceqb_eq, IH. intros [-> ->]; reflexivity.
  - intros E; inversion E; subst. rewrite andb_true_iff, Qceqb_eq, IH. auto.
Qed.
Lemma meqb_eq A B : meqb A B = true <-> A = B.
Proof.
  revert B; induction A as [|a A IH]; intros [|b B]; simpl; split; try congruence; try reflexivity.
  - rewrite andb_true_iff, veqb_eq, IH. intros [-> ->]; reflexivity.
  - intros E; inversion E; subst. rewrite andb_true_iff, veqb_eq, IH. auto.
Qed.

(** Literals: a matrix of fractions. *)
Definition qm (l : list (list Q)) : mat := map (map Q2Qc) l.
Definition qv (l : list Q) : vec := map Q2Qc l.

(** wf decision. *)
Definition wfb (n m : nat) (M : mat) : bool :=
  Nat.eqb (length M) n && forallb (fun r => Nat.eqb (length r) m) M.
Lemma wfb_wf n m M : wfb n m M = true <-> wf n m M.
Proof.
  unfold wfb, wf. rewrite andb_true_iff, Nat.eqb_eq, forallb_forall. split; intros [H1 H2]; split; auto;
    intros r Hr; specialize (H2 r Hr); apply Nat.eqb_eq; assumption.
Qed.

(** Display as plain rationals (for conformance examples). *)
Definition showv (v : vec) : list Q := map this v.
Definition showm (M : mat) : list (list Q) := map showv M.
Lemma showv_inj u v : showv u = showv v -> u = v.
Proof.
  revert v; induction u as [|x u IH]; destruct v as [|y v]; simpl; intros H; try discriminate; [reflexivity|].
  inversion H as [[H1 H2]]. f_equal; [|apply IH; exact H2].
  apply Qc_is_canon. rewrite H1. reflexivity.
Qed.
Lemma showm_inj A B : showm A = showm B -> A = B.
Proof.
  revert B; induction A as [|x A IH]; destruct B as [|y B]; simpl; intros H; try discriminate; [reflexivity|].
  inversion H as [[H1 H2]]. f_equal; [apply showv_inj; exact H1|apply IH; exact H2].
Qed.
