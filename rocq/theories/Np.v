(** Np: the few numpy routines with behaviour of their own that PyDTMC relies on. *)
From Verif Require Export Mat.

(** numpy.isclose(a, b) with the default tolerances rtol=1e-05, atol=1e-08:
    |a - b| <= atol + rtol * |b|  (finite arguments). *)
Definition atol : Qc := Q2Qc (1 # 100000000).
Definition rtol : Qc := Q2Qc (1 # 100000).
Definition isclose (a b : Qc) : bool := Qcleb (Qcabs (a - b)) (atol + rtol * Qcabs b).

(** numpy.allclose(v, w) *)
Definition allclose (v w : vec) : bool :=
  Nat.eqb (length v) (length w) && forallb (fun i => isclose (vget v i) (vget w i)) (seq 0 (length v)).

(** m.any(axis=1): has the row an entry different from zero? *)
Definition row_any (M : mat) (i : nat) : bool := existsb (fun x => negb (Qceqb x 0)) (mrow M i).

(** The idiom (generators.py 75-76, 563-564, markov_chain.py 2733-2734, ...)
      m[np.where(~m.any(axis=1)), :] = np.ones(...)
      m /= np.sum(m, axis=1, keepdims=True)
    rows without non-zero entries become rows of ones, then every row is
    divided by its sum. *)
Definition fill_any (M : mat) : mat :=
  mk (nrows M) (ncols M) (fun i j => if row_any M i then mget M i j else 1q).
Definition div_rows (M : mat) : mat :=
  mk (nrows M) (ncols M) (fun i j => mget M i j / rowsum M i)%Qc.
Definition norm_any (M : mat) : mat := div_rows (fill_any M).

(** M[np.ix_(rows, cols)] *)
Definition mix (M : mat) (rows cols : list nat) : mat :=
  mk (length rows) (length cols) (fun i j => mget M (nth i rows 0) (nth j cols 0)).

Lemma wf_mix M rows cols : wf (length rows) (length cols) (mix M rows cols).
Proof. apply wf_mk. Qed.
Lemma mget_mix M rows cols i j : i < length rows -> j < length cols ->
  mget (mix M rows cols) i j = mget M (nth i rows 0) (nth j cols 0).
Proof. intros Hi Hj; unfold mix; rewrite mget_mk by assumption; reflexivity. Qed.

Lemma isclose_0 a : isclose a 0q = true <-> (Qcabs a <= atol)%Qc.
Proof.
  unfold isclose. rewrite Qcleb_le.
  replace (a - 0q)%Qc with a by ring.
  assert (E : (atol + rtol * Qcabs 0q = atol)%Qc).
  { replace (Qcabs 0q) with 0q by reflexivity. ring. }
  rewrite E; reflexivity.
Qed.
Lemma isclose_0_0 : isclose 0q 0q = true.
Proof. reflexivity. Qed.
Lemma isclose_1 a : isclose a 1q = true <-> (Qcabs (a - 1) <= atol + rtol)%Qc.
Proof.
  unfold isclose. rewrite Qcleb_le.
  replace (Qcabs 1q) with 1q by reflexivity.
  replace (rtol * 1q)%Qc with rtol by ring. reflexivity.
Qed.
Lemma isclose_refl a : isclose a a = true.
Proof.
  unfold isclose. apply Qcleb_le. replace (a - a)%Qc with 0q by ring.
  assert (H : (0 <= Qcabs a)%Qc) by apply Qcabs_nonneg.
  replace (Qcabs 0q) with 0q by reflexivity.
  unfold atol, rtol. assert (0 <= Q2Qc (1 # 100000) * Qcabs a)%Qc by (apply Qc_mul_nonneg; [discriminate|exact H]).
  revert H0; generalize (Q2Qc (1 # 100000) * Qcabs a)%Qc; intros; qclra.
Qed.

Lemma row_any_true n m M i : wf n m M -> i < n ->
  row_any M i = true <-> exists j, j < m /\ mget M i j <> 0q.
Proof.
  intros HM Hi. unfold row_any. rewrite existsb_exists.
  assert (Hl := wf_mrow n m M i HM Hi). split.
  - intros (x & Hx & Hn). apply In_nth with (d := 0q) in Hx. destruct Hx as (j & Hj & Hx).
    exists j; split; [lia|]. unfold mget. fold (mrow M i). rewrite Hx.
    apply negb_true_iff, Qceqb_neq in Hn. exact Hn.
  - intros (j & Hj & Hne). exists (mget M i j); split.
    + unfold mget; fold (mrow M i). apply nth_In. lia.
    + apply negb_true_iff, Qceqb_neq. exact Hne.
Qed.

Lemma wf_div_rows n m M : 0 < n -> wf n m M -> wf n m (div_rows M).
Proof. intros Hn H. unfold div_rows. rewrite (wf_nrows _ _ _ H), (wf_ncols _ _ _ H Hn). apply wf_mk. Qed.
Lemma mget_div_rows n m M i j : wf n m M -> i < n -> j < m ->
  mget (div_rows M) i j = (mget M i j / sumn m (fun l => mget M i l))%Qc.
Proof.
  intros H Hi Hj. unfold div_rows. rewrite (wf_nrows _ _ _ H), (wf_ncols _ _ _ H) by lia.
  rewrite mget_mk by assumption. rewrite (rowsum_eq n m) by (assumption || lia). reflexivity.
Qed.
Lemma wf_fill_any n m M : 0 < n -> wf n m M -> wf n m (fill_any M).
Proof. intros Hn H. unfold fill_any. rewrite (wf_nrows _ _ _ H), (wf_ncols _ _ _ H Hn). apply wf_mk. Qed.
Lemma mget_fill_any n m M i j : wf n m M -> i < n -> j < m ->
  mget (fill_any M) i j = if row_any M i then mget M i j else 1q.
Proof.
  intros H Hi Hj. unfold fill_any. rewrite (wf_nrows _ _ _ H), (wf_ncols _ _ _ H) by lia.
  rewrite mget_mk by assumption. reflexivity.
Qed.
