(** L_Nnls: the assumption made about scipy.optimize.nnls can be met: an exhaustive
    search over the sets of columns meets it.  The search also gives a solver of
    linear systems that meets the assumption made about numpy.linalg.lstsq. *)
From Verif Require Import L_Struct1 L_MaxPrin.
From Verif Require Export S_Nnls.
Local Open Scope nat_scope.
Local Open Scope res_scope.

Fixpoint masks (m : nat) : list (list bool) :=
  match m with O => [[]] | S m' => map (cons true) (masks m') ++ map (cons false) (masks m') end.
Definition on (S0 : list bool) (i : nat) : bool := nth i S0 false.
(** the normal equations restricted to the columns in S0 *)
Definition cand (n m : nat) (a : mat) (b : vec) (S0 : list bool) : option vec :=
  solve_vec (mk m m (fun i j => if on S0 i && on S0 j then sumn n (fun r => mget a r i * mget a r j)%Qc else delta i j))
            (tab m (fun i => if on S0 i then sumn n (fun r => mget a r i * vget b r)%Qc else 0q)).
Definition good (n m : nat) (a : mat) (b x : vec) : bool :=
  forallb (fun i => Qcleb 0 (vget x i)) (seq 0 m) && forallb (fun r => Qceqb (vget (mvmul a x) r) (vget b r)) (seq 0 n).
Fixpoint search (n m : nat) (a : mat) (b : vec) (l : list (list bool)) : res vec :=
  match l with
  | [] => Err OtherErr
  | S0 :: r => match cand n m a b S0 with
               | Some x => if good n m a b x then Ok x else search n m a b r
               | None => search n m a b r
               end
  end.
Definition nnls_search : nnls_t := fun a b =>
  if Nat.eqb (ncols a) 0 then Ok [] else search (nrows a) (ncols a) a b (masks (ncols a)).

Lemma masks_in m : forall l, length l = m -> In l (masks m).
Proof.
  induction m as [|m IH]; intros [|x l] H; try discriminate; [left; reflexivity|]. cbn. apply in_app_iff. destruct x; [left|right]; apply in_map, IH; cbn in H; lia.
Qed.
Lemma solve_vec_null m A b : 0 < m -> wf m m A -> length b = m -> solve_vec A b = None ->
  exists z : nat -> Qc, (exists j, j < m /\ z j <> 0q) /\ forall i, i < m -> sumn m (fun j => mget A i j * z j)%Qc = 0q.
Proof.
  intros Hm HA Hb E. unfold solve_vec in E. destruct (solve A (map (fun x => [x]) b)) eqn:E1; [discriminate|]. clear E. unfold solve in E1.
  assert (HB : wf m 1 (map (fun x => [x]) b)) by (rewrite <- Hb; apply wf_colmat).
  rewrite (wf_nrows _ _ _ HA), (wf_ncols _ _ _ HB Hm) in E1. set (M0 := mk m (m + 1) _) in E1. destruct (gj_loop m (m + 1) M0 (seq 0 m)) as [M|] eqn:E; [discriminate|].
  destruct (gj_loop_fail m (m + 1) M0 m 0 ltac:(lia) ltac:(lia) E) as (z & Hz1 & Hz2 & Hz3); [intros i k _ Hk; lia|].
  exists z. split; [exact Hz2|]. intros i Hi. specialize (Hz3 i Hi). unfold M0 in Hz3. rewrite aug_sum in Hz3 by exact Hi. rewrite (sumn_0 1) in Hz3.
  - rewrite <- Hz3; ring.
  - intros l Hl. rewrite Hz1 by lia. ring.
Qed.

Section NN.
Variables (n m : nat) (a : mat) (b : vec).
Hypothesis (Hn : 0 < n) (Hm : 0 < m) (W : wf n m a) (Lb : length b = n).
Variable S0 : list bool.
Let G := mk m m (fun i j => if on S0 i && on S0 j then sumn n (fun r => mget a r i * mget a r j)%Qc else delta i j).
Let c := tab m (fun i => if on S0 i then sumn n (fun r => mget a r i * vget b r)%Qc else 0q).
Lemma G_out z i : i < m -> on S0 i = false -> sumn m (fun j => mget G i j * z j)%Qc = z i.
Proof.
  intros Hi E. rewrite (sumn_single m _ i Hi).
  - unfold G. rewrite mget_mk by assumption. rewrite E. cbn [andb]. rewrite delta_refl. ring.
  - intros j Hj N. unfold G. rewrite mget_mk by assumption. rewrite E. cbn [andb]. rewrite delta_neq by congruence. ring.
Qed.
Lemma G_in (z : nat -> Qc) i : i < m -> on S0 i = true -> (forall j, j < m -> on S0 j = false -> z j = 0q) ->
  sumn m (fun j => mget G i j * z j)%Qc = sumn n (fun r => mget a r i * sumn m (fun j => mget a r j * z j))%Qc.
Proof.
  intros Hi E Z. rewrite (sumn_ext m _ (fun j => sumn n (fun r => mget a r i * (mget a r j * z j)))%Qc).
  - rewrite sumn_swap. apply sumn_ext. intros r _. rewrite sumn_mul_l. reflexivity.
  - intros j Hj. unfold G. rewrite mget_mk by assumption. rewrite E. cbn [andb]. destruct (on S0 j) eqn:Ej.
    + rewrite <- sumn_mul_r. apply sumn_ext. intros. ring.
    + rewrite (Z j Hj Ej). rewrite sumn_0 by (intros; ring). ring.
Qed.
Lemma cand_sound x : cand n m a b S0 = Some x -> good n m a b x = true -> basic_solution n m a b x.
Proof.
  intros E Gd. unfold cand in E. fold G c in E. destruct (solve_vec_spec m G c x Hm (wf_mk m m _) (tab_length _ _) E) as (Lx & NS & Hx).
  unfold good in Gd. apply andb_true_iff in Gd. destruct Gd as [G1 G2]. rewrite forallb_forall in G1, G2.
  split; [exact Lx|]. split; [intros i Hi; apply Qcleb_le, G1, in_seq; lia|]. split.
  - apply (vec_ext _ _ n); [apply (length_mvmul n m); exact W|exact Lb|]. intros r Hr. apply Qceqb_eq, G2, in_seq. lia.
  - intros z Z Hz. apply NS. intros i Hi. destruct (on S0 i) eqn:Ei.
    + rewrite (G_in z i Hi Ei).
      * apply sumn_0. intros r Hr. rewrite (Hz r Hr). ring.
      * intros j Hj Ej. apply (Z j Hj). specialize (Hx j Hj). rewrite (G_out _ j Hj Ej) in Hx. rewrite Hx. unfold c. rewrite vget_tab by exact Hj. rewrite Ej. reflexivity.
    + rewrite (G_out z i Hi Ei). apply (Z i Hi). specialize (Hx i Hi). rewrite (G_out _ i Hi Ei) in Hx. rewrite Hx. unfold c. rewrite vget_tab by exact Hi. rewrite Ei. reflexivity.
Qed.
Lemma cand_complete (y : vec) : length y = m -> (forall i, i < m -> (0 <= vget y i)%Qc) -> mvmul a y = b -> (forall i, i < m -> on S0 i = false -> vget y i = 0q) ->
  cand n m a b S0 <> None -> exists x, cand n m a b S0 = Some x /\ good n m a b x = true.
Proof.
  intros Ly Y0 My Yo Nn. destruct (cand n m a b S0) as [x|] eqn:E; [|congruence]. exists x. split; [reflexivity|]. unfold cand in E. fold G c in E.
  destruct (solve_vec_spec m G c x Hm (wf_mk m m _) (tab_length _ _) E) as (Lx & NS & Hx).
  assert (x = y) as ->.
  { apply (vec_ext _ _ m Lx Ly). apply (nonsingular_unique m G _ _ NS). intros i Hi. rewrite (Hx i Hi). unfold c. rewrite vget_tab by exact Hi. destruct (on S0 i) eqn:Ei.
    - rewrite (G_in _ i Hi Ei Yo). apply sumn_ext. intros r Hr. rewrite <- (vget_mvmul n m y a r W Hr), My. reflexivity.
    - rewrite (G_out _ i Hi Ei). symmetry. apply Yo; assumption. }
  unfold good. apply andb_true_iff. split; apply forallb_forall; intros i Hi; apply in_seq in Hi; [apply Qcleb_le, Y0; lia|]. rewrite My. apply Qceqb_eq. reflexivity.
Qed.
Lemma cand_none : cand n m a b S0 = None -> exists z : nat -> Qc, (exists j, j < m /\ z j <> 0q) /\ (forall j, j < m -> on S0 j = false -> z j = 0q) /\
  forall r, r < n -> sumn m (fun j => mget a r j * z j)%Qc = 0q.
Proof.
  intros E. unfold cand in E. fold G c in E. destruct (solve_vec_null m G c Hm (wf_mk m m _) (tab_length _ _) E) as (z & Nz & Hz). exists z. split; [exact Nz|].
  assert (Zo : forall j, j < m -> on S0 j = false -> z j = 0q) by (intros j Hj Ej; rewrite <- (G_out z j Hj Ej); apply Hz; exact Hj).
  split; [exact Zo|]. set (u := fun r => sumn m (fun j => mget a r j * z j)%Qc).
  assert (Sq : sumn n (fun r => u r * u r)%Qc = 0q).
  { rewrite (sumn_ext n _ (fun r => sumn m (fun i => z i * (mget a r i * u r)))%Qc).
    - rewrite sumn_swap. apply sumn_0. intros i Hi. rewrite sumn_mul_l. destruct (on S0 i) eqn:Ei.
      + pose proof (G_in z i Hi Ei Zo) as Gi. rewrite (Hz i Hi) in Gi.  change (fun r => mget a r i * u r)%Qc with (fun r => mget a r i * sumn m (fun j => mget a r j * z j))%Qc. rewrite <- Gi. ring.
      + rewrite (Zo i Hi Ei). ring.
    - intros r Hr. unfold u at 1. rewrite <- sumn_mul_r. apply sumn_ext. intros. ring. }
  intros r Hr. fold (u r). destruct (Qc_eq_dec (u r) 0q) as [E0|E0]; [exact E0|]. exfalso.
  assert (Sqn : forall q : Qc, (0 <= q * q)%Qc) by (intros q; qcnra).
  assert (P0 : (0 < u r * u r)%Qc).
  { destruct (Qcle_lt_or_eq _ _ (Sqn (u r))) as [L|L]; [exact L|]. exfalso. symmetry in L. apply Qcmult_integral in L. tauto. }
  pose proof (sumn_pos n (fun r => u r * u r)%Qc r Hr P0 (fun i _ => Sqn (u i))) as P1. rewrite Sq in P1. exact (Qclt_irr _ P1).
Qed.
End NN.

Lemma min_ratio m (y z : nat -> Qc) : (exists j, j < m /\ (0 < z j)%Qc) -> (forall i, i < m -> (0 <= y i)%Qc) ->
  exists k, k < m /\ (0 < z k)%Qc /\ forall i, i < m -> (0 < z i)%Qc -> (y k / z k <= y i / z i)%Qc.
Proof.
  induction m as [|m IH]; intros (j & Hj & Zj) Y; [lia|].
  assert (D : (exists j, j < m /\ (0 < z j)%Qc) \/ forall j, j < m -> ~ (0 < z j)%Qc).
  { clear. induction m as [|m IH]; [right; lia|]. destruct IH as [(j & Hj & Z)|H]; [left; exists j; split; [lia|exact Z]|].
    destruct (Qclt_le_dec 0 (z m)) as [L|L]; [left; exists m; split; [lia|exact L]|]. right. intros j Hj. destruct (Nat.eq_dec j m) as [->|]; [apply Qcle_not_lt; exact L|apply H; lia]. }
  destruct D as [D|D].
  - destruct IH as (k & Hk & Zk & Mk); [exact D|intros; apply Y; lia|]. destruct (Qclt_le_dec 0 (z m)) as [L|L].
    + destruct (Qclt_le_dec (y m / z m) (y k / z k)) as [C|C].
      * exists m. split; [lia|]. split; [exact L|]. intros i Hi Zi. destruct (Nat.eq_dec i m) as [->|]; [apply Qcle_refl|]. apply Qcle_trans with (y k / z k)%Qc; [apply Qclt_le_weak; exact C|apply Mk; [lia|exact Zi]].
      * exists k. split; [lia|]. split; [exact Zk|]. intros i Hi Zi. destruct (Nat.eq_dec i m) as [->|]; [exact C|apply Mk; [lia|exact Zi]].
    + exists k. split; [lia|]. split; [exact Zk|]. intros i Hi Zi. apply Mk; [|exact Zi]. destruct (Nat.eq_dec i m) as [->|]; [|lia]. exfalso. exact (Qclt_not_le _ _ Zi L).
  - assert (j = m) as -> by (destruct (Nat.eq_dec j m); [assumption|exfalso; apply (D j); [lia|exact Zj]]).
    exists m. split; [lia|]. split; [exact Zj|]. intros i Hi Zi. destruct (Nat.eq_dec i m) as [->|]; [apply Qcle_refl|]. exfalso. apply (D i); [lia|exact Zi].
Qed.
Lemma search_in n m a b l : (exists S0 x, In S0 l /\ cand n m a b S0 = Some x /\ good n m a b x = true) ->
  exists S0 x, search n m a b l = Ok x /\ cand n m a b S0 = Some x /\ good n m a b x = true.
Proof.
  induction l as [|S1 l IH]; intros (S0 & x & I & E & Gd); [destruct I|]. cbn [search]. destruct (cand n m a b S1) as [y|] eqn:E1.
  - destruct (good n m a b y) eqn:G1; [exists S1, y; split; [reflexivity|split; assumption]|]. destruct I as [->|I]; [congruence|]. apply IH. exists S0, x. split; [exact I|split; assumption].
  - destruct I as [->|I]; [congruence|]. apply IH. exists S0, x. split; [exact I|split; assumption].
Qed.
Definition supp (m : nat) (y : vec) : list nat := filter (fun i => negb (Qceqb (vget y i) 0)) (seq 0 m).
Lemma basic_exists n m a b (W : wf n m a) (Lb : length b = n) (Hn : 0 < n) (Hm : 0 < m) : forall k y, length (supp m y) <= k -> length y = m -> (forall i, i < m -> (0 <= vget y i)%Qc) -> mvmul a y = b ->
  exists S0 x, length S0 = m /\ cand n m a b S0 = Some x /\ good n m a b x = true.
Proof.
  induction k as [k IH] using lt_wf_ind. intros y Hk Ly Y0 My. set (S0 := tab m (fun i => negb (Qceqb (vget y i) 0))).
  assert (On : forall i, i < m -> on S0 i = negb (Qceqb (vget y i) 0)) by (intros i Hi; unfold on, S0; rewrite (tab_nth m _ false i Hi); reflexivity).
  assert (Off : forall i, i < m -> on S0 i = false -> vget y i = 0q) by (intros i Hi E; rewrite (On i Hi) in E; apply negb_false_iff, Qceqb_eq in E; exact E).
  destruct (cand n m a b S0) as [x|] eqn:Ec.
  - destruct (cand_complete n m a b Hn Hm W Lb S0 y Ly Y0 My Off) as (x' & E' & G'); [congruence|]. exists S0, x'. split; [apply tab_length|split; assumption].
  - destruct (cand_none n m a b Hm S0 Ec) as (z0 & (j0 & Hj0 & Nz0) & Zo0 & Za0).
    assert (Z : exists z : nat -> Qc, (exists j, j < m /\ (0 < z j)%Qc) /\ (forall j, j < m -> on S0 j = false -> z j = 0q) /\ forall r, r < n -> sumn m (fun j => mget a r j * z j)%Qc = 0q).
    { destruct (Qclt_le_dec 0 (z0 j0)) as [L|L]; [exists z0; split; [exists j0; split; [exact Hj0|exact L]|split; assumption]|].
      exists (fun j => - z0 j)%Qc. split; [exists j0; split; [exact Hj0|]|split].
      - destruct (Qcle_lt_or_eq _ _ L) as [L'|L']; [qclra|contradiction].
      - intros j Hj E. rewrite (Zo0 j Hj E). ring.
      - intros r Hr. rewrite (sumn_ext m _ (fun j => (- (1)) * (mget a r j * z0 j))%Qc) by (intros; ring). rewrite sumn_mul_l, (Za0 r Hr). ring. }
    destruct Z as (z & Ez & Zo & Za). destruct (min_ratio m (vget y) z Ez Y0) as (q & Hq & Zq & Mq). set (t := (vget y q / z q)%Qc) in *.
    assert (Zq0 : z q <> 0q) by (intros E; rewrite E in Zq; exact (Qclt_irr _ Zq)).
    assert (T0 : (0 <= t)%Qc) by (unfold t, Qcdiv; apply Qc_mul_nonneg; [apply Y0; exact Hq|apply Qclt_le_weak, Qc_inv_pos; exact Zq]).
    set (y' := tab m (fun i => vget y i - t * z i)%Qc).
    assert (V : forall i, i < m -> vget y' i = (vget y i - t * z i)%Qc) by (intros i Hi; unfold y'; rewrite vget_tab by exact Hi; reflexivity).
    assert (Vq : vget y' q = 0q) by (rewrite (V q Hq); unfold t; field; exact Zq0).
    assert (Nq : vget y q <> 0q).
    { intros E. assert (on S0 q = false) as F by (rewrite (On q Hq), E; reflexivity). exact (Zq0 (Zo q Hq F)). }
    assert (Sub : forall i, i < m -> vget y i = 0q -> vget y' i = 0q).
    { intros i Hi E. rewrite (V i Hi), E, (Zo i Hi); [ring|]. rewrite (On i Hi), E. reflexivity. }
    apply (IH (length (supp m y'))) with (y := y'); [|lia|apply tab_length| |].
    + apply Nat.lt_le_trans with (length (supp m y)); [|exact Hk]. unfold supp. apply filter_length_lt with (x := q); [|apply in_seq; lia| |].
      * intros i Hi. apply in_seq in Hi. intros E. apply negb_true_iff in E. apply negb_true_iff. destruct (Qceqb (vget y i) 0) eqn:F; [|reflexivity]. apply Qceqb_eq in F.
        rewrite (proj2 (Qceqb_eq _ _) (Sub i ltac:(lia) F)) in E. discriminate.
      * rewrite Vq. reflexivity.
      * apply negb_true_iff. destruct (Qceqb (vget y q) 0) eqn:F; [|reflexivity]. apply Qceqb_eq in F. contradiction.
    + intros i Hi. rewrite (V i Hi). destruct (Qclt_le_dec 0 (z i)) as [L|L].
      * specialize (Mq i Hi L). assert (E : vget y i = (vget y i / z i * z i)%Qc) by (field; intros F; rewrite F in L; exact (Qclt_irr _ L)).
        assert (t * z i <= vget y i)%Qc; [rewrite E; apply Qcmult_le_compat_r; [exact Mq|apply Qclt_le_weak; exact L]|qclra].
      * specialize (Y0 i Hi). assert (t * z i <= 0)%Qc; [|qclra]. replace 0q with (0q * z i)%Qc by ring. qcnra.
    + apply (vec_ext _ _ n); [apply (length_mvmul n m); exact W|exact Lb|]. intros r Hr. rewrite (vget_mvmul n m _ a r W Hr).
      rewrite (sumn_ext m _ (fun j => mget a r j * vget y j - t * (mget a r j * z j))%Qc) by (intros j Hj; rewrite (V j Hj); ring).
      rewrite sumn_minus, sumn_mul_l, (Za r Hr), <- (vget_mvmul n m y a r W Hr), My. ring.
Qed.
Lemma nnls_search_basic : nnls_basic nnls_search.
Proof.
  intros n m a b Hn W Lb (y & Ly & Y0 & My). unfold nnls_search. rewrite (wf_nrows _ _ _ W), (wf_ncols _ _ _ W Hn). destruct m as [|m].
  - cbn. exists []. split; [reflexivity|]. split; [reflexivity|]. split; [intros; lia|]. split; [|intros; lia]. destruct y; [exact My|discriminate].
  - cbn [Nat.eqb]. cbv iota. destruct (basic_exists n (S m) a b W Lb Hn ltac:(lia) _ y (le_n _) Ly Y0 My) as (S0 & x & LS & E & Gd).
    destruct (search_in n (S m) a b (masks (S m))) as (S1 & x1 & Es & E1 & G1); [exists S0, x; split; [apply masks_in; exact LS|split; assumption]|].
    exists x1. split; [exact Es|]. apply (cand_sound n (S m) a b Hn ltac:(lia) W Lb S1 x1 E1 G1).
Qed.
Lemma basic_ok nnls : nnls_basic nnls -> nnls_ok nnls.
Proof. intros H n m a b Hn W Lb E. destruct (H n m a b Hn W Lb E) as (x & Ex & Lx & X0 & Mx & _). exists x. repeat split; assumption. Qed.

(** lstsq by splitting the unknowns into positive and negative parts *)
Definition lstsq_search : lstsq_t := fun a b =>
  let n := nrows a in let m := ncols a in
  x <- nnls_search (mk n (m + m) (fun i j => if Nat.ltb j m then mget a i j else (- mget a i (j - m))%Qc)) b ;;
  Ok (tab m (fun j => vget x j - vget x (m + j))%Qc).
Lemma lstsq_search_ok : lstsq_ok lstsq_search.
Proof.
  intros n m a b Hn W Lb (y & Ly & My). unfold lstsq_search. rewrite (wf_nrows _ _ _ W), (wf_ncols _ _ _ W Hn). set (a2 := mk n (m + m) _).
  assert (W2 : wf n (m + m) a2) by apply wf_mk.
  assert (Sp : forall x r, r < n -> sumn (m + m) (fun j => mget a2 r j * vget x j)%Qc = sumn m (fun j => mget a r j * (vget x j - vget x (m + j)%nat))%Qc).
  { intros x r Hr. rewrite (sumn_split m m). rewrite <- sumn_plus. apply sumn_ext. intros j Hj. unfold a2. rewrite !mget_mk by lia.
    destruct (Nat.ltb_spec j m); [|lia]. destruct (Nat.ltb_spec (m + j) m); [lia|]. replace (m + j - m) with j by lia. ring. }
  destruct (nnls_search_basic n (m + m) a2 b Hn W2 Lb) as (x & Ex & Lx & X0 & Mx & _).
  { exists (tab (m + m) (fun j => if Nat.ltb j m then (if Qcleb 0 (vget y j) then vget y j else 0q) else (if Qcleb 0 (vget y (j - m)) then 0q else - vget y (j - m)))%Qc).
    split; [apply tab_length|]. split.
    - intros i Hi. rewrite vget_tab by exact Hi. destruct (Nat.ltb i m).
      + destruct (Qcleb 0 (vget y i)) eqn:E; [apply Qcleb_le; exact E|apply Qcle_refl].
      + destruct (Qcleb 0 (vget y (i - m))) eqn:E; [apply Qcle_refl|]. destruct (Qclt_le_dec (vget y (i - m)) 0) as [L|L]; [qclra|]. apply Qcleb_le in L. congruence.
    - apply (vec_ext _ _ n); [apply (length_mvmul n (m + m)); exact W2|exact Lb|]. intros r Hr. rewrite (vget_mvmul n (m + m) _ a2 r W2 Hr), (Sp _ r Hr), <- My, (vget_mvmul n m y a r W Hr).
      apply sumn_ext. intros j Hj. rewrite !vget_tab by lia. destruct (Nat.ltb_spec j m); [|lia]. destruct (Nat.ltb_spec (m + j) m); [lia|]. replace (m + j - m) with j by lia.
      destruct (Qcleb 0 (vget y j)); ring. }
  rewrite Ex. cbn [bind]. eexists. split; [reflexivity|]. split; [apply tab_length|]. apply (vec_ext _ _ n); [apply (length_mvmul n m); exact W|exact Lb|]. intros r Hr.
  rewrite (vget_mvmul n m _ a r W Hr), <- Mx, (vget_mvmul n (m + m) x a2 r W2 Hr), (Sp x r Hr). apply sumn_ext. intros j Hj. rewrite vget_tab by exact Hj. reflexivity.
Qed.
