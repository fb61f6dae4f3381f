(** L_Props: reversibility, symmetry, density, incidence. *)
From Verif Require Export M_Props S_Props L_StatAll L_Tight.
Open Scope nat_scope.

(** ** Sequences of states *)
Definition pp (P : mat) (l : list nat) : Qc := match l with [] => 1q | i :: w => path_prob P i w end.
Lemma pp_join P l x r : pp P (l ++ x :: r) = (pp P (l ++ [x]) * pp P (x :: r))%Qc.
Proof.
  destruct l as [|a l]; [cbn; ring|]. cbn [app pp]. revert a. induction l as [|b l IH]; intros a; cbn [app path_prob].
  - ring.
  - rewrite (IH b). ring.
Qed.
Lemma pp_link P l x y r : pp P (l ++ x :: y :: r) = (pp P (l ++ [x]) * (mget P x y * pp P (y :: r)))%Qc.
Proof. rewrite pp_join. reflexivity. Qed.
Lemma seq_prob_snoc P pi l x y : seq_prob P pi (l ++ [x; y]) = (seq_prob P pi (l ++ [x]) * mget P x y)%Qc.
Proof.
  destruct l as [|a l]; [cbn; ring|]. cbn [app seq_prob].
  pose proof (pp_join P (a :: l) x [y]) as J. cbn [app pp] in J. rewrite J. cbn. ring.
Qed.
Lemma balance_reversible n P pi : (forall i j, i < n -> j < n -> flow P pi i j = flow P pi j i) -> time_reversible n P pi.
Proof.
  intros H. intros [|i w]; [reflexivity|]. revert i. induction w as [|j w IH]; intros i Hl; [reflexivity|].
  cbn [rev]. rewrite <- app_assoc. cbn [app]. rewrite seq_prob_snoc.
  assert (Hi : i < n) by (apply Hl; left; reflexivity). assert (Hj : j < n) by (apply Hl; right; left; reflexivity).
  specialize (IH j (fun x Hx => Hl x (or_intror Hx))). cbn [rev] in IH. rewrite <- IH. cbn [seq_prob path_prob].
  specialize (H i j Hi Hj). unfold flow in H. rewrite Qcmult_assoc, H. ring.
Qed.
Lemma reversible_balance n P pi : time_reversible n P pi -> forall i j, i < n -> j < n -> flow P pi i j = flow P pi j i.
Proof.
  intros H i j Hi Hj. specialize (H [i; j] ltac:(intros x [<-|[<-|[]]]; assumption)). cbn in H. unfold flow.
  rewrite !Qcmult_1_r in H. exact H.
Qed.
Lemma balance_iff n P pi : time_reversible n P pi <-> forall i j, i < n -> j < n -> flow P pi i j = flow P pi j i.
Proof. split; [apply reversible_balance|apply balance_reversible]. Qed.

(** ** Kolmogorov's criterion *)
Lemma loops_rev n P l i : i < n -> loops_balanced n P -> (forall x, In x l -> x < n) -> pp P (i :: l ++ [i]) = pp P (rev (i :: l ++ [i])).
Proof. intros Hi H Hl. cbn [rev]. rewrite rev_app_distr. cbn [rev app pp]. apply H; assumption. Qed.
Lemma pp_nonneg n P l : (forall i j, i < n -> j < n -> (0 <= mget P i j)%Qc) -> (forall x, In x l -> x < n) -> (0 <= pp P l)%Qc.
Proof.
  intros Pos Hl. destruct l as [|a l]; [apply Qcleb_le; reflexivity|]. cbn [pp]. revert a Hl. induction l as [|b l IH]; intros a Hl; cbn [path_prob].
  - apply Qcleb_le; reflexivity.
  - apply Qc_mul_nonneg; [apply Pos; apply Hl; [left|right; left]; reflexivity|]. apply IH. intros x Hx. apply Hl. right. exact Hx.
Qed.
Lemma walk_list n P k : forall i j, walk n (edge P) k i j -> exists l, (forall x, In x l -> x < n) /\ (0 < pp P (i :: l))%Qc /\ last (i :: l) 0 = j /\ length l = k.
Proof.
  induction k as [|k IH]; intros i j W; inversion W as [i1 Hi1|k1 i1 j0 l1 Hi1 Hj0 He Hw]; subst.
  - exists []. split; [intros x []|]. split; [apply Qcltb_lt; reflexivity|]. split; reflexivity.
  - destruct (IH _ _ Hw) as (l & Hl & Pl & El & Ll). exists (j0 :: l). split; [intros x [<-|Hx]; [assumption|apply Hl; exact Hx]|].
    split; [|split; [exact El|cbn; congruence]]. cbn [pp path_prob]. apply Qc_mul_pos; [exact He|exact Pl].
Qed.
Lemma last_split (l : list nat) a : exists r, a :: l = r ++ [last (a :: l) 0].
Proof. exists (removelast (a :: l)). apply app_removelast_last. discriminate. Qed.
Section KOLM.
Variables (n : nat) (P : mat).
Hypothesis Hn : 0 < n.
Hypothesis St : stochastic n P.
Hypothesis Irr : irreducible n (edge P).
Hypothesis LB : loops_balanced n P.
Let Pos := proj1 (proj2 St).
(** A list of states from 0 to i that is possible in both directions. *)
Definition bridge (i : nat) (A : list nat) : Prop :=
  (forall x, In x A -> x < n) /\ (exists w, A = 0 :: w) /\ (exists r, A = r ++ [i]) /\ (0 < pp P A)%Qc /\ (0 < pp P (rev A))%Qc.
Lemma bridge_ex i : i < n -> exists A, bridge i A.
Proof.
  intros Hi. destruct (Nat.eq_dec i 0) as [->|Ne].
  - exists [0]. split; [intros x [<-|[]]; exact Hn|]. split; [exists []; reflexivity|]. split; [exists []; reflexivity|]. split; apply Qcltb_lt; reflexivity.
  - destruct (Irr 0 i Hn Hi) as [k W]. destruct (walk_list n P k 0 i W) as (w & Hw & Pw & Ew & _).
    destruct (Irr i 0 Hi Hn) as [k' W']. destruct (walk_list n P k' i 0 W') as (u & Hu & Pu & Eu & _).
    exists (0 :: w). split; [intros x [<-|Hx]; [exact Hn|apply Hw; exact Hx]|]. split; [exists w; reflexivity|].
    destruct (last_split w 0) as (r & Er). rewrite Ew in Er. split; [exists r; exact Er|]. split; [exact Pw|].
    destruct u as [|u0 u1]; [cbn in Eu; congruence|]. destruct (last_split u1 u0) as (q & Eq).
    assert (Eu' : last (u0 :: u1) 0 = 0) by exact Eu. rewrite Eu' in Eq.
    assert (Hq : forall x, In x q -> x < n) by (intros x Hx; apply Hu; rewrite Eq; apply in_or_app; left; exact Hx).
    pose proof (loops_rev n P (w ++ q) 0 Hn LB ltac:(intros x Hx; apply in_app_or in Hx; destruct Hx; [apply Hw|apply Hq]; assumption)) as L.
    assert (L1 : 0 :: (w ++ q) ++ [0] = r ++ i :: u0 :: u1) by (rewrite <- app_assoc, <- Eq, app_comm_cons, Er, <- app_assoc; reflexivity).
    assert (Pp : Qclt 0q (pp P (0 :: (w ++ q) ++ [0]))).
    { rewrite L1, pp_link. rewrite <- Er. apply Qc_mul_pos; [exact Pw|exact Pu]. }
    rewrite L in Pp. rewrite L1 in Pp.
    assert (R1 : rev (r ++ i :: u0 :: u1) = (rev (u0 :: u1)) ++ i :: rev r) by (rewrite rev_app_distr; cbn [rev]; rewrite <- !app_assoc; reflexivity).
    rewrite R1, pp_join in Pp. rewrite Er, rev_app_distr. cbn [rev app].
    assert (Hr : forall x, In x (i :: rev r) -> x < n).
    { intros x [<-|Hx]; [exact Hi|]. apply in_rev in Hx. assert (In x (0 :: w)) by (rewrite Er; apply in_or_app; left; exact Hx). destruct H as [<-|H]; [exact Hn|apply Hw; exact H]. }
    destruct (pos_or_0 _ (pp_nonneg n P (i :: rev r) Pos Hr)) as [H|H]; [exact H|]. rewrite H in Pp. exfalso.
    replace (pp P (rev (u0 :: u1) ++ [i]) * 0)%Qc with 0q in Pp by ring. exact (Qclt_irr _ Pp).
Qed.
Lemma bridges : forall k, k <= n -> exists f : nat -> list nat, forall i, i < k -> bridge i (f i).
Proof.
  induction k as [|k IH]; intros Hk; [exists (fun _ => []); intros; lia|].
  destruct (IH ltac:(lia)) as (f & Hf). destruct (bridge_ex k ltac:(lia)) as (A & HA).
  exists (fun i => if Nat.eqb i k then A else f i). intros i Hi. destruct (Nat.eqb_spec i k) as [->|Ne]; [exact HA|apply Hf; lia].
Qed.
Lemma bridge_balance i j A B : i < n -> j < n -> bridge i A -> bridge j B ->
  (pp P A * mget P i j * pp P (rev B) = pp P B * mget P j i * pp P (rev A))%Qc.
Proof.
  intros Hi Hj (HA & (a & Ea) & (ra & Era) & _) (HB & (b & Eb) & (rb & Erb) & _).
  pose proof (loops_rev n P (a ++ rev b) 0 Hn LB) as L.
  assert (L1 : 0 :: (a ++ rev b) ++ [0] = A ++ rev B) by (rewrite Ea, Eb; cbn [rev app]; rewrite <- app_assoc; reflexivity).
  rewrite L1, rev_app_distr, rev_involutive in L.
  assert (L' : pp P (A ++ rev B) = pp P (B ++ rev A)).
  { apply L. intros x Hx. apply in_app_or in Hx. destruct Hx as [Hx|Hx]; [apply HA; rewrite Ea; right; exact Hx|].
    apply HB. rewrite Eb. right. apply in_rev. exact Hx. }
  assert (F : forall i j A ra B rb, A = ra ++ [i] -> B = rb ++ [j] -> pp P (A ++ rev B) = (pp P A * mget P i j * pp P (rev B))%Qc).
  { clear. intros i j A ra B rb Era Erb. rewrite Era, Erb, rev_app_distr. cbn [rev app]. rewrite <- app_assoc. cbn [app]. rewrite pp_link. ring. }
  rewrite (F i j A ra B rb Era Erb), (F j i B rb A ra Erb Era) in L'. exact L'.
Qed.
Lemma loops_reversible pi : distribution n pi -> stationary n P pi -> time_reversible n P pi.
Proof.
  intros Dpi Spi. destruct (bridges n (le_n n)) as (f & Hf).
  set (q := fun i : nat => (pp P (f i) / pp P (rev (f i)))%Qc).
  assert (Qp : forall i, i < n -> (0 < q i)%Qc) by (intros i Hi; destruct (Hf i Hi) as (_ & _ & _ & H1 & H2); apply Qc_div_pos; assumption).
  assert (Bal : forall i j, i < n -> j < n -> (q i * mget P i j = q j * mget P j i)%Qc).
  { intros i j Hi Hj. pose proof (bridge_balance i j _ _ Hi Hj (Hf i Hi) (Hf j Hj)) as B.
    destruct (Hf i Hi) as (_ & _ & _ & _ & H1). destruct (Hf j Hj) as (_ & _ & _ & _ & H2). unfold q.
    apply (Qc_mul_cancel_r _ _ (pp P (rev (f i)) * pp P (rev (f j)))%Qc); [apply Qc_lt_neq, Qc_mul_pos; assumption|].
    transitivity (pp P (f i) * mget P i j * pp P (rev (f j)))%Qc; [field; apply Qc_lt_neq; assumption|].
    rewrite B. field. apply Qc_lt_neq; assumption. }
  set (Z := sumn n q). assert (Zp : (0 < Z)%Qc) by (apply (sumn_pos n q 0 Hn (Qp 0 Hn)); intros i Hi; apply Qclt_le_weak, Qp, Hi).
  set (v := tab n (fun i => q i / Z)%Qc).
  assert (Vg : forall i, i < n -> vget v i = (q i / Z)%Qc) by (intros i Hi; unfold v; apply vget_tab; exact Hi).
  assert (Dv : distribution n v).
  { split; [apply tab_length|]. split.
    - intros i Hi. rewrite Vg by exact Hi. apply Qclt_le_weak, Qc_div_pos; [apply Qp; exact Hi|exact Zp].
    - rewrite (sumn_ext n _ (fun i => q i / Z)%Qc) by exact Vg. rewrite sumn_div. apply Qc_div_self, Qc_lt_neq, Zp. }
  assert (Vb : forall i j, i < n -> j < n -> flow P v i j = flow P v j i).
  { intros i j Hi Hj. unfold flow. rewrite !Vg by assumption. unfold Qcdiv. rewrite (Qcmult_comm (q i)), (Qcmult_comm (q j)), <- !Qcmult_assoc, (Bal i j Hi Hj). reflexivity. }
  assert (Sv : stationary n P v).
  { split; [apply tab_length|]. intros j Hj. rewrite (sumn_ext n _ (fun i => vget v j * mget P j i)%Qc) by (intros i Hi; apply (Vb i j Hi Hj)).
    rewrite (sumn_mul_l n (vget v j) (fun i => mget P j i)). pose proof St as (_ & _ & Row). rewrite (Row j Hj). ring. }
  destruct (pi_unique n P (sccs P) Hn St Irr (sccs_enum n P (proj1 St))) as (x & _ & _ & U).
  rewrite (U pi Dpi Spi), <- (U v Dv Sv). apply balance_reversible. exact Vb.
Qed.
End KOLM.
Lemma reversible_loops n P pi : 0 < n -> (forall i, i < n -> (0 < vget pi i)%Qc) -> time_reversible n P pi -> loops_balanced n P.
Proof.
  intros Hn Pp H i w Hi Hw. specialize (H (i :: w ++ [i]) ltac:(intros x [<-|Hx]; [exact Hi|apply in_app_or in Hx; destruct Hx as [Hx|[<-|[]]]; [apply Hw; exact Hx|exact Hi]])).
  cbn [rev] in H. rewrite rev_app_distr in H. cbn [rev app seq_prob] in H.
  rewrite !(Qcmult_comm (vget pi i)) in H. apply (Qc_mul_cancel_r _ _ (vget pi i)); [apply Qc_lt_neq, Pp, Hi|exact H].
Qed.
Lemma kolmogorov n P pi : 0 < n -> stochastic n P -> irreducible n (edge P) -> distribution n pi -> stationary n P pi ->
  (time_reversible n P pi <-> loops_balanced n P).
Proof.
  intros Hn St Irr D S0. split.
  - apply reversible_loops; [exact Hn|]. destruct (pi_unique n P (sccs P) Hn St Irr (sccs_enum n P (proj1 St))) as (x & _ & (_ & _ & Px) & U).
    rewrite (U pi D S0). intros i Hi. apply Px; [exact Hi|]. apply in_seq. lia.
  - intros LB. apply loops_reversible; assumption.
Qed.

(** ** A single recurrent class *)
Lemma one_pi n m : env_ok n m -> one_recurrent_class n (en_p m) ->
  exists pi, stationary_distributions (en_p m) (en_comps m) = Ok [pi] /\ pi0 m = Ok pi /\ distribution n pi /\ stationary n (en_p m) pi /\
    forall v, distribution n v -> stationary n (en_p m) v -> v = pi.
Proof.
  intros (Hn & St & _ & _ & Nx) One. assert (H0 : 0 < n) by lia.
  destruct (pi_spec n (en_p m) (en_comps m) H0 St (proj1 Nx)) as (pis & E & F).
  destruct (recurrent_listing_ok n (en_p m) (en_comps m) St (proj1 Nx)) as (NDR & RB & RC & RU).
  destruct (stationary_span n (en_p m) (en_comps m) H0 St (proj1 Nx)) as (pis' & E' & Sp). rewrite E in E'. injection E' as <-.
  set (Rs := recurrent_classes_indices (en_p m) (en_comps m)) in *.
  destruct (some_recurrent n (en_p m) (en_comps m) 0 (proj1 St) H0 (proj1 Nx)) as (r & Hr & _).
  apply (recurrent_state_in n (en_p m) (en_comps m) r (proj1 St) (proj1 Nx)) in Hr. destruct (RC r Hr) as (B & HB & Hrb).
  assert (L1 : Rs = [B]).
  { assert (Al : forall B', In B' Rs -> B' = B).
    { intros B' HB'. destruct (RB B' HB') as [Ne M]. destruct B' as [|b B']; [congruence|].
      destruct (M b (or_introl eq_refl)) as [Rb Mb]. apply (RU (b :: B') B r HB' HB); [|exact Hrb].
      apply Mb; [apply Hr|]. split; apply One; assumption. }
    destruct Rs as [|B1 [|B2 Rs]]; [destruct HB| |].
    - rewrite (Al B1 (or_introl eq_refl)). reflexivity.
    - exfalso. inversion NDR as [|? ? Ni _]; subst. apply Ni. left. rewrite (Al B1), (Al B2); [reflexivity|right; left; reflexivity|left; reflexivity]. }
  rewrite L1 in F. inversion F as [|? pi ? ? Hpi F' E1 E2]; subst. inversion F'; subst. clear F F'.
  exists pi. split; [exact E|]. split; [unfold pi0; rewrite E; reflexivity|]. destruct Hpi as (D & S0 & _). split; [exact D|]. split; [exact S0|].
  intros v Dv Sv. destruct (proj1 (Sp v) (conj Dv Sv)) as (c & (Lc & _ & Sc) & ->).
  apply (vec_ext _ _ n); [apply tab_length|apply D|]. intros j Hj. unfold mixture. rewrite vget_tab by exact Hj. cbn [length sumn nth].
  cbn [length sumn] in Sc. rewrite Qcplus_0_l in *. rewrite Sc. ring.
Qed.
Lemma irreducible_one n P : irreducible n (edge P) -> one_recurrent_class n P.
Proof. intros I i j [Hi _] [Hj _]. apply I; assumption. Qed.
Lemma isclose_within a b : isclose a b = true <-> within a b.
Proof. unfold isclose, within. apply Qcleb_le. Qed.
Lemma allclose_t_spec n X : wf n n X -> allclose_t X = true <-> forall i j, i < n -> j < n -> within (mget X i j) (mget X j i).
Proof.
  intros W. unfold allclose_t. rewrite (wf_nrows _ _ _ W), forallb_forall. split.
  - intros H i j Hi Hj. apply isclose_within. specialize (H i ltac:(apply in_seq; lia)). rewrite forallb_forall in H. apply H. apply in_seq. lia.
  - intros H i Hi. apply forallb_forall. intros j Hj. apply in_seq in Hi, Hj. apply isclose_within, H; lia.
Qed.
Lemma within_refl a : within a a.
Proof. apply isclose_within, isclose_refl. Qed.

Lemma is_reversible_spec n m : env_ok n m -> one_recurrent_class n (en_p m) ->
  exists pi b, distribution n pi /\ stationary n (en_p m) pi /\ (forall v, distribution n v -> stationary n (en_p m) v -> v = pi) /\
    is_reversible m = Ok b /\
    (b = true <-> forall i j, i < n -> j < n -> within (flow (en_p m) pi i j) (flow (en_p m) pi j i)) /\
    (time_reversible n (en_p m) pi -> b = true) /\
    ((forall i j, i < n -> j < n -> flow (en_p m) pi i j = flow (en_p m) pi j i \/ ~ within (flow (en_p m) pi i j) (flow (en_p m) pi j i)) ->
       (b = true <-> time_reversible n (en_p m) pi)).
Proof.
  intros Hm One. destruct (one_pi n m Hm One) as (pi & E & E0 & D & S0 & U).
  exists pi, (allclose_t (mk n n (fun i j => vget pi i * mget (en_p m) i j)%Qc)).
  assert (Sp : allclose_t (mk n n (fun i j => vget pi i * mget (en_p m) i j)%Qc) = true <-> forall i j, i < n -> j < n -> within (flow (en_p m) pi i j) (flow (en_p m) pi j i)).
  { rewrite (allclose_t_spec n) by apply wf_mk. split; intros H i j Hi Hj; specialize (H i j Hi Hj); rewrite !mget_mk in * by assumption; exact H. }
  split; [exact D|]. split; [exact S0|]. split; [exact U|]. split; [|split; [exact Sp|split]].
  - unfold is_reversible. rewrite E, E0, (env_size n m Hm). reflexivity.
  - intros T. apply Sp. intros i j Hi Hj. rewrite (reversible_balance n _ _ T i j Hi Hj). apply within_refl.
  - intros G. rewrite Sp, balance_iff. split.
    + intros H i j Hi Hj. destruct (G i j Hi Hj) as [?|N]; [assumption|]. exfalso. apply N, H; assumption.
    + intros H i j Hi Hj. rewrite (H i j Hi Hj). apply within_refl.
Qed.
Lemma is_reversible_several n m i j : env_ok n m -> recurrent n (edge (en_p m)) i -> recurrent n (edge (en_p m)) j -> ~ reach n (edge (en_p m)) i j ->
  is_reversible m = Ok false.
Proof.
  intros H Ri Rj NR. destruct (several_classes n m i j H Ri Rj NR) as (pis & E & L). unfold is_reversible. rewrite E. cbn [bind].
  apply Nat.ltb_lt in L. rewrite L. reflexivity.
Qed.

(** ** Symmetric and doubly stochastic matrices *)
Lemma uniform_get n i : i < n -> vget (uniform n) i = (1 / Qcn n)%Qc.
Proof. intros H. unfold vget, uniform. apply nth_repeat_lt. exact H. Qed.
Lemma uniform_distribution n : 0 < n -> distribution n (uniform n).
Proof.
  intros Hn. pose proof (Qcn_pos n Hn) as Hp. split; [apply repeat_length|]. split.
  - intros i Hi. rewrite uniform_get by exact Hi. apply Qclt_le_weak, Qc_div_pos; [apply Qcltb_lt; reflexivity|exact Hp].
  - rewrite (sumn_ext n _ (fun _ => 1 / Qcn n)%Qc) by (intros; apply uniform_get; assumption). rewrite sumn_const_n. field. apply Qc_lt_neq, Hp.
Qed.
Lemma symmetric_doubly n P : stochastic n P -> sym_matrix n P -> doubly_stochastic n P.
Proof.
  intros (_ & _ & Row) Sy j Hj. rewrite (sumn_ext n _ (fun i => mget P j i)) by (intros i Hi; apply Sy; assumption). apply Row, Hj.
Qed.
Lemma doubly_uniform n P : 0 < n -> doubly_stochastic n P <-> stationary n P (uniform n).
Proof.
  intros Hn. pose proof (Qcn_pos n Hn) as Hp.
  assert (E : forall j, sumn n (fun i => vget (uniform n) i * mget P i j)%Qc = (1 / Qcn n * sumn n (fun i => mget P i j))%Qc).
  { intros j. rewrite <- sumn_mul_l. apply sumn_ext. intros i Hi. rewrite uniform_get by exact Hi. reflexivity. }
  split.
  - intros D. split; [apply repeat_length|]. intros j Hj. rewrite E, uniform_get by exact Hj. rewrite (D j Hj). ring.
  - intros [_ S0] j Hj. specialize (S0 j Hj). rewrite E, uniform_get in S0 by exact Hj.
    apply (Qc_mul_cancel_r _ _ (1 / Qcn n)%Qc); [apply Qc_lt_neq, Qc_div_pos; [apply Qcltb_lt; reflexivity|exact Hp]|].
    rewrite Qcmult_comm, S0. ring.
Qed.
Lemma is_symmetric_spec n P : wf n n P -> is_symmetric P = true <-> forall i j, i < n -> j < n -> within (mget P i j) (mget P j i).
Proof. apply allclose_t_spec. Qed.
Lemma is_doubly_spec n P : 0 < n -> wf n n P -> is_doubly_stochastic P = true <-> forall j, j < n -> within (sumn n (fun i => mget P i j)) 1.
Proof.
  intros Hn W. unfold is_doubly_stochastic. rewrite (wf_nrows _ _ _ W), (wf_ncols _ _ _ W Hn), forallb_forall. split.
  - intros H j Hj. apply isclose_within, H, in_seq. lia.
  - intros H j Hj. apply in_seq in Hj. apply isclose_within, H. lia.
Qed.
Lemma symmetric_answers n m : env_ok n m -> sym_matrix n (en_p m) ->
  is_symmetric (en_p m) = true /\ is_doubly_stochastic (en_p m) = true /\
  (irreducible n (edge (en_p m)) -> is_reversible m = Ok true).
Proof.
  intros Hm Sy. pose proof Hm as (Hn & St & _). assert (H0 : 0 < n) by lia. split; [|split].
  - apply (is_symmetric_spec n); [apply St|]. intros i j Hi Hj. rewrite (Sy i j Hi Hj). apply within_refl.
  - apply (is_doubly_spec n); [exact H0|apply St|]. intros j Hj. rewrite (symmetric_doubly n (en_p m) St Sy j Hj). apply within_refl.
  - intros Irr. destruct (is_reversible_spec n m Hm (irreducible_one n _ Irr)) as (pi & b & D & S0 & U & -> & _ & T & _). f_equal. apply T.
    rewrite <- (U (uniform n) (uniform_distribution n H0) (proj1 (doubly_uniform n _ H0) (symmetric_doubly n _ St Sy))).
    apply balance_reversible. intros i j Hi Hj. unfold flow. rewrite !uniform_get, (Sy i j Hi Hj) by assumption. reflexivity.
Qed.
Lemma doubly_answers n m : env_ok n m ->
  (stationary n (en_p m) (uniform n) -> is_doubly_stochastic (en_p m) = true) /\
  (is_doubly_stochastic (en_p m) = true -> forall j, j < n -> (Qcabs (sumn n (fun i => mget (en_p m) i j) - 1) <= atol + rtol)%Qc) /\
  (stationary n (en_p m) (uniform n) -> irreducible n (edge (en_p m)) -> stationary_distributions (en_p m) (en_comps m) = Ok [uniform n]).
Proof.
  intros Hm. pose proof Hm as (Hn & St & _). assert (H0 : 0 < n) by lia. split; [|split].
  - intros D. apply (doubly_uniform n _ H0) in D. apply (is_doubly_spec n); [exact H0|apply St|]. intros j Hj. rewrite (D j Hj). apply within_refl.
  - intros H j Hj. apply isclose_1. apply isclose_within. apply (proj1 (is_doubly_spec n (en_p m) H0 (proj1 St)) H j Hj).
  - intros D Irr. destruct (one_pi n m Hm (irreducible_one n _ Irr)) as (pi & E & _ & _ & _ & U). rewrite E, (U (uniform n) (uniform_distribution n H0) D). reflexivity.
Qed.

(** ** density *)
Lemma zsum_cells (l1 l2 : list nat) (f : nat -> nat -> bool) :
  fold_right (fun i a => (fold_right (fun j b => ((if f i j then 1 else 0) + b)%Z) 0%Z l2 + a)%Z) 0%Z l1 =
  Z.of_nat (length (filter (fun ij => f (fst ij) (snd ij)) (list_prod l1 l2))).
Proof.
  induction l1 as [|i l1 IH]; [reflexivity|]. cbn [list_prod fold_right]. rewrite IH, filter_app, app_length, Nat2Z.inj_add. f_equal.
  clear. induction l2 as [|j l2 IH]; [reflexivity|]. cbn [map filter fold_right fst snd]. rewrite IH. destruct (f i j); cbn [length]; lia.
Qed.
Lemma density_spec n P : 2 <= n -> wf n n P ->
  density P = (Qcn (transitions_between n P) / Qcn (n * (n - 1)))%Qc /\ transitions_between n P <= n * (n - 1).
Proof.
  intros Hn W. split.
  - unfold density. rewrite (wf_nrows _ _ _ W).
    assert (E : zsum n (fun i => zsum n (fun j => zget (zmk n (fun i0 j0 => if Nat.eqb i0 j0 then 0%Z else zget (adjacency_matrix P) i0 j0)) i j)) = Z.of_nat (transitions_between n P)).
    { rewrite (zsum_ext n _ (fun i => zsum n (fun j => if negb (Nat.eqb i j) && Qcltb 0 (mget P i j) then 1%Z else 0%Z))).
      - unfold zsum, transitions_between. apply (zsum_cells (seq 0 n) (seq 0 n) (fun i j => negb (Nat.eqb i j) && Qcltb 0 (mget P i j))).
      - intros i Hi. apply zsum_ext. intros j Hj. rewrite zget_zmk by assumption. unfold adjacency_matrix. rewrite (wf_nrows _ _ _ W), zget_zmk by assumption.
        destruct (Nat.eqb i j); cbn [negb andb]; [reflexivity|]. destruct (Qcltb 0 (mget P i j)); reflexivity. }
    rewrite E. change (Q2Qc (inject_Z (Z.of_nat (transitions_between n P)))) with (Qcn (transitions_between n P)).
    rewrite Qcn_mul, (Qcn_sub n 1) by lia. rewrite Qcn_1. reflexivity.
  - unfold transitions_between.
    assert (B : length (filter (fun ij => negb (Nat.eqb (fst ij) (snd ij)) && Qcltb 0 (mget P (fst ij) (snd ij))) (list_prod (seq 0 n) (seq 0 n)))
      <= length (filter (fun ij => negb (Nat.eqb (fst ij) (snd ij))) (list_prod (seq 0 n) (seq 0 n)))).
    { induction (list_prod (seq 0 n) (seq 0 n)) as [|x l IH]; [cbn; lia|]. cbn [filter]. destruct (negb (Nat.eqb (fst x) (snd x))); cbn [andb]; [|exact IH].
      destruct (Qcltb 0 _); cbn [length]; lia. }
    eapply Nat.le_trans; [exact B|].
    pose proof (zsum_cells (seq 0 n) (seq 0 n) (fun i j => negb (Nat.eqb i j))) as C. cbv beta in C.
    assert (D : zsum n (fun i => zsum n (fun j => if negb (Nat.eqb i j) then 1%Z else 0%Z)) = Z.of_nat (n * (n - 1))).
    { rewrite (zsum_ext n _ (fun _ => (Z.of_nat n - 1)%Z)); [rewrite zsum_const; lia|]. intros i Hi.
      assert (E : zsum n (fun j => ((if negb (Nat.eqb i j) then 1 else 0) + (if Nat.eqb j i then 1 else 0))%Z) = Z.of_nat n).
      { rewrite (zsum_ext n _ (fun _ => 1%Z)); [rewrite zsum_const; lia|]. intros j Hj. rewrite (Nat.eqb_sym j i). destruct (Nat.eqb i j); reflexivity. }
      rewrite zsum_plus, (zsum_delta n i (fun _ => 1%Z) Hi) in E. lia. }
    unfold zsum in D. rewrite C in D. lia.
Qed.
Lemma density_range n P : 2 <= n -> wf n n P -> (0 <= density P <= 1)%Qc.
Proof.
  intros Hn W. destruct (density_spec n P Hn W) as [-> B]. assert (Q : (0 < Qcn (n * (n - 1)))%Qc) by (apply Qcn_pos; nia). split.
  - apply Qc_div_nonneg; [apply Qcn_nonneg|exact Q].
  - apply Qc_div_le_1; [exact Q|apply Qcn_le; exact B].
Qed.

(** ** Kemeny's constant *)
Lemma kemeny_spec n m : env_ok n m -> gap n (en_p m) ->
  (forall i, i < n -> exists a, a < n /\ mget (en_p m) a a = 1q /\ reach n (edge (en_p m)) i a) ->
  (exists i, i < n /\ mget (en_p m) i i <> 1q) ->
  exists T k, StronglySorted lt T /\ (forall x, In x T <-> x < n /\ mget (en_p m) x x <> 1q) /\ kemeny_constant m = Ok (Some k) /\
    tends (fun t => lsum (map (fun x => visits_by n (en_p m) t x x) T)) k.
Proof.
  intros Hm G R Ne. destruct (absorption_spec n m Hm G R Ne) as (T & A & N & ap & t & ST & SA & HT & HA & E1 & E2 & E3 & W1 & _).
  destruct (absorption_limits n m Hm G R Ne) as (T' & A' & N' & ap' & t' & ST' & SA' & HT' & HA' & E1' & E2' & E3' & Tv & _).
  rewrite E1 in E1'. injection E1' as <-.
  assert (ET : T' = T) by (apply sorted_lt_unique; [exact ST'|exact ST|intros x; rewrite HT, HT'; reflexivity]). subst T'.
  assert (T0 : 0 < length T) by (destruct Ne as (i & Hi); apply HT in Hi; destruct T; [destruct Hi|cbn; lia]).
  exists T, (sumn (length T) (fun i => mget N i i)). split; [exact ST|]. split; [exact HT|]. split.
  - unfold kemeny_constant. rewrite E1. cbn [bind]. rewrite (wf_nrows _ _ _ W1), (wf_ncols _ _ _ W1 T0).
    destruct (Nat.eqb_spec (length T * length T) 1) as [L|L]; [|reflexivity].
    assert (L1 : length T = 1) by nia. rewrite L1. cbn [sumn]. rewrite Qcplus_0_l. reflexivity.
  - apply (tends_ext (fun k => sumn (length T) (fun a => visits_by n (en_p m) k (nth a T 0) (nth a T 0)))).
    + intros k. apply (sumn_nth_lsum T (fun x => visits_by n (en_p m) k x x)).
    + apply (tends_sumn (length T) (fun k a => visits_by n (en_p m) k (nth a T 0) (nth a T 0)) (fun i => mget N i i)). intros a Ha. apply Tv; exact Ha.
Qed.

(** ** incidence matrix *)
Lemma incidence_spec n P r u v : wf n n P -> r < n -> u < n -> v < n ->
  zget (incidence_matrix P) r (u * n + v) = (if Nat.eqb u v then 0%Z else if Nat.eqb r u || Nat.eqb r v then 1%Z else 0%Z).
Proof.
  intros W Hr Hu Hv. unfold incidence_matrix, zget. rewrite (wf_nrows _ _ _ W). rewrite tab_nth by exact Hr. rewrite tab_nth by nia.
  replace ((u * n + v) / n) with u by (rewrite Nat.add_comm, Nat.div_add, Nat.div_small by lia; lia).
  replace ((u * n + v) mod n) with v by (rewrite Nat.add_comm, Nat.mod_add, Nat.mod_small by lia; lia). reflexivity.
Qed.
Lemma incidence_blind n P P' : wf n n P -> wf n n P' -> incidence_matrix P = incidence_matrix P'.
Proof. intros W W'. unfold incidence_matrix. rewrite (wf_nrows _ _ _ W), (wf_nrows _ _ _ W'). reflexivity. Qed.
