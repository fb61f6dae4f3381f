(** L_Assess: proofs about the tests with rational statistics. *)
From Verif Require Export S_Assess2 L_Bw L_Fitting.
From Coq Require Import Reals Qreals Lra.
Close Scope Q_scope. Close Scope R_scope.
Open Scope nat_scope.
Open Scope res_scope.

Lemma count_where_occ : forall m c, count_where m c = occurrences m c.
Proof.
  intros. unfold count_where. rewrite (filter_count _ _ 0). rewrite seq_length. apply sumn_ext. intros i Hi. rewrite seq_nth by exact Hi. reflexivity.
Qed.
Lemma occ_ext : forall m c d, (forall t, t < m -> c t = d t) -> occurrences m c = occurrences m d.
Proof. intros m c d H. apply sumn_ext. intros i Hi. rewrite H by exact Hi. reflexivity. Qed.

(** ** contingency tables *)
Section Table.
Variables (r c : nat) (M : mat).
Hypothesis Hr : 2 <= r.
Hypothesis Hc : 2 <= c.
Hypothesis W : wf r c M.
Let O := fun i j => mget M i j.
Hypothesis Nn : forall i j, i < r -> j < c -> (0 <= O i j)%Qc.

Lemma row_nonneg : forall i, i < r -> (0 <= row_total c O i)%Qc.
Proof. intros. apply sumn_nonneg. intros. apply Nn; assumption. Qed.
Lemma col_nonneg : forall j, j < c -> (0 <= column_total r O j)%Qc.
Proof. intros. apply sumn_nonneg. intros. apply Nn; assumption. Qed.
Lemma total_cols : table_total r c O = sumn c (column_total r O).
Proof. unfold table_total, row_total, column_total. apply sumn_swap. Qed.
Lemma full_total_pos : full_table r c O -> (0 < table_total r c O)%Qc.
Proof. intros [A _]. apply (sumn_pos r _ 0); [lia|apply A; lia|apply row_nonneg]. Qed.
Lemma expected_pos : full_table r c O -> forall i j, i < r -> j < c -> (0 < expected_count r c O i j)%Qc.
Proof. intros F i j Hi Hj. apply Qc_div_pos; [apply Qc_mul_pos; [apply F, Hi|apply F, Hj]|apply full_total_pos, F]. Qed.
Lemma no_negative : existsb (existsb (fun x => Qcltb x 0)) M = false.
Proof.
  destruct (existsb _ M) eqn:E; [|reflexivity]. apply existsb_exists in E. destruct E as (l & Hl & E). apply existsb_exists in E. destruct E as (x & Hx & E).
  apply (In_nth _ _ []) in Hl. destruct Hl as (i & Hi & <-). apply (In_nth _ _ 0q) in Hx. destruct Hx as (j & Hj & <-).
  assert (Hi' : i < r) by (destruct W as [WL _]; lia).
  assert (Hj' : j < c). { destruct W as [WL WR]. rewrite <- (WR (nth i M [])) by (apply nth_In; lia). exact Hj. }
  apply Qcltb_lt in E. pose proof (Nn i j Hi' Hj') as N. unfold O, mget, vget, row in N. exfalso. exact (Qcle_not_lt _ _ N E).
Qed.
Lemma corrected_term : forall o e : Qc, (0 < e)%Qc ->
  (let d := e - o in let o' := o + Qcmin (Q2Qc (1 # 2)) (Qcabs d) * Qcsign d in (o' - e) * (o' - e) / e)%Qc =
  (let d := Qcmax 0 (Qcabs (o - e) - Q2Qc (1 # 2)) in d * d / e)%Qc.
Proof.
  intros o e He. cbv zeta. f_equal.
  assert (A : Qcabs (o - e)%Qc = Qcabs (e - o)%Qc) by (unfold Qcabs; destruct (Qcleb_spec 0 (o - e)%Qc), (Qcleb_spec 0 (e - o)%Qc); qclra).
  rewrite A. unfold Qcmin, Qcmax, Qcsign, Qcabs.
  destruct (Qcltb_spec 0 (e - o)%Qc) as [B|B]; destruct (Qcltb_spec (e - o)%Qc 0) as [D|D];
  repeat match goal with |- context [Qcleb ?a ?b] => destruct (Qcleb_spec a b) end; try (exfalso; qclra); try ring; try (assert (E : (e - o)%Qc = 0q) by qclra; replace e with o by qclra; ring).
Qed.
Lemma table_dof : (Z.of_nat (r * c) - Z.of_nat (r + c) + 1 = Z.of_nat ((r - 1) * (c - 1)))%Z.
Proof. destruct r as [|r']; [lia|]. destruct c as [|c']; [lia|]. cbn [Nat.sub]. rewrite !Nat.sub_0_r. nia. Qed.
Lemma dof_1 : (Z.of_nat ((r - 1) * (c - 1)) = 1)%Z <-> r = 2 /\ c = 2.
Proof. split; [intros E; assert (r - 1 = 1 /\ c - 1 = 1) by (apply Nat.eq_mul_1; lia); lia|intros [-> ->]; reflexivity]. Qed.
Lemma contingency_full : full_table r c O ->
  chi2_contingency M = Some (if Nat.eqb r 2 && Nat.eqb c 2 then pearson_corrected r c O else pearson r c O).
Proof.
  intros F. unfold chi2_contingency. rewrite (wf_nrows r c M W), (wf_ncols r c M W) by lia. rewrite no_negative.
  pose proof (full_total_pos F) as T. change (sumn r (fun i => sumn c (fun j => mget M i j))) with (table_total r c O).
  replace (Qceqb (table_total r c O) 0) with false by (symmetry; apply Qceqb_neq; apply Qc_lt_neq; exact T).
  change (fun i j => (sumn c (fun j0 => mget M i j0) * sumn r (fun i0 => mget M i0 j) / table_total r c O)%Qc) with (expected_count r c O).
  rewrite table_dof. destruct (existsb _ (seq 0 r)) eqn:E.
  { exfalso. apply existsb_exists in E. destruct E as (i & Hi & E). apply existsb_exists in E. destruct E as (j & Hj & E). apply in_seq in Hi. apply in_seq in Hj.
    apply Qceqb_eq in E. pose proof (expected_pos F i j ltac:(lia) ltac:(lia)) as P. change (expected_count r c O i j = 0q) in E. rewrite E in P. exact (Qclt_irr _ P). }
  destruct (Z.eqb_spec (Z.of_nat ((r - 1) * (c - 1))) 0) as [Z|_]; [exfalso; nia|]. f_equal.
  destruct (Z.eqb_spec (Z.of_nat ((r - 1) * (c - 1))) 1) as [Z|Z].
  - apply dof_1 in Z. destruct Z as [Zr Zc]. replace (Nat.eqb r 2 && Nat.eqb c 2) with true by (rewrite Zr, Zc; reflexivity).
    apply sumn_ext. intros i Hi. apply sumn_ext. intros j Hj. exact (corrected_term (O i j) (expected_count r c O i j) (expected_pos F i j Hi Hj)).
  - replace (Nat.eqb r 2 && Nat.eqb c 2) with false by (symmetry; apply not_true_is_false; intros B; apply andb_true_iff in B; destruct B as [B1 B2]; apply Nat.eqb_eq in B1; apply Nat.eqb_eq in B2; apply Z; apply dof_1; auto).
    reflexivity.
Qed.
Lemma contingency_empty : ~ full_table r c O -> chi2_contingency M = None.
Proof.
  intros F. unfold chi2_contingency. rewrite (wf_nrows r c M W), (wf_ncols r c M W) by lia. rewrite no_negative.
  change (sumn r (fun i => sumn c (fun j => mget M i j))) with (table_total r c O). rewrite table_dof.
  destruct (Z.eqb_spec (Z.of_nat ((r - 1) * (c - 1))) 0) as [Z|_]; [exfalso; nia|].
  destruct (Qceqb (table_total r c O) 0) eqn:T; [reflexivity|]. apply Qceqb_neq in T.
  match goal with |- (if ?b then _ else _) = _ => destruct b eqn:E end; [reflexivity|]. exfalso. apply F.
  assert (K : forall i j, i < r -> j < c -> (row_total c O i * column_total r O j)%Qc <> 0q).
  { intros i j Hi Hj C. apply not_true_iff_false in E. apply E. apply existsb_exists. exists i. split; [apply in_seq; lia|]. apply existsb_exists. exists j. split; [apply in_seq; lia|].
    apply Qceqb_eq. change ((row_total c O i * column_total r O j / table_total r c O)%Qc = 0q). rewrite C. unfold Qcdiv. ring. }
  split.
  - intros i Hi. destruct (pos_or_0 _ (row_nonneg i Hi)) as [A|A]; [exact A|]. exfalso. apply (K i 0 Hi ltac:(lia)). rewrite A. ring.
  - intros j Hj. destruct (pos_or_0 _ (col_nonneg j Hj)) as [A|A]; [exact A|]. exfalso. apply (K 0 j ltac:(lia) Hj). rewrite A. ring.
Qed.
Lemma square_nonneg : forall x : Qc, (0 <= x * x)%Qc. Proof. intros. qcnra. Qed.
Lemma pearson_nonneg : full_table r c O -> (0 <= pearson r c O)%Qc.
Proof. intros F. apply sumn_nonneg. intros i Hi. apply sumn_nonneg. intros j Hj. apply Qc_div_nonneg; [apply square_nonneg|apply expected_pos; assumption]. Qed.
Lemma pearson_corrected_nonneg : full_table r c O -> (0 <= pearson_corrected r c O)%Qc.
Proof. intros F. apply sumn_nonneg. intros i Hi. apply sumn_nonneg. intros j Hj. apply Qc_div_nonneg; [apply square_nonneg|apply expected_pos; assumption]. Qed.
Lemma pearson_zero : full_table r c O -> (pearson r c O = 0q <-> independent r c O).
Proof.
  intros F. pose proof (full_total_pos F) as T. split.
  - intros Z i j Hi Hj. unfold pearson in Z.
    assert (N : forall i, i < r -> (0 <= sumn c (fun j => (O i j - expected_count r c O i j) * (O i j - expected_count r c O i j) / expected_count r c O i j))%Qc).
    { intros i' Hi'. apply sumn_nonneg. intros j' Hj'. apply Qc_div_nonneg; [apply square_nonneg|apply expected_pos; assumption]. }
    pose proof (sumn_eq0_inv _ _ i N Z Hi) as Z1. cbv beta in Z1.
    assert (N1 : forall j, j < c -> (0 <= (O i j - expected_count r c O i j) * (O i j - expected_count r c O i j) / expected_count r c O i j)%Qc).
    { intros j' Hj'. apply Qc_div_nonneg; [apply square_nonneg|apply expected_pos; assumption]. }
    pose proof (sumn_eq0_inv _ _ j N1 Z1 Hj) as Z2. cbv beta in Z2.
    pose proof (expected_pos F i j Hi Hj) as EP.
    assert (Z3 : ((O i j - expected_count r c O i j) * (O i j - expected_count r c O i j) = 0)%Qc).
    { rewrite <- (Qcmult_div_r ((O i j - expected_count r c O i j) * (O i j - expected_count r c O i j))%Qc (expected_count r c O i j)) by (apply Qc_lt_neq; exact EP).
      rewrite Z2. ring. }
    assert (Z4 : O i j = expected_count r c O i j) by (apply Qcmult_integral in Z3; destruct Z3; qclra).
    rewrite Z4. unfold expected_count. rewrite (Qcmult_comm (_ / _)%Qc). apply Qcmult_div_r. apply Qc_lt_neq. exact T.
  - intros I. apply sumn_0. intros i Hi. apply sumn_0. intros j Hj.
    assert (E : O i j = expected_count r c O i j).
    { unfold expected_count. rewrite <- (I i j Hi Hj). rewrite Qcmult_comm. symmetry. unfold Qcdiv. rewrite <- Qcmult_assoc, (Qcmult_comm (O i j)), Qcmult_assoc, Qcmult_inv_r by (apply Qc_lt_neq; exact T). ring. }
    rewrite <- E. replace (O i j - O i j)%Qc with 0q by ring. unfold Qcdiv. ring.
Qed.
End Table.
(** tables given by a function *)
Lemma table_ext : forall r c O O', (forall i j, i < r -> j < c -> O i j = O' i j) ->
  (full_table r c O <-> full_table r c O') /\ pearson r c O = pearson r c O' /\ pearson_corrected r c O = pearson_corrected r c O' /\ (independent r c O <-> independent r c O').
Proof.
  intros r c O O' H.
  assert (R : forall i, i < r -> row_total c O i = row_total c O' i) by (intros i Hi; apply sumn_ext; intros; apply H; assumption).
  assert (C : forall j, j < c -> column_total r O j = column_total r O' j) by (intros j Hj; apply sumn_ext; intros; apply H; assumption).
  assert (T : table_total r c O = table_total r c O') by (apply sumn_ext; exact R).
  assert (E : forall i j, i < r -> j < c -> expected_count r c O i j = expected_count r c O' i j) by (intros i j Hi Hj; unfold expected_count; rewrite R, C, T by assumption; reflexivity).
  split; [|split; [|split]].
  - split; intros [A B]; split; intros; [rewrite <- R|rewrite <- C|rewrite R|rewrite C]; auto.
  - apply sumn_ext. intros i Hi. apply sumn_ext. intros j Hj. rewrite H, E by assumption. reflexivity.
  - apply sumn_ext. intros i Hi. apply sumn_ext. intros j Hj. rewrite H, E by assumption. reflexivity.
  - split; intros I i j Hi Hj; [rewrite <- H, <- T, <- R, <- C by assumption|rewrite H, T, R, C by assumption]; apply I; assumption.
Qed.
Lemma pearson_fn : forall r c O, 2 <= r -> 2 <= c -> (forall i j, i < r -> j < c -> (0 <= O i j)%Qc) -> full_table r c O ->
  (0 <= pearson r c O)%Qc /\ (0 <= pearson_corrected r c O)%Qc /\ (pearson r c O = 0q <-> independent r c O).
Proof.
  intros r c O Hr Hc Nn F. pose proof (table_ext r c (fun i j => mget (mk r c O) i j) O ltac:(intros; apply mget_mk; assumption)) as (T1 & T2 & T3 & T4).
  assert (Nn' : forall i j, i < r -> j < c -> (0 <= mget (mk r c O) i j)%Qc) by (intros; rewrite mget_mk by assumption; auto).
  rewrite <- T1 in F. rewrite <- T2, <- T3, <- T4. split; [|split].
  - exact (pearson_nonneg r c _ Hr Hc Nn' F).
  - exact (pearson_corrected_nonneg r c _ Hr Hc Nn' F).
  - exact (pearson_zero r c _ Hr Hc Nn' F).
Qed.
Lemma sum_opt_none : forall {A} (f : A -> option Qc) l x, In x l -> f x = None -> sum_opt (map f l) = None.
Proof.
  intros A f l x; induction l as [|y l IH]; intros I E; [destruct I|]. cbn [map sum_opt]. destruct I as [->|H].
  - rewrite E. reflexivity.
  - rewrite (IH H E). destruct (f y); reflexivity.
Qed.
Lemma sum_opt_some : forall {A} (f : A -> option Qc) g l, (forall x, In x l -> f x = Some (g x)) -> sum_opt (map f l) = Some (lsum (map g l)).
Proof.
  intros A f g l; induction l as [|y l IH]; intros H; cbn [map sum_opt]; [reflexivity|].
  rewrite (H y) by (left; reflexivity). rewrite IH by (intros; apply H; right; assumption). reflexivity.
Qed.
Lemma sig_ok_iff : forall sig, significance_ok sig = true <-> (0 < sig)%Qc /\ (sig <= Q2Qc (1 # 5))%Qc.
Proof. intros. unfold significance_ok. rewrite andb_true_iff, Qcltb_lt, Qcleb_le. reflexivity. Qed.
Lemma seq_ok_iff : forall n s, sequence_okb n s = true <-> 2 <= length s /\ forall i, In i s -> i < n.
Proof. intros. split; [apply seq_ok_inv|]. intros [A B]. unfold sequence_okb. rewrite andb_true_iff. split; [apply Nat.leb_le, A|]. apply forallb_forall. intros i Hi. apply Nat.ltb_lt. auto. Qed.
Lemma labels_none_iff : forall l l', validate_labels_input l None = Ok l' <-> l' = l /\ 2 <= length l /\ names_ok (length l) l.
Proof.
  intros. split; [intros H; destruct (labels_input_inv _ _ _ H) as (A & B & C); auto|]. intros (-> & A & B).
  assert (V : validate_labels_input l (Some (length l)) = Ok l) by (apply validate_labels_input_ok; auto).
  unfold validate_labels_input in *. destruct (forallb nonblank l); [|discriminate]. destruct (Nat.leb 2 (length l)); [|discriminate]. destruct (nodupb String.eqb l); [|discriminate]. reflexivity.
Qed.
(** the common prologue of the tests on one sequence *)
Definition prologue {A} (states : list string) (s : list nat) (sig : Qc) (k : list string -> res A) : res A :=
  st <- validate_labels_input states None ;;
  guard sequence_okb (length st) s else ValueErr ;;
  guard significance_ok sig else ValueErr ;; k st.
Lemma prologue_inv : forall {A} states s sig (k : list string -> res A) t, prologue states s sig k = Ok t -> test_arguments states s sig /\ k states = Ok t.
Proof.
  intros A states s sig k t H. unfold prologue in H. destruct (validate_labels_input states None) as [st|] eqn:V; [|discriminate]. cbn [bind] in H. apply labels_none_iff in V. destruct V as (-> & V1 & V2).
  destruct (sequence_okb (length states) s) eqn:S; [|discriminate]. destruct (significance_ok sig) eqn:G; [|discriminate]. apply seq_ok_iff in S. apply sig_ok_iff in G.
  split; [|exact H]. unfold test_arguments. tauto.
Qed.
Lemma prologue_ok : forall {A} states s sig (k : list string -> res A), test_arguments states s sig -> prologue states s sig k = k states.
Proof.
  intros A states s sig k (H1 & H2 & H3 & H4 & H5 & H6). unfold prologue.
  rewrite (proj2 (labels_none_iff states states)) by auto. cbn [bind]. rewrite (proj2 (seq_ok_iff _ _)) by auto. rewrite (proj2 (sig_ok_iff _)) by auto. reflexivity.
Qed.
Lemma below_iff : forall p sig, p_below p sig = true <-> exists x, p = Some x /\ (x < Q2R (this sig))%R.
Proof.
  intros [x|] sig; cbn [p_below].
  - destruct (Rlt_dec x (Qc2R sig)) as [L|L]; split; try discriminate; [intros _; exists x; split; [reflexivity|exact L]|reflexivity|].
    intros (y & E & Y). injection E as <-. contradiction.
  - split; [discriminate|]. intros (y & E & _). discriminate.
Qed.
Lemma conclude_decides : forall cdf z sig chi2 dof, decides sig (conclude cdf z sig chi2 dof).
Proof. intros. eexists. split; [reflexivity|]. cbn [t_pvalue conclude]. apply below_iff. Qed.
Lemma conclude_reports : forall cdf sig chi2 dof, reports cdf sig chi2 dof (conclude cdf false sig chi2 dof).
Proof. intros. split; [reflexivity|]. split; [reflexivity|]. split; [|apply conclude_decides]. reflexivity. Qed.
Lemma conclude_zero : forall cdf sig chi2, (0 < sig)%Qc -> let t := conclude cdf true sig chi2 0 in t_reject t = Some true /\ t_pvalue t = Some 0%R /\ t_chi2 t = Some chi2 /\ t_dof t = Some 0%Z.
Proof.
  intros cdf sig chi2 H t. split; [|repeat split]. unfold t, conclude, p_value. cbn. destruct (Rlt_dec 0 (Qc2R sig)) as [L|L]; [reflexivity|]. exfalso. apply L. apply Qc2R_pos. exact H.
Qed.
Lemma conclude_nonzero : forall cdf sig chi2 dof, dof <> 0%Z -> conclude cdf true sig chi2 dof = conclude cdf false sig chi2 dof.
Proof. intros. unfold conclude, p_value. replace (Z.eqb dof 0) with false by (symmetry; apply Z.eqb_neq; assumption). reflexivity. Qed.

(** ** first order *)
Lemma first_order_entry : forall n s b a c, a < n -> c < n -> mget (first_order_table n s b) a c = around s b a c.
Proof.
  intros n s b a c Ha Hc. unfold first_order_table. rewrite mget_mk by assumption. rewrite count_where_occ. unfold around, seen_triples. apply occ_ext. intros t Ht.
  rewrite Nat.add_1_r. replace (t + 2) with (S (S t)) by lia. rewrite (Nat.eqb_sym b), (Nat.eqb_sym a), (Nat.eqb_sym c). destruct (Nat.eqb (nth t s 0) a), (Nat.eqb (nth (S t) s 0) b), (Nat.eqb (nth (S (S t)) s 0) c); reflexivity.
Qed.
Definition stat_table (n : nat) (O : nat -> nat -> Qc) : Qc := if Nat.eqb n 2 then pearson_corrected n n O else pearson n n O.
Lemma first_order_chi2 : forall n s b, 2 <= n -> 
  (full_table n n (around s b) -> chi2_contingency (first_order_table n s b) = Some (stat_table n (around s b))) /\
  (~ full_table n n (around s b) -> chi2_contingency (first_order_table n s b) = None).
Proof.
  intros n s b Hn. pose proof (table_ext n n (fun i j => mget (first_order_table n s b) i j) (around s b) ltac:(intros; apply first_order_entry; assumption)) as (T1 & T2 & T3 & _).
  assert (Nn : forall i j, i < n -> j < n -> (0 <= mget (first_order_table n s b) i j)%Qc) by (intros; rewrite first_order_entry by assumption; apply occ_nonneg).
  split; intros F.
  - rewrite (contingency_full n n (first_order_table n s b) Hn Hn (wf_mk _ _ _) Nn) by (apply T1; exact F). rewrite T2, T3. unfold stat_table. destruct (Nat.eqb n 2); reflexivity.
  - apply (contingency_empty n n (first_order_table n s b) Hn Hn (wf_mk _ _ _) Nn). rewrite T1. exact F.
Qed.
Lemma first_order_unfold : forall cdf states s sig, assess_first_order cdf states s sig = prologue states s sig (fun st => let n := length st in
  match sum_opt (map (fun state => chi2_contingency (first_order_table n s state)) (seq 0 n)) with
  | None => Ok undetermined
  | Some chi2 => Ok (conclude cdf false sig (EFin (Qc2R chi2)) (Z.of_nat (n * ((n - 1) * (n - 1)))))
  end).
Proof. reflexivity. Qed.
Lemma first_order_spec : forall cdf states s sig t, let n := length states in assess_first_order cdf states s sig = Ok t ->
  ((exists b, b < n /\ ~ full_table n n (around s b)) -> no_conclusion t) /\
  ((forall b, b < n -> full_table n n (around s b)) ->
    reports cdf sig (EFin (Q2R (this (first_order_statistic n s)))) (Z.of_nat (n * ((n - 1) * (n - 1)))) t /\
    (0 <= first_order_statistic n s)%Qc /\
    (3 <= n -> (first_order_statistic n s = 0q <-> forall b, b < n -> independent n n (around s b)))).
Proof.
  intros cdf states s sig t n H. rewrite first_order_unfold in H. apply prologue_inv in H. destruct H as [TA H]. assert (Hn : 2 <= n) by exact (proj1 TA). fold n in H. cbv zeta in H. split.
  - intros (b & Hb & F). rewrite (sum_opt_none _ _ b) in H; [|apply in_seq; lia|apply first_order_chi2; assumption]. injection H as <-. repeat split.
  - intros F. rewrite (sum_opt_some _ (fun b => stat_table n (around s b))) in H.
    + injection H as <-.
      assert (P : forall b, b < n -> (0 <= pearson n n (around s b))%Qc /\ (0 <= pearson_corrected n n (around s b))%Qc /\ (pearson n n (around s b) = 0q <-> independent n n (around s b))).
      { intros b Hb. apply pearson_fn; [exact Hn|exact Hn|intros; apply occ_nonneg|apply F, Hb]. }
      split; [|split].
      * change (map (fun b => stat_table n (around s b)) (seq 0 n)) with (tab n (fun b => stat_table n (around s b))). rewrite lsum_tab. exact (conclude_reports cdf sig _ _).
      * apply sumn_nonneg. intros b Hb. destruct (Nat.eqb n 2).
        -- exact (proj1 (proj2 (P b Hb))).
        -- exact (proj1 (P b Hb)).
      * intros H3. assert (E2 : Nat.eqb n 2 = false) by (apply Nat.eqb_neq; lia). unfold first_order_statistic. rewrite E2.
        split.
        -- intros Z b Hb. apply (proj2 (proj2 (P b Hb))). exact (sumn_eq0_inv n (fun b => pearson n n (around s b)) b (fun b Hb => proj1 (P b Hb)) Z Hb).
        -- intros I. apply sumn_0. intros b Hb. apply (proj2 (proj2 (P b Hb))). apply I, Hb.
    + intros b Hb. apply in_seq in Hb. apply first_order_chi2; [exact Hn|apply F; lia].
Qed.
