(** L_GenR: statements derived from L_Gen1-4 in the form used by the property
    theorems, and the counterexamples found in the generators. *)
From Verif Require Import S_Gen M_Generators S_Gen2 L_Gen1 L_Gen2 L_Gen3 L_Gen4 Dec.

(** * from_matrix *)
Lemma from_matrix_uniform m st c i j : from_matrix m st = Ok c -> i < nrows m -> j < nrows m ->
  (forall l, l < nrows m -> mget m i l = 0q) -> mget (ch_p c) i j = (1 / Qcn (nrows m))%Qc.
Proof.
  intros H Hi Hj Z. rewrite (from_matrix_entries m st c i j H Hi Hj).
  rewrite sumn_0 by exact Z. reflexivity.
Qed.
Lemma from_matrix_proportional m st c i j : from_matrix m st = Ok c -> i < nrows m -> j < nrows m ->
  (atol < sumn (nrows m) (fun l => mget m i l))%Qc ->
  (mget (ch_p c) i j * sumn (nrows m) (fun l => mget m i l) = mget m i j)%Qc.
Proof.
  intros H Hi Hj T. rewrite (from_matrix_entries m st c i j H Hi Hj).
  set (s := sumn _ _) in *.
  assert (P : (0 < s)%Qc) by (eapply Qclt_trans; [|exact T]; reflexivity).
  destruct (isclose s 0) eqn:E.
  - apply isclose_0 in E. rewrite Qcabs_eq_nonneg in E by (apply Qclt_le_weak; exact P).
    exfalso. apply (Qclt_not_le _ _ T E).
  - field. intros X. rewrite X in P. discriminate P.
Qed.
Definition tiny_matrix : mat := qm [[0; 1 # 200000000]; [1; 1]]%Q.
Lemma from_matrix_tiny : exists m c i j,
  from_matrix m None = Ok c /\ i < nrows m /\ j < nrows m /\ mget m i j = 0q /\
  (0 < sumn (nrows m) (fun l => mget m i l))%Qc /\ (0 < mget (ch_p c) i j)%Qc.
Proof.
  exists tiny_matrix, (mkchain (normalize_matrix tiny_matrix) ["1"; "2"]%string), 0, 0.
  split; [vm_compute; reflexivity|]. repeat split; vm_compute; try reflexivity; lia.
Qed.

(** * birth_death *)
Lemma bd_valid p q st c : birth_death p q st = Ok c -> 2 <= length p ->
  valid_chain (length p) c /\ names_requested st (length p) (ch_states c).
Proof.
  intros H L. pose proof (bd_stochastic p q st c H) as S. destruct (bd_inv p q st c H) as (_ & _ & _ & _ & _ & G & _).
  destruct (gen_states_ok st (length p) _ L G) as [N R]. repeat split; auto; apply N || apply S.
Qed.
Lemma bd_tiny : exists p q c i j, birth_death p q None = Ok c /\ i < length p /\ j < length p /\
  mget (ch_p c) i j <> bd_cell p q i j.
Proof.
  exists (qv [1 # 1000000000; 0]%Q), (qv [0; 0]%Q),
    (mkchain (mc_birth_death (qv [1 # 1000000000; 0]%Q) (qv [0; 0]%Q)) ["1"; "2"]%string), 0, 1.
  split; [vm_compute; reflexivity|]. split; [vm_compute; lia|split; [vm_compute; lia|]].
  apply Qceqb_neq. vm_compute. reflexivity.
Qed.
Lemma bd_one_state : exists p q c, birth_death p q None = Ok c /\ ch_size c = 1.
Proof.
  exists (qv [0]%Q), (qv [0]%Q), (mkchain (mc_birth_death (qv [0]%Q) (qv [0]%Q)) ["1"]%string).
  split; vm_compute; reflexivity.
Qed.

(** * Moran *)
Lemma moran_not_stochastic : exists n s u v c, population_genetics_model Moran n s u v None = Ok c /\
  exists i j, i < ch_size c /\ j < ch_size c /\ (mget (ch_p c) i j < 0)%Qc.
Proof.
  pose (p := div_rows (moran_raw 2 (Q2Qc 3) 0q 0q)).
  exists 2%Z, (Q2Qc 3), 0q, 0q, (mkchain p ["1"; "2"; "3"]%string).
  split; [vm_compute; reflexivity|]. exists 1, 0. repeat split; vm_compute; try reflexivity; lia.
Qed.
Lemma moran_arith : exists n s u v, (2 <= n <= 500)%Z /\ (-(1) <= s)%Qc /\ (0 <= u <= 1)%Qc /\ (0 <= v <= 1)%Qc /\
  population_genetics_model Moran n s u v None = Err ArithErr.
Proof.
  exists 2%Z, (Q2Qc 2), 0q, 0q. split; [lia|].
  split; [apply Qcleb_le; reflexivity|]. split; [split; apply Qcleb_le; reflexivity|].
  split; [split; apply Qcleb_le; reflexivity|]. vm_compute. reflexivity.
Qed.
Lemma moran_up_ok n s u v st c i : population_genetics_model Moran n s u v st = Ok c -> (s <= 1)%Qc ->
  0 < i -> i < Z.to_nat n -> mget (ch_p c) i (i + 1) = moran_up (Z.to_nat n) i s u v.
Proof.
  intros H Hs Hi Hn. destruct (moran_valid n s u v st c H Hs) as (_ & _ & E). rewrite E.
  unfold moran_raw. rewrite mget_mk by lia.
  destruct (Nat.eqb_spec i 0); [lia|]. destruct (Nat.eqb_spec i (Z.to_nat n)); [lia|].
  destruct (Nat.eqb_spec (S (i + 1)) i); [lia|]. destruct (Nat.eqb_spec (i + 1) i); [lia|].
  destruct (Nat.eqb_spec (i + 1) (S i)); [|lia]. reflexivity.
Qed.
Lemma moran_down_ok n s u st c i : population_genetics_model Moran n s u u st = Ok c -> (s <= 1)%Qc ->
  0 < i -> i < Z.to_nat n -> mget (ch_p c) i (i - 1) = moran_down (Z.to_nat n) i s u u.
Proof.
  intros H Hs Hi Hn. destruct (moran_valid n s u u st c H Hs) as (_ & _ & E). rewrite E.
  unfold moran_raw. rewrite mget_mk by lia.
  destruct (Nat.eqb_spec i 0); [lia|]. destruct (Nat.eqb_spec i (Z.to_nat n)); [lia|].
  destruct (Nat.eqb_spec (S (i - 1)) i); [|lia].
  unfold moran_pm1, moran_down, moran_offspring_A, moran_den.
  assert (D : ((1 - s) * Qcn i + Qcn (Z.to_nat n - i) <> 0)%Qc).
  { assert (0 < Qcn (Z.to_nat n - i))%Qc by (apply Qcn_pos; lia).
    assert (0 <= (1 - s) * Qcn i)%Qc by (apply Qc_mul_nonneg; [qclra|apply Qcn_nonneg]).
    intros X. qclra. }
  assert (N : (Qcn (Z.to_nat n) <> 0)%Qc).
  { assert (0 < Qcn (Z.to_nat n))%Qc by (apply Qcn_pos; lia). intros X. rewrite X in H0. discriminate H0. }
  field. split; assumption.
Qed.
Lemma moran_down_bad : exists n s u v c i, population_genetics_model Moran n s u v None = Ok c /\ (s <= 1)%Qc /\
  0 < i /\ i < Z.to_nat n /\ mget (ch_p c) i (i - 1) <> moran_down (Z.to_nat n) i s u v.
Proof.
  pose (p := div_rows (moran_raw 2 0q (Q2Qc (1 # 2)) 0q)).
  exists 2%Z, 0q, (Q2Qc (1 # 2)), 0q, (mkchain p ["1"; "2"; "3"]%string), 1.
  split; [vm_compute; reflexivity|]. split; [apply Qcleb_le; reflexivity|]. split; [lia|]. split; [vm_compute; lia|].
  apply Qceqb_neq. vm_compute. reflexivity.
Qed.
Lemma wright_fisher_entries n s u v st c i j : population_genetics_model WrightFisher n s u v st = Ok c ->
  0 < i -> i < Z.to_nat n -> j <= Z.to_nat n ->
  let N := Z.to_nat n in
  let pm := (Qcn i / Qcn N * (1 - u) + (1 - Qcn i / Qcn N) * v)%Qc in
  let ps := Qcmin (pm * (1 + s) / (pm * (1 + s) + (1 - pm))) 1 in
  mget (ch_p c) i j = (Qcn (binom N j) * qpow ps j * qpow (1 - ps) (N - j))%Qc.
Proof.
  intros H Hi Hn Hj N pm ps. destruct (wright_fisher_valid n s u v st c H) as (_ & _ & E). rewrite E.
  unfold wf_raw. rewrite mget_mk by lia.
  destruct (Nat.eqb_spec i 0); [lia|]. destruct (Nat.eqb_spec i (Z.to_nat n)); [lia|].
  unfold binom_pmf. fold N. assert (EE : wf_ps N s u v i = ps).
  { unfold wf_ps, ps. f_equal. f_equal. unfold wf_den. fold (wf_pm N u v i).
    change (wf_pm N u v i) with pm. ring. }
  rewrite EE. reflexivity.
Qed.

(** * approximation *)
Lemma tauchen_valid F sq quad size sigma rho k st c : cdf_like F -> (forall x, (0 <= x)%Qc -> (0 <= sq x)%Qc) ->
  approximation F sq quad size (Tauchen k) sigma rho st = Ok c ->
  valid_chain (Z.to_nat size) c /\ names_requested st (Z.to_nat size) (ch_states c).
Proof.
  intros HF Hs H. destruct (approximation_inv _ _ _ _ _ _ _ _ _ H) as (S2 & Sg & R & G & K & T).
  assert (L : 2 <= Z.to_nat size) by lia.
  destruct (gen_states_ok st _ _ L G) as [N Q].
  assert (K0 : (0 <= opt_get (Q2Qc 3) k)%Qc) by (eapply Qcle_trans; [|exact K]; discriminate).
  repeat split; auto; try apply N; apply (tauchen_stochastic F sq _ _ _ _ _ L Sg K0 HF Hs R T).
Qed.
Lemma tauchen_total F sq quad size sigma rho k : (2 <= size)%Z -> (0 < sigma)%Qc -> (-(1) < rho)%Qc -> (rho <= 1)%Qc ->
  (1 <= opt_get (Q2Qc 3) k)%Qc -> exists c, approximation F sq quad size (Tauchen k) sigma rho None = Ok c.
Proof.
  intros S2 Sg R1 R2 K. unfold approximation.
  rewrite (proj2 (Z.leb_le _ _) S2), (proj2 (Qcltb_lt _ _) Sg).
  rewrite (proj2 (Qcleb_le _ _) (Qclt_le_weak _ _ R1)), (proj2 (Qcleb_le _ _) R2).
  cbn [andb gen_states bind]. rewrite (proj2 (Qcleb_le _ _) K). cbn [bind].
  destruct (tauchen_ok_range F sq (Z.to_nat size) sigma rho (opt_get (Q2Qc 3) k) (conj R1 R2)) as [P E].
  rewrite E. cbn [bind]. eexists; reflexivity.
Qed.
Lemma rouwenhorst_total F sq quad size sigma rho : (2 <= size)%Z -> (0 < sigma)%Qc -> (-(1) <= rho <= 1)%Qc ->
  exists c, approximation F sq quad size Rouwenhorst sigma rho None = Ok c.
Proof.
  intros S2 Sg [R1 R2]. unfold approximation.
  rewrite (proj2 (Z.leb_le _ _) S2), (proj2 (Qcltb_lt _ _) Sg).
  rewrite (proj2 (Qcleb_le _ _) R1), (proj2 (Qcleb_le _ _) R2). eexists; reflexivity.
Qed.
Lemma approximation_arith : exists size sigma rho, (2 <= size)%Z /\ (0 < sigma)%Qc /\ (-(1) <= rho <= 1)%Qc /\
  forall F sq quad, approximation F sq quad size (Tauchen None) sigma rho None = Err ArithErr.
Proof.
  exists 2%Z, 1q, (-(1))%Qc. split; [lia|]. split; [reflexivity|]. split; [split; apply Qcleb_le; reflexivity|].
  intros. vm_compute. reflexivity.
Qed.

(** * random *)
Lemma random_zero_draws : exists (draw : nat -> nat -> Qc) c, (forall i j, (0 <= draw i j)%Qc /\ (draw i j < 1)%Qc) /\
  random 2 None 0 None (fun _ => 0) [0; 1] draw = Ok c /\ sumn 2 (fun j => mget (ch_p c) 0 j) <> 1q.
Proof.
  exists (fun _ _ => 0q).
  exists (mkchain (mk 2 2 (fun _ _ => 0q)) ["1"; "2"]%string).
  split; [intros; split; [apply Qcleb_le; reflexivity|reflexivity]|]. split; [vm_compute; reflexivity|].
  apply Qceqb_neq. vm_compute. reflexivity.
Qed.
Definition near_mask : list (list cell) := [[CVal (Q2Qc (1 # 2)); CVal (Q2Qc (499999 # 1000000))]; [CNan; CNan]].
Lemma random_near_complete : exists mask draw c, (forall i j, (0 < draw i j < 1)%Qc) /\
  random 2 None 0 (Some mask) (fun _ => 0) [0] draw = Ok c /\ sumn 2 (fun j => mget (ch_p c) 0 j) <> 1q.
Proof.
  exists near_mask, (fun _ _ => Q2Qc (1 # 2)).
  exists (mkchain (qm [[1 # 2; 499999 # 1000000]; [1 # 2; 1 # 2]]%Q) ["1"; "2"]%string).
  split; [intros; split; reflexivity|]. split; [vm_compute; reflexivity|].
  apply Qceqb_neq. vm_compute. reflexivity.
Qed.
Lemma random_stochastic size st zeros mask pick perm draw c :
  random size st zeros mask pick perm draw = Ok c ->
  let n := Z.to_nat size in
  let val := mval (the_mask n mask) in
  draws_ok n val pick perm draw ->
  (forall i, i < n -> row_complete n val i = true -> mask_sum n val i = 1q) ->
  valid_chain n c.
Proof.
  intros H n val D C. destruct (random_spec _ _ _ _ _ _ _ _ H D) as (A & B & _ & W & P & R & _).
  split; [exact A|split; [|exact B]]. split; [exact W|split; [exact P|]].
  intros i Hi. specialize (R i Hi). fold n val in R. destruct (row_complete n val i) eqn:E; [|exact R].
  rewrite R. exact (C i Hi E).
Qed.

(** * lump *)
Definition comma_chain : chain :=
  mkchain (mk 3 3 (fun _ _ => Q2Qc (1 # 3))) ["a"; "b"; "a,b"]%string.
Lemma lump_names_collide : exists n c parts r, valid_chain n c /\ partition_of n parts /\ lump_typed c parts = Ok r /\
  ~ NoDup (ch_states r).
Proof.
  exists 3, comma_chain, [[0; 1]; [2]].
  exists (mkchain (qm [[2 # 3; 1 # 3]; [2 # 3; 1 # 3]]%Q) ["a,b"; "a,b"]%string).
  split; [apply valid_chainb_ok; vm_compute; reflexivity|]. split; [|split; [vm_compute; reflexivity|]].
  - split; [|split].
    + intros B [<-|[<-|[]]]; discriminate.
    + cbn. repeat constructor; cbn; intuition lia.
    + intros x. cbn. lia.
  - cbn. intros N. inversion N as [|? ? X _]. apply X. left; reflexivity.
Qed.
(** If no name contains a comma, the lumped names are distinct. *)
Lemma app_comma_inj s t u v : comma_free s -> comma_free t ->
  (u = ""%string \/ exists u', u = String comma u') -> (v = ""%string \/ exists v', v = String comma v') ->
  String.append s u = String.append t v -> s = t /\ u = v.
Proof.
  revert t. induction s as [|a s IH]; intros [|b t]; cbn; intros Hs Ht Hu Hv E.
  - auto.
  - destruct Hu as [->|[u' ->]]; [discriminate|]. injection E as E1 _. destruct Ht as [X _]. congruence.
  - destruct Hv as [->|[v' ->]]; [discriminate|]. injection E as E1 _. destruct Hs as [X _]. congruence.
  - injection E as E1 E2. destruct Hs, Ht. subst b. destruct (IH t) as [-> ->]; auto.
Qed.
Lemma concat_comma_cons x l : String.concat "," (x :: l) =
  String.append x (match l with [] => ""%string | _ => String comma (String.concat "," l) end).
Proof. destruct l; cbn; [|reflexivity]. induction x; cbn; congruence. Qed.
Lemma concat_comma_inj l1 l2 : l1 <> [] -> l2 <> [] -> (forall s, In s l1 -> comma_free s) -> (forall s, In s l2 -> comma_free s) ->
  String.concat "," l1 = String.concat "," l2 -> l1 = l2.
Proof.
  revert l2. induction l1 as [|x l1 IH]; intros [|y l2] N1 N2 H1 H2 E; try congruence.
  rewrite !concat_comma_cons in E. apply app_comma_inj in E.
  - destruct E as [-> E]. f_equal. destruct l1 as [|x' l1], l2 as [|y' l2]; try discriminate; [reflexivity|].
    injection E as E. apply IH; auto; try discriminate; intros s Hs; [apply H1|apply H2]; right; exact Hs.
  - apply H1; left; reflexivity.
  - apply H2; left; reflexivity.
  - destruct l1; eauto.
  - destruct l2; eauto.
Qed.
Lemma map_nth_inj (l : list string) B B' : NoDup l -> (forall x, In x B -> x < length l) -> (forall x, In x B' -> x < length l) ->
  map (fun s => nth s l ""%string) B = map (fun s => nth s l ""%string) B' -> B = B'.
Proof.
  intros N. revert B'. induction B as [|x B IH]; intros [|y B'] H1 H2 E; try discriminate; [reflexivity|].
  cbn in E. injection E as E1 E2. f_equal.
  - apply (proj1 (NoDup_nth l ""%string) N); auto; [apply H1|apply H2]; left; reflexivity.
  - apply IH; auto; intros z Hz; [apply H1|apply H2]; right; exact Hz.
Qed.
Lemma NoDup_map_in {A B} (f : A -> B) l : NoDup l -> (forall x y, In x l -> In y l -> f x = f y -> x = y) -> NoDup (map f l).
Proof.
  induction 1 as [|x l Hx N IH]; intros Inj; cbn; constructor.
  - intros Hi. apply in_map_iff in Hi. destruct Hi as (y & E & Hy). apply Hx.
    rewrite (Inj x y); [exact Hy|left; reflexivity|right; exact Hy|auto].
  - apply IH. intros; apply Inj; auto; right; assumption.
Qed.
Lemma parts_NoDup (parts : list (list nat)) : (forall B, In B parts -> B <> []) -> NoDup (concat parts) -> NoDup parts.
Proof.
  induction parts as [|B parts IH]; intros E N; constructor.
  - intros Hi. destruct B as [|x B]; [exact (E [] (or_introl eq_refl) eq_refl)|].
    cbn in N. inversion N as [|? ? X _]. apply X, in_or_app. right. apply in_concat. exists (x :: B). split; [exact Hi|left; reflexivity].
  - assert (N' : NoDup (concat parts)).
    { clear - N. cbn in N. revert N. induction B as [|y B IHB]; cbn; intros N; [exact N|]. inversion N; auto. }
    apply IH; auto. intros; apply E; right; assumption.
Qed.
Lemma lump_names_distinct n c parts r : valid_chain n c -> partition_of n parts -> lump_typed c parts = Ok r ->
  (forall s, In s (ch_states c) -> comma_free s) -> NoDup (ch_states r).
Proof.
  intros V (E & N & C) H F.
  destruct (lump_result n c parts r V (conj N C) H) as (_ & -> & _).
  destruct V as (_ & _ & L & D & _).
  assert (In_lt : forall B, In B parts -> forall x, In x B -> x < length (ch_states c)).
  { intros B HB x Hx. rewrite L. apply C, in_concat. exists B; auto. }
  apply NoDup_map_in; [apply parts_NoDup; assumption|].
  intros B B' HB HB' X. apply concat_comma_inj in X.
  - exact (map_nth_inj _ _ _ D (In_lt B HB) (In_lt B' HB') X).
  - intros Y. apply map_eq_nil in Y. exact (E B HB Y).
  - intros Y. apply map_eq_nil in Y. exact (E B' HB' Y).
  - intros s Hs. apply in_map_iff in Hs. destruct Hs as (k & <- & Hk). apply F, nth_In, (In_lt B HB k Hk).
  - intros s Hs. apply in_map_iff in Hs. destruct Hs as (k & <- & Hk). apply F, nth_In, (In_lt B' HB' k Hk).
Qed.
