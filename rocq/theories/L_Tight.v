(** L_Tight: further facts about the validators, the readers and the measures, found
    missing when the theorems were tested against edited models. *)
From Verif Require Import L_FilesS L_Files2 L_Valid5 L_Stationary L_MeasuresR.
From Verif Require Import L_Struct1 L_Gen1 L_Valid2 L_Io1 L_Io3.
From Verif Require Export S_Files M_Files.
Open Scope nat_scope.
Open Scope res_scope.

(** ** validators *)
Lemma v_vector_scalar v size w : is_number v = true ->
  (v_vector v Unconstrained true size = Ok w <-> exists n x, size = Some n /\ (n = 0 \/ number_value v (Fin x) /\ (0 <= x <= 1)%Qc) /\ w = repeat (fin (as_float v)) n).
Proof.
  intros Hv. unfold v_vector. rewrite Hv. cbn [andb]. cbv iota. destruct size as [n|]; cbn [bind]; [|split; [discriminate|intros (n & x & E & _); discriminate]]. cbv beta iota.
  assert (Et : tab n (fun _ : nat => fin (as_float v)) = repeat (fin (as_float v)) n).
  { unfold tab. generalize 0. induction n as [|n IH]; intros s; [reflexivity|]. cbn. f_equal. apply IH. }
  split.
  - intros H. destruct (all1 n (fun _ => as_float v) prob01) eqn:A; [|discriminate]. cbv iota in H. injection H as <-. rewrite Et.
    destruct n as [|n]; [exists 0, 0q; split; [reflexivity|]; split; [left; reflexivity|reflexivity]|].
    unfold all1 in A. cbn [seq forallb] in A. apply andb_true_iff in A. destruct A as [A _]. unfold prob01 in A. rewrite !andb_true_iff in A. destruct A as [[A1 A2] A3].
    destruct (as_float v) as [x| | |] eqn:Ex; try discriminate. exists (S n), x. split; [reflexivity|]. split; [right|reflexivity]. split; [|split; [apply Qcleb_le; exact A2|apply Qcleb_le; exact A3]].
    destruct v; cbn in Ex, Hv; try discriminate; [right|left]; [exists z; split; [reflexivity|congruence]|congruence].
  - intros (n' & x & E & D & ->). injection E as <-. assert (A : all1 n (fun _ => as_float v) prob01 = true).
    { unfold all1. apply forallb_forall. intros i Hi. apply in_seq in Hi. destruct D as [->|[Nv [L U]]]; [lia|].
      assert (as_float v = Fin x) as -> by (destruct Nv as [->|(z & -> & ->)]; reflexivity). unfold prob01. cbn. apply Qcleb_le in L, U. change (Qcleb 0q x && Qcleb x 1q = true). rewrite L, U. reflexivity. }
    rewrite A. cbv iota. rewrite Et. reflexivity.
Qed.
Lemma v_enumerator_iff v values s : v_enumerator v values = Ok s <-> v = PStr s /\ nonblank s = true /\ In s values.
Proof.
  unfold v_enumerator. split.
  - intros H. destruct (is_string v) eqn:E; [|discriminate]. cbv iota in H. destruct (existsb _ values) eqn:X; [|discriminate]. cbv iota in H. injection H as <-. destruct v; try discriminate. cbn in *. split; [reflexivity|]. split; [exact E|].
    apply existsb_exists in X. destruct X as (y & I & Y). apply String.eqb_eq in Y. subst. exact I.
  - intros (-> & B & I). cbn [is_string]. rewrite B. cbv iota. replace (existsb _ values) with true; [reflexivity|]. symmetry. apply existsb_exists. exists s. split; [exact I|apply String.eqb_refl].
Qed.
Lemma identity_py_iff size states c : identity_py size states = Ok c <-> exists z, size = PInt z /\ (2 <= z)%Z /\ names_argument states (Z.to_nat z) (ch_states c) /\
  wf (Z.to_nat z) (Z.to_nat z) (ch_p c) /\ forall i j, i < Z.to_nat z -> j < Z.to_nat z -> mget (ch_p c) i j = delta i j.
Proof.
  unfold identity_py. split.
  - destruct (v_integer size (Some (2%Z, false)) None) as [z|] eqn:E; [|discriminate]. cbn [bind]. cbv zeta. intros H. apply v_integer_iff in E. destruct E as (-> & Lo & _). exists z. split; [reflexivity|].
    assert (L2 : (2 <= z)%Z) by (unfold above in Lo; destruct Lo as [Lo|Lo]; lia).
    split; [exact L2|]. match type of H with bind ?x _ = _ => destruct x as [l|] eqn:El; [|discriminate] end. cbn [bind] in H. injection H as <-. cbn [ch_states ch_p]. split.
    + apply names_argument_iff; [lia|exact El].
    + split; [apply wf_eye|]. intros i j Hi Hj. apply mget_eye; assumption.
  - intros (z & -> & L2 & Na & W & Hd). assert (E : v_integer (PInt z) (Some (2%Z, false)) None = Ok z).
    { apply v_integer_iff. split; [reflexivity|]. split; [|exact I]. unfold above. destruct (Z.eq_dec z 2); [right|left; lia]. split; [reflexivity|congruence]. }
    rewrite E. cbn [bind]. cbv zeta. apply names_argument_iff in Na; [|lia]. rewrite Na. cbn [bind]. f_equal. destruct c as [p l]. cbn [ch_p ch_states] in *. f_equal.
    apply (mat_ext (Z.to_nat z) (Z.to_nat z)); [apply wf_eye|exact W|]. intros i j Hi Hj. rewrite Hd, mget_eye by assumption. reflexivity.
Qed.

(** ** measures that need a unique stationary distribution *)
Lemma several_classes n m i j : env_ok n m -> recurrent n (edge (en_p m)) i -> recurrent n (edge (en_p m)) j -> ~ reach n (edge (en_p m)) i j ->
  exists pis, stationary_distributions (en_p m) (en_comps m) = Ok pis /\ 1 < length pis.
Proof.
  intros (Hn & St & _ & _ & Nx) Ri Rj NR. destruct (pi_listing n (en_p m) (en_comps m) ltac:(lia) St ltac:(apply Nx)) as (Rs & pis & E & (ND & Cl & Cov & _) & F).
  exists pis. split; [exact E|]. assert (LF : length Rs = length pis) by (clear -F; induction F; cbn; congruence). rewrite <- LF. destruct (Cov i Ri) as (B & IB & Bi). destruct (Cov j Rj) as (B' & IB' & Bj).
  assert (B <> B'). { intros <-. apply NR. destruct (Cl B IB) as [_ M]. destruct (M i Bi) as [_ M']. apply (M' j (proj1 Rj)) in Bj. apply Bj. }
  destruct Rs as [|x [|y Rs]]; [destruct IB| |cbn; lia]. destruct IB as [<-|[]], IB' as [<-|[]]. contradiction.
Qed.
Lemma time_none n m d s1 s2 x ts i j : env_ok n m -> recurrent n (edge (en_p m)) i -> recurrent n (edge (en_p m)) j -> ~ reach n (edge (en_p m)) i j -> length x = n ->
  time_correlations m (Ok d) s1 s2 ts = Ok None /\ time_relaxations m (Ok d) s1 x ts = Ok None.
Proof.
  intros H Ri Rj NR Lx. destruct (several_classes n m i j H Ri Rj NR) as (pis & E & L). unfold time_correlations, time_relaxations. rewrite (env_size n m H), Lx, Nat.eqb_refl. cbn [bind]. rewrite E. cbn [bind].
  apply Nat.ltb_lt in L. rewrite L. split; reflexivity.
Qed.

(** ** hidden Markov models read from dictionaries and files *)
Lemma fill_hmm_shape states symbols n k d : length states = n -> length symbols = k -> forall p e q, shape n n p -> shape n k e -> fill_hmm states symbols d p e = Ok q ->
  shape n n (fst q) /\ shape n k (snd q).
Proof.
  intros HL HK. induction d as [|[ky v] d IH]; cbn [fill_hmm]; intros p e q Hp He H; [injection H as <-; split; assumption|]. destruct ky as [|r [|x [|y [|z ky]]]]; try discriminate.
  destruct (String.eqb r "E").
  - destruct (pos states x) as [i|] eqn:Ei; [|discriminate]. cbn [bind] in H. destruct (pos symbols y) as [j|] eqn:Ej; [|discriminate]. cbn [bind] in H. apply pos_ok in Ei. eapply IH; [|  |exact H]; [exact Hp|]. apply set2_shape; [exact He|lia].
  - destruct (pos states x) as [i|] eqn:Ei; [|discriminate]. cbn [bind] in H. destruct (pos states y) as [j|] eqn:Ej; [|discriminate]. cbn [bind] in H. apply pos_ok in Ei. eapply IH; [|  |exact H]; [|exact He]. apply set2_shape; [exact Hp|lia].
Qed.
Lemma hmm_of_dict_rows d o : hmm_of_dict d = Ok o -> exists n k P E, 2 <= n /\ 2 <= k /\ length (rh_states o) = n /\ length (rh_symbols o) = k /\
  rh_p o = map (map Fin) P /\ wf n n P /\ nearly_stochastic n n P /\ rh_e o = map (map Fin) E /\ wf n k E /\ nearly_stochastic n k E.
Proof.
  unfold hmm_of_dict. cbv zeta. destruct (Nat.leb 2 (length (hmm_diagonal d))) eqn:E2; [|discriminate]. cbv iota. set (sy := hmm_symbols_of _ d). destruct (Nat.leb 2 (length sy)) eqn:E3; [|discriminate]. cbv iota.
  destruct (fill_hmm _ _ d _ _) as [[p e]|] eqn:E4; [|discriminate]. cbn [bind fst snd]. destruct (rows_sum_to_one p) eqn:E5; [|discriminate]. cbv iota. destruct (rows_sum_to_one e) eqn:E6; [|discriminate]. cbv iota.
  intros H. injection H as <-. cbn [rh_states rh_symbols rh_p rh_e]. apply Nat.leb_le in E2, E3.
  destruct (fill_hmm_shape _ _ (length (hmm_diagonal d)) (length sy) d eq_refl eq_refl _ _ _ (nzeros_shape _ _) (nzeros_shape _ _) E4) as [S1 S2]. cbn [fst snd] in S1, S2.
  destruct (finite_rows _ _ _ S1 E5) as (P & -> & WP & NP). destruct (finite_rows _ _ _ S2 E6) as (E & -> & WE & NE).
  exists (length (hmm_diagonal d)), (length sy), P, E. repeat (split; [assumption || reflexivity|]). assumption.
Qed.
Lemma hmm_from_dictionary_rows v o : hmm_from_dictionary v = Ok o -> exists n k P E, 2 <= n /\ 2 <= k /\ length (rh_states o) = n /\ length (rh_symbols o) = k /\
  rh_p o = map (map Fin) P /\ wf n n P /\ nearly_stochastic n n P /\ rh_e o = map (map Fin) E /\ wf n k E /\ nearly_stochastic n k E.
Proof. unfold hmm_from_dictionary. destruct (v_dictionary_hmm v) as [d|]; [|discriminate]. cbn [bind]. apply hmm_of_dict_rows. Qed.
Lemma hmm_from_file_rows float limit nul_ok f t o : hmm_from_file float limit nul_ok f t = Ok o -> exists n k P E, 2 <= n /\ 2 <= k /\ length (rh_states o) = n /\ length (rh_symbols o) = k /\
  rh_p o = map (map Fin) P /\ wf n n P /\ nearly_stochastic n n P /\ rh_e o = map (map Fin) E /\ wf n k E /\ nearly_stochastic n k E.
Proof. unfold hmm_from_file. destruct (nonempty t); [|discriminate]. cbv iota. destruct (hmm_read_file float limit nul_ok f t) as [d|]; [|discriminate]. cbn [bind]. apply hmm_of_dict_rows. Qed.

(** ** line ends *)
(** a text with each line feed preceded by a carriage return *)
Definition dos (t : text) : text := flat_map (fun c => if Ascii.eqb c lf then [cr; lf] else [c]) t.
Lemma universal_dos t : ~ In cr t -> universal (dos t) = universal t.
Proof.
  intros H. rewrite (universal_id t H). induction t as [|c t IH]; [reflexivity|]. unfold dos. cbn [flat_map]. fold (dos t). assert (Ht : ~ In cr t) by (intros C; apply H; right; exact C). specialize (IH Ht).
  destruct (Ascii.eqb_spec c lf) as [->|Hc].
  - cbn [app universal]. rewrite (Ascii.eqb_refl cr), (Ascii.eqb_refl lf). rewrite IH. reflexivity.
  - cbn [app universal]. destruct (Ascii.eqb_spec c cr) as [->|]; [exfalso; apply H; left; reflexivity|]. rewrite IH. reflexivity.
Qed.
Lemma read_txt_dos float ps t : ~ In cr t -> read_txt float ps (dos t) = read_txt float ps t.
Proof. intros H. unfold read_txt. rewrite universal_dos by exact H. reflexivity. Qed.
Lemma read_json_dos float ps t : ~ In cr t -> read_json float ps (dos t) = read_json float ps t.
Proof. intros H. unfold read_json. rewrite universal_dos by exact H. reflexivity. Qed.

(** ** the last record of a pair counts *)
Fixpoint last_value (k : key) (rs : list (key * num)) : option num :=
  match rs with
  | [] => None
  | (k', v) :: r => match last_value k r with Some w => Some w | None => if key_eqb k' k then Some v else None end
  end.
Definition dget (d : dict) (k : key) : option num := match find (fun e => key_eqb (fst e) k) d with Some e => Some (snd e) | None => None end.
Lemma dget_set d k v x : dget (dict_set d k v) x = if key_eqb k x then Some v else dget d x.
Proof.
  unfold dget. induction d as [|[k' v'] d IH]; cbn; [destruct (key_eqb k x); reflexivity|]. destruct (key_eqb k' k) eqn:E; cbn.
  - apply key_eqb_eq in E. subst. destruct (key_eqb k x); reflexivity.
  - destruct (key_eqb k' x) eqn:F; [|exact IH]. apply key_eqb_eq in F. subst. destruct (key_eqb k x) eqn:G; [|reflexivity]. apply key_eqb_eq in G. subst. rewrite key_eqb_refl in E. discriminate.
Qed.
Lemma records_last float ps rows : forall d0 d, records float ps rows d0 = Ok d -> exists rs, mapM (record float ps) rows = Ok rs /\
  forall k, dget d k = match last_value k rs with Some v => Some v | None => dget d0 k end.
Proof.
  induction rows as [|row rows IH]; cbn [records]; intros d0 d H; [injection H as <-; exists []; split; [reflexivity|reflexivity]|].
  cbn [mapM]. destruct (record float ps row) as [[k v]|] eqn:Er; [|discriminate]. cbn [bind fst snd] in *. destruct (IH _ _ H) as (rs & Em & V). rewrite Em. cbn [bind]. eexists. split; [reflexivity|].
  intros x. rewrite V. cbn [last_value]. destruct (last_value x rs); [reflexivity|]. rewrite dget_set. destruct (key_eqb k x); reflexivity.
Qed.
Lemma read_txt_last float ps t d : read_txt float ps t = Ok d -> exists rs, mapM (record float ps) (map (words []) (lines [] (universal t))) = Ok rs /\
  forall k, dget d k = last_value k rs.
Proof. intros H. destruct (records_last float ps _ _ _ H) as (rs & E & V). exists rs. split; [exact E|]. intros k. rewrite V. destruct (last_value k rs); reflexivity. Qed.

(** two absorbing states *)
Definition cI2 : chain := mkchain (qm [[1; 0]; [0; 1]]%Q) ["a"; "b"]%string.
Lemma cI2_two_classes : env_ok 2 (env cI2) /\ recurrent 2 (edge (ch_p cI2)) 0 /\ recurrent 2 (edge (ch_p cI2)) 1 /\ ~ reach 2 (edge (ch_p cI2)) 0 1.
Proof.
  assert (W : wf 2 2 (ch_p cI2)) by (apply wfb_ok; vm_compute; reflexivity).
  assert (R : forall x y, x < 2 -> y < 2 -> reach 2 (edge (ch_p cI2)) x y -> x = y).
  { intros x y Hx Hy H. apply (reachb_spec 2 (ch_p cI2) x y W) in H; [|assumption|assumption]. destruct x as [|[|x]], y as [|[|y]]; try lia; vm_compute in H; discriminate. }
  split; [apply env_b; vm_compute; reflexivity|].
  assert (L : forall x y, reach 2 (edge (ch_p cI2)) x y -> x < 2 /\ y < 2) by (intros x y (k & H); induction H; intuition).
  split; [split; [lia|]; intros y H; destruct (L _ _ H); rewrite <- (R 0 y) by assumption; apply reach_refl; lia|].
  split; [split; [lia|]; intros y H; destruct (L _ _ H); rewrite <- (R 1 y) by assumption; apply reach_refl; lia|].
  intros H. specialize (R 0 1 ltac:(lia) ltac:(lia) H). discriminate.
Qed.
