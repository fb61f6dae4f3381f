(** L_Near: what happens to the chains the constructor accepts although their rows do not sum
    exactly to one. *)
From Verif Require Export M_Choice S_Io M_Generators S_Gen S_Gen2 S_Classic.
From Verif Require Import L_Gen1 L_Gen3 L_Measures1 L_Struct3 L_Sens ExM.
Open Scope nat_scope.
Open Scope res_scope.

Definition fine (p : mat) (i : nat) : Prop := (Qcabs (sumn (nrows p) (fun j => mget p i j) - 1) <= sqrt_eps)%Qc.
Lemma choice_checked_iff p i u s : choice_checked (nrows p) (row p i) u = Ok s <-> fine p i /\ s = choice (nrows p) (row p i) u.
Proof.
  unfold choice_checked, fine. change (sumn (nrows p) (vget (row p i))) with (sumn (nrows p) (fun j => mget p i j)).
  destruct (Qcleb_spec (Qcabs (sumn (nrows p) (fun j => mget p i j) - 1)) sqrt_eps) as [L|L]; cbv iota.
  - split; [intros H; injection H as <-; auto|intros (_ & ->); reflexivity].
  - split; [discriminate|intros (X & _); exfalso; qclra].
Qed.
Lemma sim_loop_iff p final u : forall k t cur l, sim_loop_checked p final u k t cur = Ok l <->
  sim_loop p final u k t cur = Ok l /\ forall i, In i (removelast (cur :: l)) -> fine p i.
Proof.
  induction k as [|k IH]; intros t cur l; cbn [sim_loop_checked sim_loop].
  - split; [intros H; injection H as <-; split; [reflexivity|intros i []]|intros (H & _); exact H].
  - destruct (Nat.ltb cur (nrows p)); cbv iota; [|split; [discriminate|intros (X & _); discriminate]].
    set (s := choice (nrows p) (row p cur) (u t)).
    assert (D : fine p cur \/ ~ fine p cur). { unfold fine. destruct (Qcleb_spec (Qcabs (sumn (nrows p) (fun j => mget p cur j) - 1)) sqrt_eps) as [L|L]; [left; exact L|right; intros X; qclra]. }
    destruct D as [F|F].
    + rewrite (proj2 (choice_checked_iff p cur (u t) s) (conj F eq_refl)). cbn [bind].
      destruct (match final with Some f => Nat.eqb s f | None => false end).
      * split; [intros H; injection H as <-; split; [reflexivity|intros i [<-|[]]; exact F]|intros (H & _); exact H].
      * split.
        -- intros H. destruct (sim_loop_checked p final u k (S t) s) as [r|e] eqn:E; [|discriminate]. cbn [bind] in H. injection H as <-.
           apply IH in E. destruct E as (E & R). rewrite E. cbn [bind]. split; [reflexivity|]. intros i Hi. destruct Hi as [<-|Hi]; [exact F|apply R, Hi].
        -- intros (H & R). destruct (sim_loop p final u k (S t) s) as [r|e] eqn:E; [|discriminate]. cbn [bind] in H. injection H as <-.
           assert (X : sim_loop_checked p final u k (S t) s = Ok r) by (apply IH; split; [exact E|]; intros i Hi; apply R; right; exact Hi). rewrite X. reflexivity.
    + assert (N : choice_checked (nrows p) (row p cur) (u t) = Err ValueErr).
      { destruct (choice_checked (nrows p) (row p cur) (u t)) as [x|e] eqn:E; [apply choice_checked_iff in E; destruct E; contradiction|].
        unfold choice_checked in E. destruct (Qcleb _ _) in E; [discriminate|]. exact (eq_sym E). }
      rewrite N. cbn [bind]. split; [discriminate|]. intros (H & R). exfalso. apply F, R. 
      destruct (match final with Some f => Nat.eqb s f | None => false end); [injection H as <-; left; reflexivity|].
      destruct (sim_loop p final u k (S t) s) as [r|e]; [|discriminate]. cbn [bind] in H. injection H as <-. left; reflexivity.
Qed.
Lemma simulate_iff p steps init final r u v : simulate_checked p steps init final r u = Ok v <->
  simulate p steps init final r u = Ok v /\ forall i, In i (removelast v) -> fine p i.
Proof.
  unfold simulate_checked, simulate, mc_simulate. destruct (Nat.leb 2 steps); cbv iota; [|split; [discriminate|intros (X & _); discriminate]]. cbv zeta.
  set (i := match init with Some i => i | None => Nat.modulo r (nrows p) end).
  destruct (Nat.ltb i (nrows p)); cbv iota; [|split; [discriminate|intros (X & _); discriminate]].
  destruct (match final with Some f => Nat.ltb f (nrows p) | None => true end); cbv iota; [|split; [discriminate|intros (X & _); discriminate]].
  split.
  - intros H. destruct (sim_loop_checked p final u steps 0 i) as [l|e] eqn:E; [|discriminate]. cbn [bind] in H. injection H as <-.
    apply sim_loop_iff in E. destruct E as (E & R). rewrite E. split; [reflexivity|exact R].
  - intros (H & R). destruct (sim_loop p final u steps 0 i) as [l|e] eqn:E; [|discriminate]. cbn [bind] in H. injection H as <-.
    rewrite (proj2 (sim_loop_iff p final u steps 0 i l) (conj E R)). reflexivity.
Qed.
Lemma fine_exact n P i : stochastic n P -> i < n -> fine P i.
Proof.
  intros S Hi. unfold fine. rewrite (wf_nrows _ _ _ (proj1 S)). destruct S as (_ & _ & Sm). rewrite (Sm i Hi). vm_compute. discriminate.
Qed.
Lemma sim_states n P final u : stochastic n P -> forall k t cur l, sim_loop P final u k t cur = Ok l -> forall i, In i (removelast (cur :: l)) -> i < n.
Proof.
  intros S. induction k as [|k IH]; intros t cur l H i Hi; cbn [sim_loop] in H; [injection H as <-; destruct Hi|].
  destruct (Nat.ltb_spec cur (nrows P)) as [L|L]; [|discriminate]. rewrite (wf_nrows _ _ _ (proj1 S)) in L.
  set (s := choice (nrows P) (row P cur) (u t)) in H. destruct (match final with Some f => Nat.eqb s f | None => false end).
  - injection H as <-. destruct Hi as [<-|[]]. exact L.
  - destruct (sim_loop P final u k (Datatypes.S t) s) as [r|e] eqn:E; [|discriminate]. cbn [bind] in H. injection H as <-. destruct Hi as [<-|Hi]; [exact L|apply (IH _ _ _ E), Hi].
Qed.
Lemma simulate_exact n P steps init final r u v : stochastic n P -> simulate P steps init final r u = Ok v -> simulate_checked P steps init final r u = Ok v.
Proof.
  intros S H. apply simulate_iff. split; [exact H|]. intros i Hi. apply (fine_exact n); [exact S|].
  unfold simulate, mc_simulate in H. destruct (Nat.leb 2 steps); [|discriminate]. cbv zeta in H.
  destruct (Nat.ltb _ (nrows P)) in H; [|discriminate]. destruct (match final with Some f => Nat.ltb f (nrows P) | None => true end); [|discriminate]. cbv iota in H.
  destruct (sim_loop P final u steps 0 (match init with Some i => i | None => Nat.modulo r (nrows P) end)) as [l|e] eqn:E; [|discriminate]. cbn [bind] in H. injection H as <-.
  apply (sim_states n P final u S _ _ _ _ E i Hi).
Qed.
(** Rows of 1.000001. *)
Definition cNear : chain := mkchain [[half; half + Q2Qc (1 # 1000000)]; [half; half + Q2Qc (1 # 1000000)]]%Qc ["a"; "b"]%string.
(** Rows of 1.00001. *)
Definition cEdge : chain := mkchain [[half; half + Q2Qc (1 # 100000)]; [half; half + Q2Qc (1 # 100000)]]%Qc ["a"; "b"]%string.
Lemma names2_ok : names_ok 2 ["a"; "b"]%string.
Proof. repeat split; try reflexivity. - repeat constructor; cbn; intuition discriminate. - intros s H. repeat (destruct H as [<-|H]; [reflexivity|]); destruct H. Qed.
Lemma accepted2 a b c d : (0 <= a <= 1)%Qc -> (0 <= b <= 1)%Qc -> (0 <= c <= 1)%Qc -> (0 <= d <= 1)%Qc -> nearly_one (a + b)%Qc -> nearly_one (c + d)%Qc ->
  accepted_chain 2 (mkchain [[a; b]; [c; d]] ["a"; "b"]%string).
Proof.
  intros. split; [lia|]. split; [split; [reflexivity|]; intros r [<-|[<-|[]]]; reflexivity|]. split.
  { intros [|[|i]] [|[|j]] Hi Hj; try lia; assumption. }
  split; [|apply names2_ok]. intros [|[|i]] Hi; [| |lia]; unfold nearly_one, sumn in *; cbn in *; replace (0 + a)%Qc with a in * by ring; replace (0 + c)%Qc with c in * by ring; assumption.
Qed.
Lemma near_ok : accepted_chain 2 cNear. Proof. apply accepted2; split; vm_compute; discriminate. Qed.
Lemma edge_ok : accepted_chain 2 cEdge. Proof. apply accepted2; split; vm_compute; discriminate. Qed.
Lemma near_fails : forall steps init final r u, is_ok (simulate_checked (ch_p cNear) steps init final r u) = false.
Proof.
  intros. destruct (simulate_checked (ch_p cNear) steps init final r u) as [v|e] eqn:E; [|reflexivity]. exfalso.
  unfold simulate_checked in E. destruct steps as [|[|steps]]; try discriminate. cbn [Nat.leb] in E. cbv zeta iota in E.
  set (i := match init with Some i => i | None => Nat.modulo r (nrows (ch_p cNear)) end) in E.
  destruct (Nat.ltb_spec i (nrows (ch_p cNear))) as [L|]; [|discriminate].
  destruct (match final with Some f => Nat.ltb f (nrows (ch_p cNear)) | None => true end); [|discriminate]. cbv iota in E.
  destruct (sim_loop_checked (ch_p cNear) final u (S (S steps)) 0 i) as [l|e] eqn:X; [|discriminate]. cbn [sim_loop_checked] in X.
  destruct (Nat.ltb_spec i (nrows (ch_p cNear))); [|lia]. cbv iota in X.
  assert (C : choice_checked (nrows (ch_p cNear)) (row (ch_p cNear) i) (u 0) = Err ValueErr).
  { cbn in L. destruct i as [|[|i]]; [| |lia]; unfold choice_checked; match goal with |- context [Qcleb ?a ?b] => assert (B : Qcleb a b = false) by (vm_compute; reflexivity); rewrite B end; reflexivity. }
  rewrite C in X. discriminate.
Qed.
Lemma hmm_exact h n k steps init fs fy c0 pr er : row_stochastic n k (h_e h) -> 0 < n -> init < n ->
  hmm_simulate_checked h steps init fs fy c0 pr er = Ok (hmm_simulate h steps init fs fy c0 pr er).
Proof.
  intros S Hn Hi. unfold hmm_simulate_checked, choice_checked. rewrite (wf_ncols _ _ _ (proj1 S) Hn).
  change (sumn k (vget (row (h_e h) init))) with (sumn k (fun j => mget (h_e h) init j)). destruct S as (_ & _ & Sm). rewrite (Sm init Hi).
  match goal with |- context [Qcleb ?a ?b] => assert (B : Qcleb a b = true) by (vm_compute; reflexivity); rewrite B end. reflexivity.
Qed.

(** ** Derived chains *)
Lemma lazy_weights n c w r : 0 < n -> ch_size c = n -> to_lazy_chain c w = Ok r ->
  exists v, (forall i, i < n -> (0 <= vget v i <= 1)%Qc) /\ r = mkchain (mc_lazy (ch_p c) v) (ch_states c).
Proof.
  intros N SZ. unfold to_lazy_chain. rewrite SZ. destruct w as [x|v].
  - destruct (forallb in01 (repeat x n)) eqn:F; [|discriminate]. cbn [bind]. intros H; inversion H; subst r.
    exists (repeat x n). split; [|reflexivity]. intros i Hi. apply in01_true. rewrite forallb_forall in F. apply F. apply nth_In. rewrite repeat_length. exact Hi.
  - destruct (validate_vector v Unconstrained (Some n)) as [v'|] eqn:E; [|discriminate]. cbn [bind].
    intros H; inversion H; subst r. unfold validate_vector in E.
    destruct (Nat.eqb (length v) 0); [discriminate|]. cbn [negb] in E.
    destruct (Nat.eqb_spec (length v) n) as [L|]; [|discriminate].
    destruct (forallb in01 v) eqn:F; [|discriminate]. inversion E; subst v'.
    exists v. split; [|reflexivity]. intros i Hi. apply in01_true. rewrite forallb_forall in F. apply F. apply nth_In. lia.
Qed.
Lemma lazy_near n c w r : accepted_chain n c -> to_lazy_chain c w = Ok r -> probabilities n n (ch_p r) /\ nearly_stochastic n n (ch_p r).
Proof.
  intros (N & W & P & R & NM) H. destruct (lazy_weights n c w r ltac:(lia) (wf_nrows _ _ _ W) H) as (v & B & ->). cbn [ch_p].
  assert (LZ := fun i j => mget_lazy n (ch_p c) v i j W). split.
  - intros i j Hi Hj. rewrite LZ by assumption. destruct (B i Hi), (P i j Hi Hj). unfold delta. destruct (Nat.eqb i j); split; qcnra.
  - intros i Hi. unfold nearly_one. rewrite (sumn_ext n (fun j => mget (mc_lazy (ch_p c) v) i j) _ (fun j Hj => LZ i j Hi Hj)), sumn_plus, sumn_mul_l, sumn_delta_c by assumption.
    destruct (R i Hi) as (R1 & R2). destruct (B i Hi). set (s := sumn n (fun j => mget (ch_p c) i j)) in *.
    replace ((1 - vget v i) * s + vget v i - 1)%Qc with ((1 - vget v i) * (s - 1))%Qc by ring. assert (T : (0 <= tolerance)%Qc) by (vm_compute; discriminate). split; qcnra.
Qed.
Lemma merge_near n c d g r : accepted_chain n c -> accepted_chain n d -> merge_with c d g = Ok r -> probabilities n n (ch_p r) /\ nearly_stochastic n n (ch_p r).
Proof.
  intros (N & W & P & R & NM) (_ & W' & P' & R' & _) H. unfold merge_with in H. destruct (Nat.eqb (ch_size d) (ch_size c)); [|discriminate].
  destruct (Qcltb_spec 0 g) as [G0|]; [|discriminate]. destruct (Qcltb_spec g 1) as [G1|]; [|discriminate]. cbn in H. injection H as <-. cbn [ch_p].
  assert (SZ : ch_size c = n) by apply (wf_nrows _ _ _ W). rewrite SZ. split.
  - intros i j Hi Hj. rewrite mget_mk by assumption. destruct (P i j Hi Hj), (P' i j Hi Hj). split; qcnra.
  - intros i Hi. unfold nearly_one. rewrite (sumn_ext n _ (fun j => (1 - g) * mget (ch_p c) i j + g * mget (ch_p d) i j)%Qc) by (intros j Hj; rewrite mget_mk by assumption; reflexivity).
    rewrite sumn_plus, !sumn_mul_l. destruct (R i Hi) as (A1 & A2), (R' i Hi) as (B1 & B2).
    set (s := sumn n (fun j => mget (ch_p c) i j)) in *. set (t := sumn n (fun j => mget (ch_p d) i j)) in *. split; qcnra.
Qed.
Lemma pow_nonneg x k : (0 <= x)%Qc -> (0 <= M_Generators.qpow x k)%Qc.
Proof. intros H. induction k as [|k IH]; cbn; [discriminate|]. apply Qc_mul_nonneg; assumption. Qed.
Lemma kstep_bounds n P a b : (forall i j, i < n -> j < n -> (0 <= mget P i j)%Qc) -> (0 <= a)%Qc -> (0 <= b)%Qc ->
  (forall i, i < n -> (a <= sumn n (fun j => mget P i j) <= b)%Qc) ->
  forall k i, i < n -> (M_Generators.qpow a k <= sumn n (fun j => kstep n P k i j) <= M_Generators.qpow b k)%Qc.
Proof.
  intros P0 Ha Hb R. induction k as [|k IH]; intros i Hi.
  - rewrite (sumn_ext n _ (fun j => delta i j * 1)%Qc) by (intros j Hj; rewrite kstep_0; ring). rewrite sumn_delta_l by assumption. cbn. split; qclra.
  - assert (E : sumn n (fun j => kstep n P (S k) i j) = sumn n (fun x => mget P i x * sumn n (fun j => kstep n P k x j))%Qc).
    { rewrite (sumn_ext n _ (fun j => sumn n (fun x => mget P i x * kstep n P k x j)%Qc)) by (intros j Hj; apply kstep_S).
      rewrite sumn_swap. apply sumn_ext. intros x Hx. rewrite sumn_mul_l. reflexivity. }
    rewrite E. destruct (R i Hi) as (R1 & R2). pose proof (pow_nonneg a k Ha) as A. pose proof (pow_nonneg b k Hb) as B.
    assert (L : (sumn n (fun x => mget P i x * M_Generators.qpow a k) <= sumn n (fun x => mget P i x * sumn n (fun j => kstep n P k x j)))%Qc).
    { apply sumn_le. intros x Hx. destruct (IH x Hx). specialize (P0 i x Hi Hx). qcnra. }
    assert (U : (sumn n (fun x => mget P i x * sumn n (fun j => kstep n P k x j)) <= sumn n (fun x => mget P i x * M_Generators.qpow b k))%Qc).
    { apply sumn_le. intros x Hx. destruct (IH x Hx). specialize (P0 i x Hi Hx). qcnra. }
    rewrite sumn_mul_r in L, U. cbn [M_Generators.qpow]. set (s := sumn n (fun j => mget P i j)) in *. split; qcnra.
Qed.
Lemma nth_near n c o r : accepted_chain n c -> to_nth_order c o = Ok r -> forall i, i < n ->
  (power (1 - tolerance) (Z.to_nat o) <= sumn n (fun j => mget (ch_p r) i j) <= power (1 + tolerance) (Z.to_nat o))%Qc.
Proof.
  intros (N & W & P & R & NM) H i Hi. unfold to_nth_order in H. destruct (Z.leb 2 o); [|discriminate]. injection H as <-. cbn [ch_p].
  rewrite (sumn_ext n _ (fun j => kstep n (ch_p c) (Z.to_nat o) i j)) by (intros j Hj; apply mpow_kstep; [lia|assumption..]).
  apply (kstep_bounds n (ch_p c) (1 - tolerance) (1 + tolerance)); [intros a b Ha Hb; apply P; assumption|vm_compute; discriminate|vm_compute; discriminate| |exact Hi].
  intros a Ha. destruct (R a Ha). split; qclra.
Qed.
Lemma nth_far : exists r, accepted_chain 2 cEdge /\ to_nth_order cEdge 2 = Ok r /\ ~ nearly_stochastic 2 2 (ch_p r).
Proof.
  eexists. split; [apply edge_ok|]. split; [reflexivity|]. intros H. destruct (H 0 ltac:(lia)) as (_ & U). revert U. apply Qclt_not_le. vm_compute. reflexivity.
Qed.
