(** L_Spectral5: concrete spectra and counterexamples. *)
From Verif Require Import M_Spectral S_Spectral L_Spectral L_Spectral2 L_Spectral3 L_Spectral4 L_Ergodic L_PropsR L_Simulation L_Measures2 L_MeasuresR L_Entropy L_Props Dec Ex ExM ExL.
From Coq Require Import Reals Qreals Lra Psatz Permutation Sorted.
Close Scope Q_scope. Close Scope R_scope.
Open Scope nat_scope.
Open Scope res_scope.

Definition cm3 (a b c d e f g h i : cx) : cmat := fun x y =>
  match x, y with
  | 0, 0 => a | 0, 1 => b | 0, _ => c
  | 1, 0 => d | 1, 1 => e | 1, _ => f
  | _, 0 => g | _, 1 => h | _, _ => i
  end.
Definition cm2 (a b c d : cx) : cmat := fun x y => match x, y with 0, 0 => a | 0, _ => b | _, 0 => c | _, _ => d end.
Lemma spectrum_diag2 A l1 l2 V W : ceq 2 (cmm 2 V W) cid -> ceq 2 (cmm 2 W V) cid ->
  (forall i, i < 2 -> cmm 2 A V i 0 = (l1 * V i 0)%C /\ cmm 2 A V i 1 = (l2 * V i 1)%C) -> spectrum 2 A [l1; l2].
Proof.
  intros H1 H2 H3. split; [reflexivity|]. exists V, W, (cm2 l1 zeroC zeroC l2). split; [exact H1|]. split; [exact H2|]. split; [|split].
  - intros i [|[|j]] Hi Hj; [| |lia]; destruct (H3 i Hi) as [E0 E1]; [rewrite E0|rewrite E1]; unfold cmm; cbn [csum cm2]; ring.
  - intros [|[|i]] [|j] Hi Hj; try lia; reflexivity.
  - intros [|[|i]] Hi; try lia; reflexivity.
Qed.
Lemma spectrum_diag3 A l1 l2 l3 V W : ceq 3 (cmm 3 V W) cid -> ceq 3 (cmm 3 W V) cid ->
  (forall i, i < 3 -> cmm 3 A V i 0 = (l1 * V i 0)%C /\ cmm 3 A V i 1 = (l2 * V i 1)%C /\ cmm 3 A V i 2 = (l3 * V i 2)%C) -> spectrum 3 A [l1; l2; l3].
Proof.
  intros H1 H2 H3. split; [reflexivity|]. exists V, W, (cm3 l1 zeroC zeroC zeroC l2 zeroC zeroC zeroC l3). split; [exact H1|]. split; [exact H2|]. split; [|split].
  - intros i [|[|[|j]]] Hi Hj; [| | |lia]; destruct (H3 i Hi) as (E0 & E1 & E2); [rewrite E0|rewrite E1|rewrite E2]; unfold cmm; cbn [csum cm3]; ring.
  - intros [|[|[|i]]] [|[|j]] Hi Hj; try lia; reflexivity.
  - intros [|[|[|i]]] Hi; try lia; reflexivity.
Qed.
Lemma real_lit (q : Qc) a b : this q = (a # b)%Q -> real q = (IZR a / IZR (Zpos b))%R.
Proof. intros E. unfold real. rewrite E. reflexivity. Qed.
Ltac lits P := unfold cmat_of; repeat match goal with |- context[real (mget P ?i ?j)] =>
   let v := eval vm_compute in (this (mget P i j)) in match v with Qmake ?a ?b => rewrite (real_lit (mget P i j) a b) by (vm_compute; reflexivity) end end.
Ltac cxsolve := apply cx_eq; unfold cmm, cid, csum, zeroC, oneC, RtoC, cadd, cmul, csub, copp; cbn [cm2 cm3 Nat.eqb fst snd]; try lra.
(** A two-state chain. *)
Definition cHalf : chain := mkchain (qm [[1 # 2; 1 # 2]; [1 # 4; 3 # 4]]%Q) ["a"; "b"]%string.
Lemma half_spectrum : spectrum 2 (cmat_of (ch_p cHalf)) [oneC; RtoC (/ 4)].
Proof.
  apply (spectrum_diag2 _ _ _ (cm2 oneC (RtoC 2) oneC (RtoC (- (1)))) (cm2 (RtoC (1 / 3)) (RtoC (2 / 3)) (RtoC (1 / 3)) (RtoC (- (1) / 3)))).
  - intros [|[|i]] [|[|j]] Hi Hj; try lia; cxsolve.
  - intros [|[|i]] [|[|j]] Hi Hj; try lia; cxsolve.
  - intros [|[|i]] Hi; try lia; (split; unfold cmm, csum; lits (ch_p cHalf); cxsolve).
Qed.
(** A lazy walk around a triangle; its other eigenvalues are not real. *)
Definition cTri : chain := mkchain (qm [[1 # 2; 1 # 2; 0]; [0; 1 # 2; 1 # 2]; [1 # 2; 0; 1 # 2]]%Q) ["a"; "b"; "c"]%string.
Definition om : cx := (- (1 / 2), sqrt 3 / 2)%R.
Definition om2 : cx := (- (1 / 2), - (sqrt 3 / 2))%R.
Lemma tri_spectrum : spectrum 3 (cmat_of (ch_p cTri)) [oneC; (1 / 4, sqrt 3 / 4)%R; (1 / 4, - (sqrt 3 / 4))%R].
Proof.
  assert (Q : (sqrt 3 * sqrt 3 = 3)%R) by (apply sqrt_sqrt; lra). set (t := sqrt 3) in *.
  apply (spectrum_diag3 _ _ _ _ (cm3 oneC oneC oneC oneC om om2 oneC om2 om)
    (cm3 (RtoC (/ 3)) (RtoC (/ 3)) (RtoC (/ 3)) (RtoC (/ 3)) (RtoC (/ 3) * om2)%C (RtoC (/ 3) * om)%C (RtoC (/ 3)) (RtoC (/ 3) * om)%C (RtoC (/ 3) * om2)%C)); unfold om, om2; fold t.
  - intros [|[|[|i]]] [|[|[|j]]] Hi Hj; try lia; cxsolve.
  - intros [|[|[|i]]] [|[|[|j]]] Hi Hj; try lia; cxsolve.
  - intros [|[|[|i]]] Hi; try lia; (split; [|split]; unfold cmm, csum; lits (ch_p cTri); cxsolve).
Qed.
(** Two nearly separate groups of states. *)
Definition cGroups : chain := mkchain (qm [[749999 # 1000000; 1 # 4; 1 # 1000000]; [1 # 4; 749999 # 1000000; 1 # 1000000]; [1 # 1000000; 1 # 1000000; 999998 # 1000000]]%Q) ["a"; "b"; "c"]%string.
Lemma groups_spectrum : spectrum 3 (cmat_of (ch_p cGroups)) [oneC; RtoC (1 - 3 / 1000000); RtoC (1 / 2 - 1 / 1000000)].
Proof.
  apply (spectrum_diag3 _ _ _ _ (cm3 oneC oneC oneC oneC oneC (RtoC (- (1))) oneC (RtoC (- (2))) zeroC)
    (cm3 (RtoC (/ 3)) (RtoC (/ 3)) (RtoC (/ 3)) (RtoC (/ 6)) (RtoC (/ 6)) (RtoC (- (1) / 3)) (RtoC (/ 2)) (RtoC (- (1) / 2)) zeroC)).
  - intros [|[|[|i]]] [|[|[|j]]] Hi Hj; try lia; cxsolve.
  - intros [|[|[|i]]] [|[|[|j]]] Hi Hj; try lia; cxsolve.
  - intros [|[|[|i]]] Hi; try lia; (split; [|split]; unfold cmm, csum; lits (ch_p cGroups); cxsolve).
Qed.
(** A slow two-state chain. *)
Definition cSlower : chain := mkchain (qm [[999999 # 1000000; 1 # 1000000]; [1 # 1000000; 999999 # 1000000]]%Q) ["a"; "b"]%string.
Lemma slower_spectrum : spectrum 2 (cmat_of (ch_p cSlower)) [oneC; RtoC (1 - 2 / 1000000)].
Proof.
  apply (spectrum_diag2 _ _ _ (cm2 oneC oneC oneC (RtoC (- (1)))) (cm2 (RtoC (1 / 2)) (RtoC (1 / 2)) (RtoC (1 / 2)) (RtoC (- (1) / 2)))).
  - intros [|[|i]] [|[|j]] Hi Hj; try lia; cxsolve.
  - intros [|[|i]] [|[|j]] Hi Hj; try lia; cxsolve.
  - intros [|[|i]] Hi; try lia; (split; unfold cmm, csum; lits (ch_p cSlower); cxsolve).
Qed.
(** The possible moves of a chain in which one of two states cannot repeat. *)
Definition cGold : chain := mkchain (qm [[1 # 2; 1 # 2]; [1; 0]]%Q) ["a"; "b"]%string.
Definition golden : R := ((1 + sqrt 5) / 2)%R.
Lemma gold_spectrum : spectrum 2 (marks (ch_p cGold)) [RtoC golden; RtoC (1 - golden)].
Proof.
  assert (Q : (sqrt 5 * sqrt 5 = 5)%R) by (apply sqrt_sqrt; lra). assert (P5 : (0 < sqrt 5)%R) by (apply sqrt_lt_R0; lra).
  assert (Iv : (/ sqrt 5 = sqrt 5 / 5)%R) by (rewrite <- Q at 3; field; lra).
  unfold golden. set (t := sqrt 5) in *.
  apply (spectrum_diag2 _ _ _ (cm2 (RtoC ((1 + t) / 2)) (RtoC (1 - (1 + t) / 2)) oneC oneC) (cm2 (RtoC (t / 5)) (RtoC (t / 5 * ((t - 1) / 2))) (RtoC (- (t / 5))) (RtoC (t / 5 * ((1 + t) / 2))))).
  - intros [|[|i]] [|[|j]] Hi Hj; try lia; cxsolve; nra.
  - intros [|[|i]] [|[|j]] Hi Hj; try lia; cxsolve; nra.
  - intros [|[|i]] Hi; try lia; split; unfold cmm, csum, marks; 
      repeat match goal with |- context[Qcltb 0 ?x] => let v := eval vm_compute in (Qcltb 0 x) in change (Qcltb 0 x) with v end; cbv iota; cxsolve; nra.
Qed.

(** ** what slem returns *)
Lemma slem_char ev v : In v (map cmod ev) -> iscloseR v 1 = false -> (forall y, In y (map cmod ev) -> iscloseR y 1 = false -> (y <= v)%R) ->
  slem ev = Ok (if iscloseR v 0 then None else Some v).
Proof.
  intros Iv Cv Mv. unfold slem, eigenvalues_sorted. pose proof (rsort_perm (map cmod ev)) as Pm. pose proof (rsort_sorted (map cmod ev)) as So.
  apply (sorted_filter (fun x => negb (iscloseR x 1))) in So.
  assert (Is : In v (filter (fun x => negb (iscloseR x 1)) (rsort (map cmod ev)))) by (apply filter_In; split; [apply (Permutation_in _ Pm), Iv|rewrite Cv; reflexivity]).
  assert (Us : forall y, In y (filter (fun x => negb (iscloseR x 1)) (rsort (map cmod ev))) -> (y <= v)%R).
  { intros y Hy. apply filter_In in Hy. destruct Hy as [Hy Cy]. apply Mv; [apply (Permutation_in _ (Permutation_sym Pm)), Hy|apply negb_true_iff, Cy]. }
  destruct (filter _ _) as [|x r]; [destruct Is|]. destruct (sorted_last x r So) as [I1 I2].
  assert (E : last r x = v) by (apply Rle_antisym; [apply Us, I1|apply I2, Is]). rewrite E. reflexivity.
Qed.
Lemma slem_empty ev : (forall y, In y (map cmod ev) -> iscloseR y 1 = true) -> slem ev = Err IndexErr.
Proof.
  intros H. unfold slem, eigenvalues_sorted. pose proof (rsort_perm (map cmod ev)) as Pm.
  destruct (filter (fun x => negb (iscloseR x 1)) (rsort (map cmod ev))) as [|x r] eqn:F; [reflexivity|].
  assert (I : In x (filter (fun x => negb (iscloseR x 1)) (rsort (map cmod ev)))) by (rewrite F; left; reflexivity).
  apply filter_In in I. destruct I as [I C]. apply (Permutation_in _ (Permutation_sym Pm)), H in I. rewrite I in C. discriminate.
Qed.
Lemma slem_some ev v : slem ev = Ok (Some v) -> In v (map cmod ev) /\ iscloseR v 1 = false.
Proof.
  unfold slem, eigenvalues_sorted. pose proof (rsort_perm (map cmod ev)) as Pm. pose proof (rsort_sorted (map cmod ev)) as So.
  apply (sorted_filter (fun x => negb (iscloseR x 1))) in So. destruct (filter _ _) as [|x r] eqn:F; [discriminate|].
  destruct (sorted_last x r So) as [I1 _]. destruct (iscloseR (last r x) 0); [discriminate|]. intros E. assert (Ev : last r x = v) by congruence. rewrite Ev in I1. rewrite <- F in I1.
  apply filter_In in I1. destruct I1 as [I C]. split; [apply (Permutation_in _ (Permutation_sym Pm)), I|apply negb_true_iff, C].
Qed.
Lemma gap_upper n m ev pi s g : env_ok n m -> ergodic n (en_p m) -> spectrum n (cmat_of (en_p m)) ev ->
  distribution n pi -> stationary n (en_p m) pi -> decay_rate n (en_p m) pi s -> spectral_gap m ev = Ok (Some g) -> (1 - s <= g < 1)%R.
Proof.
  intros Hm Er Sv D S0 Dr. pose proof Hm as (Hn & St & _). destruct (second_rate n (en_p m) pi ev Hn St Er D S0 Sv) as (s' & Se & (D0 & D1 & D2)).
  unfold spectral_gap, mc_slem. rewrite (ergodic_run n m Hm Er). cbn [bind]. destruct (slem ev) as [[v|]|e] eqn:E; cbn [bind]; [|discriminate|discriminate].
  intros Eg. assert (Egg : g = (1 - v)%R) by congruence. destruct (slem_some ev v E) as [I C].
  assert (Es : s' = s).
  { destruct Dr as (B0 & B1 & B2). apply Rle_antisym.
    - destruct (Rle_lt_dec s' s) as [L|L]; [exact L|]. pose proof (D2 ((s + s') / 2)%R ltac:(lra) (B1 ((s + s') / 2)%R ltac:(lra))). lra.
    - destruct (Rle_lt_dec s s') as [L|L]; [exact L|]. pose proof (B2 ((s + s') / 2)%R ltac:(lra) (D1 ((s + s') / 2)%R ltac:(lra))). lra. }
  subst s'. destruct Se as (i0 & i1 & H0 & H1 & N & E0 & E1 & L & M). apply in_map_iff in I. destruct I as (z & Ez & Hz).
  destruct (In_nth ev z zeroC Hz) as (i & Hi & Ei). subst z.
  assert (Nv : ~ (v = 0)%R).
  { intros Zv. unfold slem in E. destruct (filter _ _) as [|x r]; [discriminate|]. destruct (iscloseR (last r x) 0) eqn:C0; [discriminate|].
    assert (Ev : last r x = v) by congruence. rewrite Ev, Zv in C0. assert (iscloseR 0 0 = true) by (apply close_zero; lra). congruence. }
  assert (V0 : (0 <= v)%R) by (rewrite <- Ez; apply cmod_nonneg).
  destruct (Nat.eq_dec i i0) as [Ei|Ni].
  - exfalso. subst i. rewrite E0, cmod_1 in Ez. subst v. assert (iscloseR 1 1 = true) by (apply close_one; lra). congruence.
  - specialize (M i Hi Ni). rewrite Ez in M. lra.
Qed.

(** ** counterexamples *)
Lemma env_chain c : en_p (env c) = ch_p c. Proof. reflexivity. Qed.
Lemma groups_ok : env_ok 3 (env cGroups). Proof. apply env_b. vm_compute. reflexivity. Qed.
Lemma groups_ergodic : ergodic 3 (ch_p cGroups).
Proof. apply ergodic_b; vm_compute; reflexivity. Qed.
Lemma slower_ok : env_ok 2 (env cSlower). Proof. apply env_b. vm_compute. reflexivity. Qed.
Lemma slower_ergodic : ergodic 2 (ch_p cSlower).
Proof. apply ergodic_b; vm_compute; reflexivity. Qed.
Lemma groups_moduli : map cmod [oneC; RtoC (1 - 3 / 1000000); RtoC (1 / 2 - 1 / 1000000)] = [1; 1 - 3 / 1000000; 1 / 2 - 1 / 1000000]%R.
Proof. cbn [map]. rewrite cmod_1, !cmod_R, !Rabs_pos_eq by lra. reflexivity. Qed.
Lemma gap_refuted : exists n m ev pi s g, env_ok n m /\ ergodic n (en_p m) /\ spectrum n (cmat_of (en_p m)) ev /\
  distribution n pi /\ stationary n (en_p m) pi /\ decay_rate n (en_p m) pi s /\ spectral_gap m ev = Ok (Some g) /\ (100000 * (1 - s) < g)%R.
Proof.
  pose proof groups_ok as Hm. pose proof groups_ergodic as Er. pose proof Hm as (Hn & St & _).
  destruct (ergodic_pi 3 (env cGroups) Hm (proj1 Er)) as (pi & _ & D & S0 & _).
  destruct (second_rate 3 (ch_p cGroups) pi _ Hn St Er D S0 groups_spectrum) as (s & Se & Dr).
  exists 3, (env cGroups), [oneC; RtoC (1 - 3 / 1000000); RtoC (1 / 2 - 1 / 1000000)], pi, s, (1 - (1 / 2 - 1 / 1000000))%R.
  split; [exact Hm|]. split; [exact Er|]. split; [exact groups_spectrum|]. split; [exact D|]. split; [exact S0|]. split; [exact Dr|]. split.
  - unfold spectral_gap, mc_slem. rewrite (ergodic_run 3 _ Hm Er). cbn [bind]. rewrite (slem_char _ (1 / 2 - 1 / 1000000)%R).
    + destruct (iscloseR (1 / 2 - 1 / 1000000) 0) eqn:C; [|reflexivity]. apply close_zero in C; lra.
    + rewrite groups_moduli. right. right. left. reflexivity.
    + destruct (iscloseR (1 / 2 - 1 / 1000000) 1) eqn:C; [|reflexivity]. apply close_one in C; lra.
    + rewrite groups_moduli. intros y [<-|[<-|[<-|[]]]] Cy; [| |lra].
      * assert (iscloseR 1 1 = true) by (apply close_one; lra). congruence.
      * assert (iscloseR (1 - 3 / 1000000) 1 = true) by (apply close_one; lra). congruence.
  - destruct Se as (i0 & i1 & H0 & H1 & N & E0 & E1 & L & M). cbn [length] in *.
    assert (Ni : 1 <> i0). { intros X. subst i0. cbn [nth] in E0. apply (f_equal fst) in E0. cbn in E0. lra. }
    specialize (M 1 ltac:(lia) Ni). cbn [nth] in M. rewrite cmod_R, Rabs_pos_eq in M by lra. lra.
Qed.
Lemma gap_raises : exists n m ev, env_ok n m /\ ergodic n (en_p m) /\ spectrum n (cmat_of (en_p m)) ev /\
  spectral_gap m ev = Err IndexErr /\ relaxation_rate m ev = Err IndexErr /\ mixing_rate m ev = Err IndexErr.
Proof.
  pose proof slower_ok as Hm. pose proof slower_ergodic as Er. exists 2, (env cSlower), [oneC; RtoC (1 - 2 / 1000000)].
  split; [exact Hm|]. split; [exact Er|]. split; [exact slower_spectrum|].
  assert (E : slem [oneC; RtoC (1 - 2 / 1000000)] = Err IndexErr).
  { apply slem_empty. cbn [map]. rewrite cmod_1, cmod_R, Rabs_pos_eq by lra. intros y [<-|[<-|[]]]; apply close_one; lra. }
  unfold spectral_gap, relaxation_rate, mixing_rate, mc_slem. rewrite (ergodic_run 2 _ Hm Er). cbn [bind]. rewrite E. auto.
Qed.

(** ** values *)
Lemma half_ok : env_ok 2 (env cHalf). Proof. apply env_b. vm_compute. reflexivity. Qed.
Lemma half_ergodic : ergodic 2 (ch_p cHalf). Proof. apply ergodic_b; vm_compute; reflexivity. Qed.
Lemma half_gap : spectral_gap (env cHalf) [oneC; RtoC (/ 4)] = Ok (Some (3 / 4)%R).
Proof.
  unfold spectral_gap, mc_slem. rewrite (ergodic_run 2 _ half_ok half_ergodic). cbn [bind].
  assert (E : map cmod [oneC; RtoC (/ 4)] = [1; / 4]%R) by (cbn [map]; rewrite cmod_1, cmod_R, Rabs_pos_eq by lra; reflexivity).
  rewrite (slem_char _ (/ 4)%R).
  - destruct (iscloseR (/ 4) 0) eqn:C; [apply close_zero in C; lra|]. cbn [bind]. do 2 f_equal. lra.
  - rewrite E. right. left. reflexivity.
  - destruct (iscloseR (/ 4) 1) eqn:C; [apply close_one in C; lra|reflexivity].
  - rewrite E. intros y [<-|[<-|[]]] Cy; [|lra]. assert (iscloseR 1 1 = true) by (apply close_one; lra). congruence.
Qed.
Lemma tri_ok : env_ok 3 (env cTri). Proof. apply env_b. vm_compute. reflexivity. Qed.
Lemma tri_ergodic : ergodic 3 (ch_p cTri). Proof. apply ergodic_b; vm_compute; reflexivity. Qed.
Lemma gold_ok : env_ok 2 (env cGold). Proof. apply env_b. vm_compute. reflexivity. Qed.
Lemma gold_paths : map (paths 2 (ch_p cGold)) [1; 2; 3; 4; 5; 6] = [2; 3; 5; 8; 13; 21].
Proof. vm_compute. reflexivity. Qed.
Lemma gold_one : one_recurrent_class 2 (ch_p cGold).
Proof. apply irreducible_one, irr_b; vm_compute; reflexivity. Qed.
Lemma swap_ok : env_ok 2 (env cSwap). Proof. apply env_b. vm_compute. reflexivity. Qed.
Lemma swap_not : ~ ergodic 2 (ch_p cSwap).
Proof.
  intros E. pose proof (ergodic_run 2 (env cSwap) swap_ok E) as H. assert (K : is_ergodic (env cSwap) = Ok false) by (vm_compute; reflexivity). congruence.
Qed.
