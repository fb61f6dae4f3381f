(** L_HmmLaw: proofs about HiddenMarkovModel.simulate, next and is_ergodic. *)
From Verif Require Export S_HmmLaw L_Hmm3 L_Valid5 L_Measures2 L_Tight L_Ergodic.
From Coq Require Import Reals.
Close Scope R_scope.
Open Scope nat_scope.
Open Scope res_scope.

Lemma slot_right_unique n f u a b : (forall i, i < n -> (0 <= f i)%Qc) -> a < n -> b < n ->
  (u <= sumn a f + f a)%Qc -> ((sumn a f < u)%Qc \/ a = 0) -> (u <= sumn b f + f b)%Qc -> ((sumn b f < u)%Qc \/ b = 0) -> a = b.
Proof.
  assert (X : forall a b, (forall i, i < n -> (0 <= f i)%Qc) -> a < b -> b < n -> (u <= sumn a f + f a)%Qc -> ((sumn b f < u)%Qc \/ b = 0) -> False).
  { clear a b. intros a b Hf Hab Hb H1 [H2|H2]; [|lia].
    assert (sumn (S a) f <= sumn b f)%Qc by (apply sumn_mono; [lia|intros; apply Hf; lia]). cbn [sumn] in H. qclra. }
  intros Hf Ha Hb A1 A2 B1 B2. destruct (Nat.lt_trichotomy a b) as [C|[C|C]]; [exfalso; apply (X a b); auto|exact C|exfalso; apply (X b a); auto].
Qed.
Lemma scan_right n k P i u : row_stochastic n k P -> i < n -> (0 <= u)%Qc -> (u < 1q)%Qc ->
  let r := scan_down (cdf k (row P i)) u (k - 1) in r < k /\ in_slot_right P i r u.
Proof.
  intros HP Hi H0 H1. destruct (scan_slot k (row P i) u (erow_dist n k P i HP Hi) H0 H1) as (A & B & C). cbv zeta in *. split; [exact A|]. split; [exact B|].
  destruct C as [C|[C _]]; [left; exact C|right; exact C].
Qed.
Lemma scan_eq n k P i u j : row_stochastic n k P -> i < n -> (0 <= u)%Qc -> (u < 1q)%Qc -> j < k -> in_slot_right P i j u -> scan_down (cdf k (row P i)) u (k - 1) = j.
Proof.
  intros HP Hi H0 H1 Hj (S1 & S2). destruct (scan_right n k P i u HP Hi H0 H1) as (A & B & C). cbv zeta in *.
  apply (slot_right_unique k (mget P i) u); auto. intros x Hx. apply (proj1 (proj2 HP)); assumption.
Qed.
Lemma st_row n P : stochastic n P -> row_stochastic n n P.
Proof. exact (fun H => H). Qed.

Lemma hsim_slots n k P E fs fy pr er : stochastic n P -> row_stochastic n k E -> unit_draws pr -> unit_draws er ->
  forall steps t cur, cur < n -> let l := hsim_loop n k P E fs fy pr er t steps cur in
  forall q, q < length l -> fst (nth q l (0, 0)) < n /\ snd (nth q l (0, 0)) < k /\
    in_slot_right P (fst (nth q ((cur, 0) :: l) (0, 0))) (fst (nth q l (0, 0))) (pr (t + q)) /\ in_slot_right E (fst (nth q l (0, 0))) (snd (nth q l (0, 0))) (er (t + q)).
Proof.
  intros HP HE Hpr Her steps; induction steps as [|steps IH]; intros t cur Hc; cbn [hsim_loop]; cbv zeta; [intros q Hq; cbn in Hq; lia|].
  destruct (scan_right n n P cur (pr t) HP Hc (proj1 (Hpr t)) (proj2 (Hpr t))) as (S1 & S2). cbv zeta in *. set (s := scan_down (cdf n (row P cur)) (pr t) (n - 1)) in *.
  destruct (scan_right n k E s (er t) HE S1 (proj1 (Her t)) (proj2 (Her t))) as (Y1 & Y2). cbv zeta in *. set (y := scan_down (cdf k (row E s)) (er t) (k - 1)) in *.
  assert (Ok0 : fst (s, y) < n /\ snd (s, y) < k /\ in_slot_right P cur (fst (s, y)) (pr (t + 0)) /\ in_slot_right E (fst (s, y)) (snd (s, y)) (er (t + 0))) by (rewrite Nat.add_0_r; auto).
  destruct (_ || _).
  - intros q Hq. cbn in Hq. assert (q = 0) by lia. subst q. exact Ok0.
  - intros [|q] Hq; [exact Ok0|]. cbn [length] in Hq. specialize (IH (S t) s S1 q ltac:(lia)). replace (t + S q) with (S t + q) by lia. cbn [nth] in IH |- *. destruct q; exact IH.
Qed.
Lemma hsim_complete n k P E pr er : stochastic n P -> row_stochastic n k E -> unit_draws pr -> unit_draws er ->
  forall l t cur, cur < n -> (forall q, q < length l -> fst (nth q l (0, 0)) < n /\ snd (nth q l (0, 0)) < k /\
    in_slot_right P (fst (nth q ((cur, 0) :: l) (0, 0))) (fst (nth q l (0, 0))) (pr (t + q)) /\ in_slot_right E (fst (nth q l (0, 0))) (snd (nth q l (0, 0))) (er (t + q))) ->
  hsim_loop n k P E None None pr er t (length l) cur = l.
Proof.
  intros HP HE Hpr Her l; induction l as [|[s y] l IH]; intros t cur Hc H; [reflexivity|]. cbn [length hsim_loop].
  destruct (H 0 ltac:(cbn; lia)) as (A & B & C & D). cbn [nth fst snd] in A, B, C, D. rewrite Nat.add_0_r in C, D.
  rewrite (scan_eq n n P cur (pr t) s HP Hc (proj1 (Hpr t)) (proj2 (Hpr t)) A C). rewrite (scan_eq n k E s (er t) y HE A (proj1 (Her t)) (proj2 (Her t)) B D). cbn [orb].
  rewrite (IH (S t) s A); [reflexivity|]. intros q Hq. specialize (H (S q) ltac:(cbn; lia)). replace (S t + q) with (t + S q) by lia. cbn [nth] in H |- *. destruct q; exact H.
Qed.
Lemma map_combine_fst {A B} (a : list A) (b : list B) : length a = length b -> map fst (combine a b) = a.
Proof. revert b; induction a as [|x a IH]; intros [|y b] H; try discriminate; [reflexivity|]. cbn. f_equal. apply IH. cbn in H; lia. Qed.
Lemma map_combine_snd {A B} (a : list A) (b : list B) : length a = length b -> map snd (combine a b) = b.
Proof. revert b; induction a as [|x a IH]; intros [|y b] H; try discriminate; [reflexivity|]. cbn. f_equal. apply IH. cbn in H; lia. Qed.
Lemma choice_eq n k E i u y : row_stochastic n k E -> i < n -> (0 <= u)%Qc -> (u < 1q)%Qc -> y < k -> (choice k (row E i) u = y <-> in_slot E i y u).
Proof.
  intros HE Hi H0 H1 Hy. destruct (choice_spec k (row E i) u (erow_dist n k E i HE Hi) H0 H1) as (F1 & F2 & F3). split.
  - intros <-. split; assumption.
  - intros (A & B). apply (slot_unique k (mget E i) u); auto. intros x Hx. apply (proj1 (proj2 HE)); assumption.
Qed.

Lemma hmm_law n k P E states symbols steps i c0 pr er w y0 ys : stochastic n P -> row_stochastic n k E -> unit_draws pr -> unit_draws er -> (0 <= c0)%Qc -> (c0 < 1q)%Qc -> i < n ->
  length w = steps -> length ys = steps -> (forall q, q < steps -> nth q w 0 < n /\ nth q ys 0 < k) -> y0 < k ->
  (hmm_simulate (mkhmm P E states symbols) steps i None None c0 pr er = (i :: w, y0 :: ys) <->
   in_slot E i y0 c0 /\ forall q, q < steps -> in_slot_right P (nth q (i :: w) 0) (nth q w 0) (pr q) /\ in_slot_right E (nth q w 0) (nth q ys 0) (er q)).
Proof.
  intros HP HE Hpr Her C0 C1 Hi Lw Ly Hr Hy. unfold hmm_simulate. cbn [h_p h_e]. rewrite (st_rows n P HP). rewrite (wf_ncols n k E (proj1 HE) ltac:(lia)).
  pose proof (hsim_slots n k P E None None pr er HP HE Hpr Her steps 0 i Hi) as HS. cbv zeta in HS. set (l := hsim_loop n k P E None None pr er 0 steps i) in *.
  cbn [map fst snd]. split.
  - intros H. injection H as H1 H2 H3. split; [apply (choice_eq n k); assumption|].
    assert (N1 : forall q, q < length l -> nth q w 0 = fst (nth q l (0, 0))) by (intros; rewrite <- H1; apply (map_nth fst l (0, 0))).
    assert (N2 : forall q, q < length l -> nth q ys 0 = snd (nth q l (0, 0))) by (intros; rewrite <- H3; apply (map_nth snd l (0, 0))).
    assert (Ll : length l = steps) by (rewrite <- Lw, <- H1, map_length; reflexivity).
    intros q Hq. destruct (HS q ltac:(lia)) as (_ & _ & A & B). cbn [plus] in A, B. rewrite (N1 q), (N2 q) by lia. split; [|exact B].
    destruct q as [|q]; [exact A|]. cbn [nth] in A |- *. rewrite (N1 q) by lia. exact A.
  - intros (H0 & H). apply (choice_eq n k) in H0; try assumption. rewrite H0.
    assert (E1 : l = combine w ys).
    { unfold l. assert (Lc : length (combine w ys) = steps) by (rewrite combine_length; lia). rewrite <- Lc. apply hsim_complete; try assumption.
      rewrite Lc. intros q Hq. rewrite !combine_nth by lia. cbn [fst snd]. destruct (Hr q Hq) as (A & B). split; [exact A|]. split; [exact B|].
      destruct (H q Hq) as (C & D). split; [|exact D]. destruct q as [|q]; [exact C|]. cbn [nth] in C |- *. rewrite combine_nth by lia. exact C. }
    rewrite E1, map_combine_fst, map_combine_snd by lia. reflexivity.
Qed.

Definition half : Qc := Q2Qc (1 # 2).
Definition mid (P : mat) (i j : nat) : Qc := (sumn j (mget P i) + half * mget P i j)%Qc.
Lemma mid_spec n k P i j : row_stochastic n k P -> i < n -> j < k -> (0 < mget P i j)%Qc -> (0 < mid P i j < 1)%Qc /\ in_slot_right P i j (mid P i j) /\ in_slot P i j (mid P i j).
Proof.
  intros HP Hi Hj Hp. assert (Nn : forall x, x < k -> (0 <= mget P i x)%Qc) by (intros; apply (proj1 (proj2 HP)); assumption).
  assert (A : (0 <= sumn j (mget P i))%Qc) by (apply sumn_nonneg; intros; apply Nn; lia).
  assert (B : (sumn (S j) (mget P i) <= sumn k (mget P i))%Qc) by (apply sumn_mono; [lia|exact Nn]).
  assert (E : sumn k (mget P i) = 1q) by (apply (proj2 (proj2 HP) i Hi)). cbn [sumn] in B. rewrite E in B.
  assert (H2 : (0 < half * mget P i j < mget P i j)%Qc) by (unfold half; split; qclra). unfold mid, in_slot_right, in_slot. clear E Nn HP.
  set (a := sumn j (mget P i)) in *. set (b := mget P i j) in *. set (c := (half * b)%Qc) in *. destruct H2.
  split; [split; qclra|]. split; [split; [qclra|left; qclra]|split; qclra].
Qed.
Lemma run_has_draws n k P E states symbols steps i w y0 ys : stochastic n P -> row_stochastic n k E -> length w = steps -> possible_run n k P E (i :: w) (y0 :: ys) ->
  exists c0 pr er, (0 <= c0)%Qc /\ (c0 < 1q)%Qc /\ unit_draws pr /\ unit_draws er /\ hmm_simulate (mkhmm P E states symbols) steps i None None c0 pr er = (i :: w, y0 :: ys).
Proof.
  intros HP HE Lw (L & R & Ed). cbn [length] in L.
  assert (Hi : i < n /\ y0 < k /\ (0 < mget E i y0)%Qc) by (apply (R 0); cbn; lia). destruct Hi as (Hi & Hy & Hp).
  set (pr := fun q => if Nat.ltb q steps then mid P (nth q (i :: w) 0) (nth q w 0) else 0q).
  set (er := fun q => if Nat.ltb q steps then mid E (nth q w 0) (nth q ys 0) else 0q).
  assert (Rq : forall q, q < steps -> nth q (i :: w) 0 < n /\ nth q w 0 < n /\ nth q ys 0 < k /\ (0 < mget E (nth q w 0%nat) (nth q ys 0%nat))%Qc /\ edge P (nth q (i :: w) 0) (nth q w 0)).
  { intros q Hq. destruct (R (S q) ltac:(cbn; lia)) as (A & B & C). destruct (R q ltac:(cbn; lia)) as (A' & _). pose proof (Ed q ltac:(cbn; lia)) as D. cbn [nth] in A, B, C, D. auto. }
  destruct (mid_spec n k E i y0 HE Hi Hy Hp) as (M0 & _ & M1).
  exists (mid E i y0), pr, er. split; [apply Qclt_le_weak, M0|]. split; [apply M0|].
  assert (Upr : unit_draws pr).
  { intros q. unfold pr. destruct (Nat.ltb_spec q steps) as [Hq|]; [|split; [apply Qcle_refl|reflexivity]]. destruct (Rq q Hq) as (A & B & C & D & F).
    destruct (mid_spec n n P _ _ HP A B F) as ((G & H) & _). split; [apply Qclt_le_weak; exact G|exact H]. }
  assert (Uer : unit_draws er).
  { intros q. unfold er. destruct (Nat.ltb_spec q steps) as [Hq|]; [|split; [apply Qcle_refl|reflexivity]]. destruct (Rq q Hq) as (A & B & C & D & F).
    destruct (mid_spec n k E _ _ HE B C D) as ((G & H) & _). split; [apply Qclt_le_weak; exact G|exact H]. }
  split; [exact Upr|]. split; [exact Uer|].
  apply (hmm_law n k); try assumption; try lia; try (apply Qclt_le_weak, M0); try apply M0.
  - intros q Hq. destruct (Rq q Hq) as (_ & A & B & _). split; assumption.
  - split; [exact M1|]. intros q Hq. destruct (Rq q Hq) as (A & B & C & D & F). unfold pr, er. destruct (Nat.ltb_spec q steps); [|lia].
    split; [apply (mid_spec n n P); assumption|apply (mid_spec n k E); assumption].
Qed.

(** ** Names of positions *)
Lemma shown_of b names l : (forall i, In i l -> i < length names) -> forall o, labels_of b names l = o <-> shown b names l o.
Proof.
  intros H o. unfold labels_of, shown. destruct b; [split; intros ->; reflexivity|].
  assert (F : Forall2 (fun i s => nth_error names i = Some s) l (map (fun i => nth i names ""%string) l)).
  { induction l as [|a l IH]; [constructor|]. cbn. constructor; [apply nth_error_nth'; apply H; left; reflexivity|]. apply IH. intros; apply H; right; assumption. }
  split; [intros <-; eexists; split; [reflexivity|exact F]|]. intros (t & -> & G). f_equal. clear H. revert t G. induction F as [|a s l l' A F IH]; intros t G; inversion G; subst; [reflexivity|].
  f_equal; [congruence|]. apply IH; assumption.
Qed.
Lemma label_shown b names i : i < length names -> shown b names [i] (label_out b names i).
Proof. intros H. apply (proj1 (shown_of b names [i] ltac:(intros x [<-|[]]; exact H) (label_out b names i))). destruct b; reflexivity. Qed.
Lemma names_labels n l : names_ok n l -> labels_ok l.
Proof. intros (_ & A & B). split; assumption. Qed.

Lemma next_cases h i c0 pr er v t b : v_label v (h_states h) = Ok i -> forall tt bb, v_enumerator t ["both"; "state"; "symbol"]%string = Ok tt -> v_boolean b = Ok bb ->
  next_hmm h v t b c0 pr er = (let r := hmm_simulate h 1 i None None c0 pr er in
    let s := label_out bb (h_states h) (last (fst r) 0) in let y := label_out bb (h_symbols h) (last (snd r) 0) in
    if String.eqb tt "state" then Ok (OneOut s) else if String.eqb tt "symbol" then Ok (OneOut y) else Ok (TwoOut s y)).
Proof. intros E tt bb E1 E2. unfold next_hmm. rewrite E1. cbn [bind]. rewrite E. cbn [bind]. rewrite E2. reflexivity. Qed.
Lemma next_hmm_spec n k h v i c0 pr er : stochastic n (h_p h) -> row_stochastic n k (h_e h) -> names_ok n (h_states h) -> names_ok k (h_symbols h) ->
  unit_draws pr -> unit_draws er -> designates1 (h_states h) v i ->
  exists s y, s < n /\ y < k /\ in_slot_right (h_p h) i s (pr 0) /\ in_slot_right (h_e h) s y (er 0) /\
  forall b, exists os oy, shown b (h_states h) [s] os /\ shown b (h_symbols h) [y] oy /\
    next_hmm h v (PStr "state") (PBool b) c0 pr er = Ok (OneOut os) /\ next_hmm h v (PStr "symbol") (PBool b) c0 pr er = Ok (OneOut oy) /\
    next_hmm h v (PStr "both") (PBool b) c0 pr er = Ok (TwoOut os oy).
Proof.
  intros HP HE Ns Ny Hpr Her D. assert (Hi : i < n) by (destruct D as (D & _); rewrite (proj1 Ns) in D; exact D).
  apply (v_label_designates v (h_states h) i (names_labels _ _ Ns)) in D.
  destruct h as [P E states symbols]. cbn [h_p h_e h_states h_symbols] in *.
  destruct (scan_right n n P i (pr 0) HP Hi (proj1 (Hpr 0)) (proj2 (Hpr 0))) as (S1 & S2). cbv zeta in *. set (s := scan_down (cdf n (row P i)) (pr 0) (n - 1)) in *.
  destruct (scan_right n k E s (er 0) HE S1 (proj1 (Her 0)) (proj2 (Her 0))) as (Y1 & Y2). cbv zeta in *. set (y := scan_down (cdf k (row E s)) (er 0) (k - 1)) in *.
  exists s, y. split; [exact S1|]. split; [exact Y1|]. split; [exact S2|]. split; [exact Y2|]. intros b.
  exists (label_out b states s), (label_out b symbols y). split; [apply label_shown; rewrite (proj1 Ns); exact S1|]. split; [apply label_shown; rewrite (proj1 Ny); exact Y1|].
  assert (Hs : exists c, hmm_simulate (mkhmm P E states symbols) 1 i None None c0 pr er = ([i; s], [c; y])).
  { unfold hmm_simulate. cbn [h_p h_e]. rewrite (st_rows n P HP). rewrite (wf_ncols n k E (proj1 HE) ltac:(lia)). cbn [hsim_loop]. fold s. fold y. eexists. reflexivity. }
  destruct Hs as (c & Hs).
  assert (C : forall t tt, v_enumerator t ["both"; "state"; "symbol"]%string = Ok tt -> next_hmm (mkhmm P E states symbols) v t (PBool b) c0 pr er =
    if String.eqb tt "state" then Ok (OneOut (label_out b states s)) else if String.eqb tt "symbol" then Ok (OneOut (label_out b symbols y)) else Ok (TwoOut (label_out b states s) (label_out b symbols y))).
  { intros t tt E1. rewrite (next_cases (mkhmm P E states symbols) i c0 pr er v t (PBool b) D tt b E1 eq_refl). cbv zeta. rewrite Hs. reflexivity. }
  split; [rewrite (C _ "state"%string) by reflexivity; reflexivity|]. split; [rewrite (C _ "symbol"%string) by reflexivity; reflexivity|rewrite (C _ "both"%string) by reflexivity; reflexivity].
Qed.
Lemma next_accepts h v t b c0 pr er : labels_ok (h_states h) -> (exists o, next_hmm h v t b c0 pr er = Ok o) ->
  (exists i, designates1 (h_states h) v i) /\ (t = PStr "both" \/ t = PStr "state" \/ t = PStr "symbol") /\ exists bb, b = PBool bb.
Proof.
  intros L (o & H). unfold next_hmm in H. destruct (v_enumerator t _) as [tt|] eqn:E1; [|discriminate]. cbn [bind] in H. destruct (v_label v (h_states h)) as [i|] eqn:E2; [|discriminate]. cbn [bind] in H.
  destruct (v_boolean b) as [bb|] eqn:E3; [|discriminate]. apply v_enumerator_iff in E1. destruct E1 as (-> & _ & I). apply (v_label_designates v (h_states h) i L) in E2.
  split; [exists i; exact E2|]. split; [destruct I as [<-|[<-|[<-|[]]]]; auto|]. exists bb. destruct b; try discriminate. injection E3 as ->. reflexivity.
Qed.

(** ** simulate *)
Lemma label_opt_iff v labels o : labels_ok labels -> (v_label_opt v labels = Ok o <-> chosen labels v o).
Proof.
  intros L. unfold v_label_opt, chosen. destruct v as [v|].
  - destruct (v_label v labels) as [i|] eqn:E; cbn [bind].
    + apply (v_label_designates v labels i L) in E. split.
      * intros H; injection H as <-. exact E.
      * destruct o as [j|]; [|contradiction]. intros D. apply (v_label_designates v labels j L) in D. apply (v_label_designates v labels i L) in E. congruence.
    + split; [discriminate|]. destruct o as [j|]; [|contradiction]. intros D. apply (v_label_designates v labels j L) in D. congruence.
  - split; [intros H; injection H as <-; exact I|]. destruct o; [contradiction|reflexivity].
Qed.
Lemma simulate_hmm_iff n k h steps iv fv yv b r0 c0 pr er os oy : 0 < n -> stochastic n (h_p h) -> row_stochastic n k (h_e h) -> names_ok n (h_states h) -> names_ok k (h_symbols h) ->
  unit_draws pr -> unit_draws er -> (0 <= c0)%Qc -> (c0 < 1q)%Qc ->
  (simulate_hmm h steps iv fv yv b r0 c0 pr er = Ok (os, oy) <->
   exists z i fs fy bb, steps = PInt z /\ (2 <= z)%Z /\ chosen (h_states h) iv i /\ chosen (h_states h) fv fs /\ chosen (h_symbols h) yv fy /\ b = PBool bb /\
     let r := hmm_simulate h (Z.to_nat z) (match i with None => Nat.modulo r0 n | Some i => i end) fs fy c0 pr er in
     shown bb (h_states h) (fst r) os /\ shown bb (h_symbols h) (snd r) oy).
Proof.
  intros Hn HP HE Ns Ny Hpr Her C0 C1. pose proof (names_labels _ _ Ns) as Ls. pose proof (names_labels _ _ Ny) as Ly.
  assert (Rng : forall z i fs fy, i < n -> let r := hmm_simulate h z i fs fy c0 pr er in (forall x, In x (fst r) -> x < length (h_states h)) /\ (forall x, In x (snd r) -> x < length (h_symbols h))).
  { intros z i fs fy Hi. destruct h as [P E states symbols]. cbn [h_p h_e h_states h_symbols] in *.
    destruct (hmm_simulate_steps n k P E states symbols z i fs fy c0 pr er Hn HP HE Hpr Her C0 C1 Hi) as (A & B & C & D1 & D2 & F & _). cbv zeta in *.
    set (r := hmm_simulate _ _ _ _ _ _ _ _) in *. rewrite (proj1 Ns), (proj1 Ny). split; intros x Hx; apply (In_nth _ _ 0) in Hx; destruct Hx as (q & Hq & <-); (destruct q as [|q]; [|]).
    - rewrite C. exact Hi.
    - exact (proj1 (F q Hq)).
    - exact D1.
    - rewrite <- A in Hq. exact (proj1 (proj2 (F q Hq))). }
  assert (Ri : forall iv i, chosen (h_states h) iv i -> (match i with None => Nat.modulo r0 n | Some i => i end) < n).
  { intros [v|] [i|] H; try contradiction; [destruct H as (H & _); rewrite (proj1 Ns) in H; exact H|apply Nat.mod_upper_bound; lia]. }
  assert (Nr : nrows (h_p h) = n) by (apply (st_rows n); exact HP). unfold simulate_hmm. rewrite Nr. split.
  - destruct (v_integer steps _ _) as [z|] eqn:E1; [|discriminate]. cbn [bind]. destruct (v_label_opt iv _) as [i|] eqn:E2; [|discriminate]. cbn [bind].
    destruct (v_label_opt fv _) as [fs|] eqn:E3; [|discriminate]. cbn [bind]. destruct (v_label_opt yv _) as [fy|] eqn:E4; [|discriminate]. cbn [bind].
    destruct (v_boolean b) as [bb|] eqn:E5; [|discriminate]. cbn [bind]. cbv zeta. intros H. injection H as H1 H2.
    apply label_opt_iff in E2; [|exact Ls]. apply label_opt_iff in E3; [|exact Ls]. apply label_opt_iff in E4; [|exact Ly].
    apply v_integer_iff in E1. destruct E1 as (-> & Lo & _). exists z, i, fs, fy, bb. split; [reflexivity|].
    split; [cbn in Lo; lia|]. split; [exact E2|]. split; [exact E3|]. split; [exact E4|].
    split; [destruct b; try discriminate; injection E5 as ->; reflexivity|]. destruct (Rng (Z.to_nat z) _ fs fy (Ri _ _ E2)) as (R1 & R2). cbv zeta in *.
    split; [apply (proj1 (shown_of bb _ _ R1 _)); exact H1|apply (proj1 (shown_of bb _ _ R2 _)); exact H2].
  - intros (z & i & fs & fy & bb & -> & Hz & D1 & D2 & D3 & -> & S1 & S2). destruct (Rng (Z.to_nat z) _ fs fy (Ri _ _ D1)) as (R1 & R2). cbv zeta in *.
    apply label_opt_iff in D1; [|exact Ls]. apply label_opt_iff in D2; [|exact Ls]. apply label_opt_iff in D3; [|exact Ly].
    assert (E : v_integer (PInt z) (Some (2%Z, false)) None = Ok z).
    { apply v_integer_iff. split; [reflexivity|]. split; [|exact I]. unfold S_Validation.above. destruct (Z.eq_dec z 2); [right|left; lia]. split; [reflexivity|assumption]. }
    rewrite E. cbn [bind]. rewrite D1. cbn [bind]. rewrite D2. cbn [bind]. rewrite D3. cbn [bind v_boolean].
    apply (proj2 (shown_of bb _ _ R1 _)) in S1. apply (proj2 (shown_of bb _ _ R2 _)) in S2. rewrite S1, S2. reflexivity.
Qed.

(** ** is_ergodic *)
Lemma le_one n k P i j : row_stochastic n k P -> i < n -> j < k -> (mget P i j <= 1)%Qc.
Proof.
  intros (_ & Nn & S) Hi Hj. pose proof (S i Hi) as Si. change (sumn k (fun j => mget P i j) = 1q) in Si. rewrite <- Si.
  apply (sumn_term_le k (fun j => mget P i j) j Hj). intros x Hx. apply Nn; assumption.
Qed.
Lemma float_array_ok n P : 2 <= n -> stochastic n P -> v_transition_matrix (float_array P) None = Ok P.
Proof.
  intros Hn St. pose proof (proj1 St) as W. unfold v_transition_matrix, float_array. cbn [extract_numeric a_kind kind_number bind a_shape a_at f_shape f_at].
  rewrite (st_rows n P St), (wf_ncols n n P W ltac:(lia)). rewrite Nat.eqb_refl. destruct (Nat.leb_spec 2 n); [|lia]. cbn [andb].
  assert (F : fmat n n (mkfarr [n; n] (fun idx => fst (Fin (mget P (nth 0 idx 0%nat) (nth 1 idx 0%nat)), Fin 0))) = P).
  { unfold fmat. cbn [f_at fst nth fin]. apply (mk_mget n n). exact W. }
  rewrite F.
  assert (A : M_Validation.all2 n n (fun i j => fst (Fin (mget P (nth 0 [i; j] 0%nat) (nth 1 [i; j] 0%nat)), Fin 0)) prob01 = true).
  { unfold M_Validation.all2. apply forallb_forall. intros i Hi. apply forallb_forall. intros j Hj. apply in_seq in Hi, Hj. cbn [fst nth].
    unfold prob01. cbn [isfinite num_le]. rewrite !andb_true_iff, !Qcleb_le. split; [split; [reflexivity|apply (proj1 (proj2 St)); lia]|apply (le_one n n P i j St); lia]. }
  rewrite A.
  assert (B : forallb (fun i => isclose (rowsum P i) 1) (seq 0 n) = true).
  { apply forallb_forall. intros i Hi. apply in_seq in Hi. rewrite (rowsum_eq n n P i W) by lia. pose proof (proj2 (proj2 St) i ltac:(lia)) as S. rewrite S. vm_compute. reflexivity. }
  rewrite B. reflexivity.
Qed.
Lemma all_positive n k E : wf n k E -> (mforall (Qcltb 0) E = true <-> forall i j, i < n -> j < k -> (0 < mget E i j)%Qc).
Proof.
  intros (L & R). unfold mforall. rewrite forallb_forall. split.
  - intros H i j Hi Hj. assert (I : In (nth i E []) E) by (apply nth_In; lia). specialize (H _ I). rewrite forallb_forall in H. apply Qcltb_lt, H. apply nth_In. rewrite (R _ I). exact Hj.
  - intros H r Hr. apply forallb_forall. intros x Hx. apply (In_nth _ _ []) in Hr. destruct Hr as (i & Hi & <-). apply (In_nth _ _ 0q) in Hx. destruct Hx as (j & Hj & <-).
    apply Qcltb_lt, H; [lia|]. rewrite <- (R (nth i E [])); [exact Hj|apply nth_In; exact Hi].
Qed.
Lemma hmm_ergodic_spec n k h nx : 2 <= n -> 0 < k -> stochastic n (h_p h) -> row_stochastic n k (h_e h) -> names_ok n (h_states h) -> nx_ok n (h_p h) nx ->
  exists b, hmm_is_ergodic h nx = Ok b /\ (b = true <-> exists m, mixes n k (h_p h) (h_e h) m).
Proof.
  intros Hn Hk St SE Ns Nx. unfold hmm_is_ergodic. rewrite (float_array_ok n _ Hn St). cbn [bind]. rewrite (st_rows n _ St).
  assert (E : v_labels_input (PList (map PStr (h_states h))) (Some n) = Ok (h_states h)).
  { apply v_labels_input_iff. split; [reflexivity|]. rewrite (proj1 Ns). split; [exact Hn|]. split; [exact Ns|reflexivity]. }
  rewrite E. cbn [bind].
  assert (EV : env_ok n (mkenv (h_p h) (h_states h) nx true)) by (split; [exact Hn|]; split; [exact St|]; split; [apply Ns|]; split; [apply Ns|exact Nx]).
  destruct (is_ergodic_spec n _ EV) as (b & Eb & Hb). rewrite Eb. cbn [bind]. eexists. split; [reflexivity|]. cbn [en_p] in Hb.
  rewrite andb_true_iff, Hb, (all_positive n k _ (proj1 SE)), (regular_ergodic n _ Hn St). pose proof (kstep_nonneg n (h_p h)) as Kn. split.
  - intros ((m & R) & Pe). exists m. intros i s y Hi Hs Hy. apply Qc_mul_pos; [apply R; assumption|apply Pe; assumption].
  - intros (m & H). split.
    + exists m. intros i j Hi Hj. specialize (H i j 0 Hi Hj Hk). assert (K : (0 <= kstep n (h_p h) m i j)%Qc) by (apply Kn; [apply (proj1 (proj2 St))|assumption|assumption]).
      apply Qcle_lt_or_eq in K. destruct K as [K|K]; [exact K|]. rewrite <- K in H. exfalso. replace (0 * mget (h_e h) j 0)%Qc with 0q in H by ring. apply (Qclt_irr _ H).
    + intros i j Hi Hj. specialize (H i i j Hi Hi Hj). assert (K : (0 <= mget (h_e h) i j)%Qc) by (apply (proj1 (proj2 SE)); assumption).
      apply Qcle_lt_or_eq in K. destruct K as [K|K]; [exact K|]. rewrite <- K in H. exfalso. replace (kstep n (h_p h) m i i * 0)%Qc with 0q in H by ring. apply (Qclt_irr _ H).
Qed.
Lemma one_state_raises n k h i h' nx : 1 < n -> 1 < k -> stochastic n (h_p h) -> row_stochastic n k (h_e h) -> restrict h (Some (SelOne i)) None = Ok h' -> hmm_is_ergodic h' nx = Err ValueErr.
Proof.
  intros Hn Hk St SE R. destruct h as [P E states symbols]. cbn [h_p h_e] in *.
  destruct (restrict_ok n k P E states symbols (Some (SelOne i)) None h' Hn Hk St SE R ltac:(left; discriminate)) as (ss & sy & (_ & ->) & _ & _ & _ & S1 & _).
  unfold hmm_is_ergodic, v_transition_matrix, float_array. cbn [extract_numeric a_kind kind_number bind a_shape a_at f_shape f_at].
  cbn [length] in S1. rewrite (st_rows 1 _ S1), (wf_ncols 1 1 _ (proj1 S1) ltac:(lia)). reflexivity.
Qed.
