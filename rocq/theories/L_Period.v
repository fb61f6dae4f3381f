(** L_Period: proofs about periods. *)
From Coq Require Import Permutation Sorted.
From Verif Require Export M_Period L_Struct3.

Lemma fold_nested {A B C} (f : A -> C -> A) (g : B -> list C) (l : list B) (a : A) :
  fold_left (fun st u => fold_left f (g u) st) l a = fold_left (fun st e => f st (snd e)) (flat_map (fun u => map (pair u) (g u)) l) a.
Proof.
  revert a. induction l as [|u l IH]; intros a; simpl; [reflexivity|]. rewrite fold_left_app, IH. f_equal.
  generalize (g u). clear. intros cs. revert a. induction cs as [|c cs IH]; intros a; simpl; [reflexivity|apply IH].
Qed.

Section Per.
Context (n : nat) (E : nat -> nat -> Prop) (succ : nat -> list nat) (x : nat).
Hypothesis (Hx : x < n).
Hypothesis (Hsucc : forall u v, reach n E x u -> In v (succ u) <-> v < n /\ E u v).
Hypothesis (Hback : forall v, reach n E x v -> reach n E v x).

Definition lev (lv : list (option Z)) (v : nat) : option Z := nth v lv None.
Definition divides_all (e : Z) : Prop := forall k, walk n E k x x -> (e | Z.of_nat k)%Z.

Record pinv (done : list (nat * nat)) (prev : Z) (lv : list (option Z)) (nxt : list nat) (g : Z) : Prop := {
  pi_len : length lv = n;
  pi_walk : forall v l, lev lv v = Some l -> exists k, l = Z.of_nat k /\ walk n E k x v /\ (l <= prev)%Z;
  pi_nxt : forall v, In v nxt <-> lev lv v = Some prev;
  pi_done : forall u v, In (u, v) done -> exists l m, lev lv u = Some l /\ lev lv v = Some m /\ (g | l + 1 - m)%Z;
  pi_sound : forall e, divides_all e -> (e | g)%Z;
  pi_pos : (0 <= g)%Z;
  pi_x : lev lv x = Some 0%Z
}.
Lemma lev_reach done prev lv nxt g v l : pinv done prev lv nxt g -> lev lv v = Some l -> reach n E x v.
Proof. intros H Hl. destruct (pi_walk _ _ _ _ _ H v l Hl) as (k & _ & Hw & _). exists k; exact Hw. Qed.
Lemma lev_lt lv v l : length lv = n -> lev lv v = Some l -> v < n.
Proof. intros HL H. destruct (Nat.lt_ge_cases v n) as [|C]; [assumption|]. unfold lev in H. rewrite nth_overflow in H by lia. discriminate. Qed.

Lemma sound_edge e u v l m : divides_all e -> walk n E l x u -> v < n -> E u v -> walk n E m x v -> (e | Z.of_nat l + 1 - Z.of_nat m)%Z.
Proof.
  intros He Hu Hv Hed Hw. destruct (Hback v (ex_intro _ m Hw)) as [b Hb].
  assert (W1 : walk n E (l + S b) x x). { eapply walk_app; [exact Hu|]. econstructor; [apply (walk_bounds _ _ _ _ _ Hu)|exact Hv|exact Hed|exact Hb]. }
  assert (W2 : walk n E (m + b) x x) by (eapply walk_app; eassumption).
  apply He in W1, W2. replace (Z.of_nat l + 1 - Z.of_nat m)%Z with (Z.of_nat (l + S b) - Z.of_nat (m + b))%Z by lia. apply Z.divide_sub_r; assumption.
Qed.

Lemma visit_inv done prev lv nxt g u v : pinv done prev lv nxt g -> lev lv u = Some (prev - 1)%Z -> v < n -> E u v ->
  match per_visit prev (Some (lv, nxt, g)) v with
  | None => forall e, divides_all e -> (e | 1)%Z
  | Some (lv', nxt', g') => pinv (done ++ [(u, v)]) prev lv' nxt' g' /\ (forall w l, lev lv w = Some l -> lev lv' w = Some l)
                            /\ (forall w, lev lv w = None -> lev lv' w <> None -> lev lv' w = Some prev)
  end.
Proof.
  intros H Hu Hv Hed. destruct H as [HL HW HN HD HS HP HX].
  destruct (HW u _ Hu) as (ku & Hku & Hwu & _).
  unfold per_visit. fold (lev lv v). destruct (lev lv v) as [l|] eqn:Ev.
  - destruct (HW v l Ev) as (kv & Hkv & Hwv & Hlv).
    assert (HS' : forall e, divides_all e -> (e | Z.gcd g (prev - l))%Z).
    { intros e He. apply Z.gcd_greatest; [apply HS; exact He|]. pose proof (sound_edge e u v ku kv He Hwu Hv Hed Hwv) as Hd. replace (prev - l)%Z with (Z.of_nat ku + 1 - Z.of_nat kv)%Z by lia. exact Hd. }
    destruct (Z.eqb_spec (Z.gcd g (prev - l)) 1) as [E1|E1].
    + rewrite E1 in HS'. exact HS'.
    + split; [|split; [auto|congruence]]. constructor; try assumption.
      * intros a b Hab. apply in_app_iff in Hab. destruct Hab as [Hab|[Hab|[]]].
        -- destruct (HD a b Hab) as (la & lb & H1 & H2 & H3). exists la, lb. repeat split; try assumption. etransitivity; [apply Z.gcd_divide_l|exact H3].
        -- inversion Hab; subst a b. exists (prev - 1)%Z, l. repeat split; try assumption. replace (prev - 1 + 1 - l)%Z with (prev - l)%Z by lia. apply Z.gcd_divide_r.
      * apply Z.gcd_nonneg.
  - assert (Hlev : forall w, lev (set_nth lv v (Some prev)) w = if Nat.eqb w v then Some prev else lev lv w).
    { intros w. unfold lev. apply nth_set_nth. lia. }
    assert (Hkeep : forall w l, lev lv w = Some l -> lev (set_nth lv v (Some prev)) w = Some l).
    { intros w l Hw. rewrite Hlev. destruct (Nat.eqb_spec w v) as [->|]; [congruence|exact Hw]. }
    split; [|split; [exact Hkeep|]].
    + constructor.
      * rewrite length_set_nth. exact HL.
      * intros w l Hw. rewrite Hlev in Hw. destruct (Nat.eqb_spec w v) as [->|Hne]; [|apply HW; exact Hw]. inversion Hw; subst l.
        exists (ku + 1). split; [lia|]. split; [|lia]. eapply walk_app; [exact Hwu|]. econstructor; [apply (walk_bounds _ _ _ _ _ Hwu)|exact Hv|exact Hed|constructor; exact Hv].
      * intros w. rewrite in_app_iff, HN, Hlev. destruct (Nat.eqb_spec w v) as [->|Hne]; simpl.
        -- split; [reflexivity|intros _; right; left; reflexivity].
        -- split; [intros [h|[h|[]]]; [exact h|congruence]|left; assumption].
      * intros a b Hab. apply in_app_iff in Hab. destruct Hab as [Hab|[Hab|[]]].
        -- destruct (HD a b Hab) as (la & lb & H1 & H2 & H3). exists la, lb. repeat split; auto.
        -- inversion Hab; subst a b. exists (prev - 1)%Z, prev. split; [apply Hkeep; exact Hu|]. split; [rewrite Hlev, Nat.eqb_refl; reflexivity|]. replace (prev - 1 + 1 - prev)%Z with 0%Z by lia. apply Z.divide_0_r.
      * exact HS.
      * exact HP.
      * apply Hkeep; exact HX.
    + intros w Hw1 Hw2. rewrite Hlev in *. destruct (Nat.eqb w v); [reflexivity|congruence].
Qed.

Definition none_count (lv : list (option Z)) : nat := length (filter (fun v => match lev lv v with None => true | _ => false end) (seq 0 n)).

Lemma level_inv es : forall done prev lv nxt g, pinv done prev lv nxt g ->
  (forall u v, In (u, v) es -> lev lv u = Some (prev - 1)%Z /\ v < n /\ E u v) ->
  match fold_left (fun st e => per_visit prev st (snd e)) es (Some (lv, nxt, g)) with
  | None => forall e, divides_all e -> (e | 1)%Z
  | Some (lv', nxt', g') => pinv (done ++ es) prev lv' nxt' g' /\ (forall w l, lev lv w = Some l -> lev lv' w = Some l)
                            /\ (forall w, lev lv w = None -> lev lv' w <> None -> lev lv' w = Some prev)
  end.
Proof.
  induction es as [|[u v] es IH]; intros done prev lv nxt g HI Hes; cbn [fold_left snd].
  - rewrite app_nil_r. split; [exact HI|]. split; [auto|congruence].
  - destruct (Hes u v (or_introl eq_refl)) as (Hu & Hv & Hed). pose proof (visit_inv done prev lv nxt g u v HI Hu Hv Hed) as HV.
    destruct (per_visit prev (Some (lv, nxt, g)) v) as [[[lv1 nxt1] g1]|] eqn:Ep.
    + destruct HV as (HI1 & Hk1 & Hn1).
      assert (Hes1 : forall a b, In (a, b) es -> lev lv1 a = Some (prev - 1)%Z /\ b < n /\ E a b).
      { intros a b Hab. destruct (Hes a b (or_intror Hab)) as (A & B & C). split; [apply Hk1; exact A|split; assumption]. }
      specialize (IH (done ++ [(u, v)]) prev lv1 nxt1 g1 HI1 Hes1).
      unfold pstate in *. destruct (fold_left (fun (st : option (list (option Z) * list nat * Z)) (e : nat * nat) => per_visit prev st (snd e)) es (Some (lv1, nxt1, g1))) as [[[lv2 nxt2] g2]|]; [|exact IH].
      destruct IH as (HI2 & Hk2 & Hn2). rewrite <- app_assoc in HI2. simpl in HI2. split; [exact HI2|]. split.
      * intros w l Hw. apply Hk2, Hk1, Hw.
      * intros w Hw1 Hw2. destruct (lev lv1 w) as [l|] eqn:El; [|apply Hn2; assumption].
        rewrite (Hk2 w l El). rewrite <- El. apply Hn1; [exact Hw1|congruence].
    + clear IH. assert (G : forall l, fold_left (fun st (e : nat * nat) => per_visit prev st (snd e)) l None = None) by (induction l as [|e l IHl]; [reflexivity|exact IHl]). rewrite G. exact HV.
Qed.

(** [done] covers every edge out of every vertex labelled below [prev - 1]. *)
Definition covered (done : list (nat * nat)) (prev : Z) (lv : list (option Z)) : Prop :=
  forall u l v, lev lv u = Some l -> (l < prev - 1)%Z -> In v (succ u) -> In (u, v) done.

Lemma final_period done prev lv g : pinv done prev lv [] g -> (forall u l v, lev lv u = Some l -> In v (succ u) -> In (u, v) done) -> period_of n E x g.
Proof.
  intros HI HC. split; [apply (pi_pos _ _ _ _ _ HI)|]. split.
  - assert (G : forall k u y, walk n E k u y -> forall l, lev lv u = Some l -> exists m, lev lv y = Some m /\ (g | l + Z.of_nat k - m)%Z).
    { intros k u y Hw. induction Hw as [i Hi|k i j l0 Hi Hj He Hw IH]; intros l Hl.
      - exists l. split; [exact Hl|]. replace (l + Z.of_nat 0 - l)%Z with 0%Z by lia. apply Z.divide_0_r.
      - assert (Hr : reach n E x i) by (eapply lev_reach; eassumption).
        assert (Hin : In (i, j) done) by (eapply HC; [exact Hl|]; apply Hsucc; [exact Hr|split; assumption]).
        destruct (pi_done _ _ _ _ _ HI i j Hin) as (a & b & Ha & Hb & Hd). rewrite Hl in Ha. inversion Ha; subst a.
        destruct (IH b Hb) as (m & Hm & Hdm). exists m. split; [exact Hm|].
        replace (l + Z.of_nat (S k) - m)%Z with ((l + 1 - b) + (b + Z.of_nat k - m))%Z by lia. apply Z.divide_add_r; assumption. }
    intros k Hk. destruct (G k x x Hk 0%Z (pi_x _ _ _ _ _ HI)) as (m & Hm & Hd). rewrite (pi_x _ _ _ _ _ HI) in Hm. inversion Hm; subst m.
    replace (0 + Z.of_nat k - 0)%Z with (Z.of_nat k) in Hd by lia. exact Hd.
  - intros e He. apply (pi_sound _ _ _ _ _ HI). exact He.
Qed.
Lemma one_period : (forall e, divides_all e -> (e | 1)%Z) -> period_of n E x 1.
Proof. intros H. split; [lia|]. split; [intros; apply Z.divide_1_l|exact H]. Qed.

Lemma loop_spec fuel : forall done lv g cur prev, pinv done (prev - 1) lv cur g -> covered done prev lv ->
  none_count lv + (match cur with [] => 0 | _ => 1 end) < fuel ->
  exists d, per_loop fuel succ lv g cur prev = Ok d /\ period_of n E x d.
Proof.
  induction fuel as [|fuel IH]; intros done lv g cur prev HI HC HF; [lia|].
  destruct cur as [|c0 cur'] eqn:Ecur.
  - cbn [per_loop]. exists g. split; [reflexivity|]. eapply final_period; [exact HI|].
    intros u l v Hl Hv. apply (HC u l v Hl); [|exact Hv]. destruct (pi_walk _ _ _ _ _ HI u l Hl) as (k & Hk & Hw & Hle).
    destruct (Z.eq_dec l (prev - 1)) as [->|]; [|lia]. exfalso. apply (pi_nxt _ _ _ _ _ HI u) in Hl. destruct Hl.
  - rewrite <- Ecur in *. assert (Hne : cur <> []) by (rewrite Ecur; discriminate).
    cbn [per_loop]. destruct cur as [|c1 cur1]; [congruence|]. set (cur := c1 :: cur1) in *. clear Ecur c0 cur' Hne.
    rewrite fold_nested. set (es := flat_map (fun u => map (pair u) (succ u)) cur).
    assert (Hes : forall u v, In (u, v) es <-> In u cur /\ In v (succ u)).
    { intros u v. unfold es. rewrite in_flat_map. split.
      - intros (a & Ha & Hm). apply in_map_iff in Hm. destruct Hm as (b & Hb & Hm). inversion Hb; subst. split; assumption.
      - intros [H1 H2]. exists u. split; [exact H1|]. apply in_map_iff. exists v. split; [reflexivity|exact H2]. }
    assert (HI0 : pinv done prev lv [] g).
    { destruct HI as [HL HW HN HD HS HP HX]. constructor; try assumption.
      - intros v l Hl. destruct (HW v l Hl) as (k & H1 & H2 & H3). exists k. repeat split; [exact H1|exact H2|lia].
      - intros v. split; [intros []|]. intros Hl. destruct (HW v _ Hl) as (k & H1 & H2 & H3). lia. }
    assert (Hpre : forall u v, In (u, v) es -> lev lv u = Some (prev - 1)%Z /\ v < n /\ E u v).
    { intros u v Huv. apply Hes in Huv. destruct Huv as [Hu Hv]. apply (pi_nxt _ _ _ _ _ HI) in Hu. split; [exact Hu|].
      apply Hsucc; [eapply lev_reach; eassumption|exact Hv]. }
    pose proof (level_inv es done prev lv [] g HI0 Hpre) as HL.
    unfold pstate in *. destruct (fold_left (fun (st : option (list (option Z) * list nat * Z)) (e : nat * nat) => per_visit prev st (snd e)) es (Some (lv, [], g))) as [[[lv' nxt'] g']|] eqn:Ef.
    + destruct HL as (HI' & Hk & Hnw).
      assert (HC' : covered (done ++ es) (prev + 1) lv').
      { intros u l v Hl Hlt Hv. apply in_app_iff. destruct (lev lv u) as [l0|] eqn:El0.
        - rewrite (Hk u l0 El0) in Hl. inversion Hl; subst l0. destruct (Z.eq_dec l (prev - 1)) as [->|].
          + right. apply Hes. split; [apply (pi_nxt _ _ _ _ _ HI); exact El0|exact Hv].
          + left. apply (HC u l v El0); [lia|exact Hv].
        - exfalso. rewrite (Hnw u El0) in Hl by congruence. inversion Hl; lia. }
      assert (HI1 : pinv (done ++ es) (prev + 1 - 1) lv' nxt' g') by (replace (prev + 1 - 1)%Z with prev by lia; exact HI').
      assert (HM : none_count lv' + (match nxt' with [] => 0 | _ => 1 end) < fuel).
      { assert (Hle : none_count lv' <= none_count lv).
        { unfold none_count. clear - Hk. induction (seq 0 n) as [|w l IHl]; simpl; [lia|]. destruct (lev lv w) as [z|] eqn:Ew; [rewrite (Hk w z Ew); exact IHl|].
          destruct (lev lv' w); simpl; lia. }
        destruct nxt' as [|y nxt2]; [simpl in HF; lia|].
        assert (Hlt : none_count lv' < none_count lv); [|simpl in HF; lia].
        assert (Hy : lev lv' y = Some prev) by (apply (pi_nxt _ _ _ _ _ HI'); left; reflexivity).
        unfold none_count. apply filter_length_lt with (x := y).
        - intros w _ Hw. destruct (lev lv' w) eqn:Ew; [discriminate|]. destruct (lev lv w) as [z|] eqn:Ew2; [|reflexivity]. rewrite (Hk w z Ew2) in Ew. discriminate.
        - apply in_seq. pose proof (lev_lt lv' y prev (pi_len _ _ _ _ _ HI') Hy). lia.
        - rewrite Hy. reflexivity.
        - destruct (lev lv y) as [z|] eqn:Ey; [|reflexivity]. exfalso. rewrite (Hk y z Ey) in Hy. inversion Hy; subst z.
          destruct (pi_walk _ _ _ _ _ HI y prev Ey) as (k & _ & _ & Hle'). lia. }
      destruct (IH (done ++ es) lv' g' nxt' (prev + 1)%Z HI1 HC' HM) as (d & Hd & Hp). exists d. split; [exact Hd|exact Hp].
    + exists 1%Z. split; [reflexivity|]. apply one_period. exact HL.
Qed.

Lemma calculate_period_spec : exists d, calculate_period n succ x = Ok d /\ period_of n E x d.
Proof.
  unfold calculate_period. set (lv := set_nth (repeat None n) x (Some 0%Z)).
  assert (Hlev : forall v, lev lv v = if Nat.eqb v x then Some 0%Z else None).
  { intros v. unfold lev, lv. rewrite nth_set_nth by (rewrite repeat_length; exact Hx). destruct (Nat.eqb v x); [reflexivity|]. apply nth_repeat. }
  apply (loop_spec (n + 1) [] lv 0%Z [x] 1%Z).
  - constructor.
    + unfold lv. rewrite length_set_nth, repeat_length. reflexivity.
    + intros v l Hl. rewrite Hlev in Hl. destruct (Nat.eqb_spec v x) as [->|]; [|discriminate]. inversion Hl; subst l. exists 0. repeat split; [constructor; exact Hx|lia].
    + intros v. rewrite Hlev. simpl. destruct (Nat.eqb_spec v x) as [->|Hne]; split; try tauto; try discriminate; intros [H|[]]; congruence.
    + intros u v [].
    + intros e _. apply Z.divide_0_r.
    + lia.
    + rewrite Hlev, Nat.eqb_refl. reflexivity.
  - intros u l v Hl Hlt _. rewrite Hlev in Hl. destruct (Nat.eqb u x); [|discriminate]. inversion Hl; lia.
  - cbv beta iota. assert (H : none_count lv < n); [|lia].
    unfold none_count. rewrite <- (seq_length n 0) at 2. rewrite <- (filter_true (seq 0 n)) at 2.
    apply filter_length_lt with (x := x); [reflexivity|apply in_seq; lia| |reflexivity]. rewrite Hlev, Nat.eqb_refl. reflexivity.
Qed.
End Per.

Lemma period_of_mutual n E x y d : mutual n E x y -> period_of n E x d -> period_of n E y d.
Proof.
  intros [[a Ha] [b Hb]] (H0 & H1 & H2). split; [exact H0|].
  split.
  - intros k Hk. assert (W1 : walk n E (a + (k + b)) x x) by (eapply walk_app; [exact Ha|eapply walk_app; eassumption]).
    assert (W2 : walk n E (a + b) x x) by (eapply walk_app; eassumption). apply H1 in W1, W2.
    replace (Z.of_nat k) with (Z.of_nat (a + (k + b)) - Z.of_nat (a + b))%Z by lia. apply Z.divide_sub_r; assumption.
  - intros e He. apply H2. intros k Hk. assert (W1 : walk n E (b + (k + a)) y y) by (eapply walk_app; [exact Hb|eapply walk_app; eassumption]).
    assert (W2 : walk n E (b + a) y y) by (eapply walk_app; eassumption). apply He in W1, W2.
    replace (Z.of_nat k) with (Z.of_nat (b + (k + a)) - Z.of_nat (b + a))%Z by lia. apply Z.divide_sub_r; assumption.
Qed.
Lemma period_of_unique n E x d d' : period_of n E x d -> period_of n E x d' -> d = d'.
Proof. intros (A & B & C) (A' & B' & C'). apply Z.divide_antisym_nonneg; try assumption; [apply C'; exact B|apply C; exact B']. Qed.
