(** L_Cache: invariants of the machine of cached properties. *)
From Verif Require Export S_Cache.
From Coq Require Export List Arith Bool.
From Coq Require Import Lia Sorted.
Import ListNotations.

Lemma upd_eq {A} (f : nat -> A) k v : upd f k v k = v.
Proof. unfold upd. rewrite Nat.eqb_refl. reflexivity. Qed.
Lemma upd_neq {A} (f : nat -> A) k v x : x <> k -> upd f k v x = f x.
Proof. intros H. unfold upd. destruct (Nat.eqb_spec x k); [contradiction|reflexivity]. Qed.

Lemma set_nth_length {A} n (x : A) l : length (set_nth n x l) = length l.
Proof. revert n; induction l as [|y l IH]; intros [|n]; cbn; auto. Qed.
Lemma set_nth_eq {A} n (x : A) l : n < length l -> nth_error (set_nth n x l) n = Some x.
Proof. revert n; induction l as [|y l IH]; intros [|n] H; cbn in *; try lia; auto. apply IH. lia. Qed.
Lemma set_nth_neq {A} n m (x : A) l : m <> n -> nth_error (set_nth n x l) m = nth_error l m.
Proof. revert n m; induction l as [|y l IH]; intros [|n] [|m] H; cbn; auto; try contradiction. Qed.

Section Inv.
Variable plan : nat -> nat -> list nat.
Variable rank : nat -> nat.
Hypothesis acyclic : forall o k d, In d (plan o k) -> rank d < rank k.

Definition holds (f : frame) : bool := match f_ph f with PCheck | PRun _ | PStore _ | PRet _ => true | _ => false end.
Definition running (ph : phase) : Prop := match ph with PRun _ | PAlias _ => True | _ => False end.
Definition pending (f : frame) : list nat := match f_ph f with PRun ds | PAlias ds => ds | _ => [] end.
Definition below (f g : frame) : Prop := rank (f_k f) < rank (f_k g).

Definition frame_of (s : state) (t : nat) (f : frame) : Prop := exists T, nth_error (s_threads s) t = Some T /\ In f (t_stack T).

Record inv (s : state) : Prop := {
  i_sorted : forall t T, nth_error (s_threads s) t = Some T -> StronglySorted below (t_stack T);
  i_below : forall t T f fs, nth_error (s_threads s) t = Some T -> t_stack T = f :: fs -> forall g, In g fs -> running (f_ph g);
  i_pending : forall t f d, frame_of s t f -> In d (pending f) -> rank d < rank (f_k f);
  i_lock : forall t f, frame_of s t f -> holds f = true -> s_locks s (f_k f) = Some (t, 1);
  i_owner : forall k t c, s_locks s k = Some (t, c) -> c = 1 /\ exists f, frame_of s t f /\ holds f = true /\ f_k f = k;
  i_run : forall t f ds, frame_of s t f -> f_ph f = PRun ds -> s_dict s (f_o f) (f_k f) = None /\ evals (s_log s) (f_o f) (f_k f) = [];
  i_store : forall t f v, frame_of s t f -> f_ph f = PStore v -> s_dict s (f_o f) (f_k f) = None /\ evals (s_log s) (f_o f) (f_k f) = [v];
  i_ret : forall t f v, frame_of s t f -> f_ph f = PRet v -> s_dict s (f_o f) (f_k f) = Some v;
  i_dict : forall o k v, s_dict s o k = Some v -> evals (s_log s) o k = [v];
  i_none : forall o k, s_dict s o k = None -> (forall t f v, frame_of s t f -> f_o f = o -> f_k f = k -> f_ph f <> PStore v) -> evals (s_log s) o k = [];
  i_results : forall t T o k v, nth_error (s_threads s) t = Some T -> In (o, k, v) (t_results T) -> s_dict s o k = Some v }.

Lemma inv_start requests : inv (start requests).
Proof.
  assert (HT : forall t T, nth_error (s_threads (start requests)) t = Some T -> t_stack T = [] /\ t_results T = []).
  { intros t T H. cbn in H. rewrite nth_error_map in H. destruct (nth_error requests t); [|discriminate]. inversion H; subst. auto. }
  assert (HF : forall t f, ~ frame_of (start requests) t f).
  { intros t f (T & H & HI). apply HT in H. destruct H as [H _]. rewrite H in HI. exact HI. }
  constructor; intros.
  - apply HT in H. destruct H as [-> _]. constructor.
  - apply HT in H. destruct H as [E _]. congruence.
  - exfalso. eapply HF; eassumption.
  - exfalso. eapply HF; eassumption.
  - discriminate.
  - exfalso. eapply HF; eassumption.
  - exfalso. eapply HF; eassumption.
  - exfalso. eapply HF; eassumption.
  - discriminate.
  - reflexivity.
  - apply HT in H. destruct H as [_ E]. rewrite E in H0. destruct H0.
Qed.

Lemma evals_cons e log o k : evals (e :: log) o k = if Nat.eqb (fst (fst e)) o && Nat.eqb (snd (fst e)) k then snd e :: evals log o k else evals log o k.
Proof. unfold evals. cbn [filter]. destruct (_ && _); reflexivity. Qed.

(** The frames after thread t got a new stack. *)
Lemma frame_of_set s t T T' u f threads locks dict log al nx : nth_error (s_threads s) t = Some T -> threads = set_nth t T' (s_threads s) ->
  (frame_of (mkstate threads locks dict log al nx) u f <-> (u = t /\ In f (t_stack T')) \/ (u <> t /\ frame_of s u f)).
Proof.
  intros HT ->. unfold frame_of. cbn [s_threads]. assert (Hlt : t < length (s_threads s)) by (apply nth_error_Some; congruence). split.
  - intros (U & HU & HI). destruct (Nat.eq_dec u t) as [->|Hne]; [left; rewrite set_nth_eq in HU by exact Hlt; inversion HU; subst; auto|].
    right. split; [exact Hne|]. exists U. rewrite set_nth_neq in HU by exact Hne. auto.
  - intros [[-> HI]|[Hne (U & HU & HI)]]; [exists T'; rewrite set_nth_eq by exact Hlt; auto|]. exists U. rewrite set_nth_neq by exact Hne. auto.
Qed.
Lemma thread_set s t T T' u U : nth_error (s_threads s) t = Some T -> nth_error (set_nth t T' (s_threads s)) u = Some U ->
  (u = t /\ U = T') \/ (u <> t /\ nth_error (s_threads s) u = Some U).
Proof.
  intros HT HU. assert (Hlt : t < length (s_threads s)) by (apply nth_error_Some; congruence).
  destruct (Nat.eq_dec u t) as [->|Hne]; [left; rewrite set_nth_eq in HU by exact Hlt; inversion HU; auto|right; rewrite set_nth_neq in HU by exact Hne; auto].
Qed.

Section Step.
Variables (s : state) (t : nat) (T : thread).
Hypothesis HI : inv s.
Hypothesis HT : nth_error (s_threads s) t = Some T.

Lemma same_thread_ranks f g fs : t_stack T = f :: fs -> In g fs -> rank (f_k f) < rank (f_k g).
Proof. intros E Hg. pose proof (i_sorted s HI t T HT) as H. rewrite E in H. inversion H as [|? ? _ HF]; subst. rewrite Forall_forall in HF. exact (HF g Hg). Qed.

(** If thread t holds lock k in its top frame, no other frame anywhere holds it. *)
Lemma lock_exclusive f fs u g : t_stack T = f :: fs -> holds f = true -> frame_of s u g -> holds g = true -> f_k g = f_k f ->
  u = t /\ (g = f \/ False).
Proof.
  intros E Hf HG Hg Hk. assert (HF : frame_of s t f) by (exists T; split; [exact HT|rewrite E; left; reflexivity]).
  pose proof (i_lock s HI t f HF Hf) as L1. pose proof (i_lock s HI u g HG Hg) as L2. rewrite Hk in L2. rewrite L1 in L2. inversion L2; subst u. split; [reflexivity|].
  destruct HG as (T' & HT' & HIn). rewrite HT in HT'. inversion HT'; subst T'. rewrite E in HIn. destruct HIn as [<-|HIn]; [left; reflexivity|]. right.
  pose proof (same_thread_ranks f g fs E HIn). rewrite Hk in H. lia.
Qed.
End Step.

(** Replacing the top frame by one of the same property that keeps the lock status. *)
Lemma step_inv s t s' : inv s -> step plan s t = Some s' -> inv s'.
Proof.
  intros HI Hs. unfold step in Hs. destruct (nth_error (s_threads s) t) as [T|] eqn:HT; [|discriminate].
  destruct (t_stack T) as [|[o k ph] fs] eqn:ES.
  - (* a new request *)
    destruct (t_todo T) as [|rq todo]; [discriminate|].
    set (f0 := match rq with RProp o k => mkframe o k PWait | RAlias o k => mkframe o k (PAlias (plan o k)) end).
    assert (Hs' : s' = with_thread s t (mkthread [f0] todo (t_results T))) by (subst f0; destruct rq; inversion Hs; reflexivity). clear Hs. subst s'.
    assert (HF : forall u f, frame_of (with_thread s t (mkthread [f0] todo (t_results T))) u f <-> (u = t /\ f = f0) \/ (u <> t /\ frame_of s u f)).
    { intros u f. unfold with_thread. rewrite (frame_of_set s t T (mkthread [f0] todo (t_results T)) u f _ _ _ _ _ _ HT eq_refl). cbn [t_stack In]. intuition. }
    assert (HO : forall u f, frame_of s u f -> u <> t). { intros u f (U & HU & HIn) ->. rewrite HT in HU. inversion HU; subst. rewrite ES in HIn. destruct HIn. }
    assert (Hh : holds f0 = false) by (subst f0; destruct rq; reflexivity).
    constructor; cbn [with_thread s_threads s_locks s_dict s_log].
    + intros u U HU. destruct (thread_set _ _ _ _ _ _ HT HU) as [[-> ->]|[Hne HU']]; [repeat constructor|apply (i_sorted s HI u U HU')].
    + intros u U f fs' HU E. destruct (thread_set _ _ _ _ _ _ HT HU) as [[-> ->]|[Hne HU']]; [inversion E; subst; intros g []|apply (i_below s HI u U f fs' HU' E)].
    + intros u f d HFr Hd. apply HF in HFr. destruct HFr as [[-> ->]|[_ HFr]]; [|eapply i_pending; eassumption].
      subst f0. destruct rq as [o' k'|o' k']; cbn in Hd |- *; [destruct Hd|]. eapply acyclic. exact Hd.
    + intros u f HFr Hf. apply HF in HFr. destruct HFr as [[-> ->]|[_ HFr]]; [congruence|apply i_lock; assumption].
    + intros k u c Hk. destruct (i_owner s HI k u c Hk) as (-> & f & HFr & Hf & Ek). split; [reflexivity|]. exists f. split; [|auto]. apply HF. right. split; [eapply HO; exact HFr|exact HFr].
    + intros u f ds HFr Hf. apply HF in HFr. destruct HFr as [[-> ->]|[_ HFr]]; [subst f0; destruct rq; discriminate|eapply i_run; eassumption].
    + intros u f v HFr Hf. apply HF in HFr. destruct HFr as [[-> ->]|[_ HFr]]; [subst f0; destruct rq; discriminate|eapply i_store; eassumption].
    + intros u f v HFr Hf. apply HF in HFr. destruct HFr as [[-> ->]|[_ HFr]]; [subst f0; destruct rq; discriminate|eapply i_ret; eassumption].
    + apply (i_dict s HI).
    + intros o k Hd Hno. apply (i_none s HI o k Hd). intros u f v HFr Ho Hk. apply (Hno u f v); [|exact Ho|exact Hk]. apply HF. right. split; [eapply HO; exact HFr|exact HFr].
    + intros u U o k v HU HIn. destruct (thread_set _ _ _ _ _ _ HT HU) as [[-> ->]|[Hne HU']]; [cbn in HIn; eapply (i_results s HI); eassumption|eapply (i_results s HI); eassumption].
  - set (f := mkframe o k ph) in *.
    assert (HFt : frame_of s t f) by (exists T; split; [exact HT|rewrite ES; left; reflexivity]).
    assert (HFs : forall g, In g fs -> frame_of s t g) by (intros g Hg; exists T; split; [exact HT|rewrite ES; right; exact Hg]).
    assert (HBel : forall g, In g fs -> running (f_ph g)) by (intros g Hg; eapply (i_below s HI); eassumption).
    assert (HRk : forall g, In g fs -> rank k < rank (f_k g)) by (intros g Hg; exact (same_thread_ranks s t T HI HT f g fs ES Hg)).
    assert (HSort : StronglySorted below fs) by (pose proof (i_sorted s HI t T HT) as H; rewrite ES in H; inversion H; assumption).
    (* frames of s: the top one, the lower ones, those of other threads *)
    assert (HSplit : forall u g, frame_of s u g -> (u = t /\ (g = f \/ In g fs)) \/ u <> t).
    { intros u g (U & HU & HIn). destruct (Nat.eq_dec u t) as [->|Hne]; [|right; exact Hne]. left. split; [reflexivity|]. rewrite HT in HU; inversion HU; subst. rewrite ES in HIn. destruct HIn as [<-|HIn]; auto. }
    assert (HExcl : holds f = true -> forall u g, frame_of s u g -> holds g = true -> f_k g = k -> u = t /\ g = f).
    { intros Hf u g HG Hg Hk. destruct (lock_exclusive s t T HI HT f fs u g ES Hf HG Hg Hk) as [-> [->|[]]]. auto. }
    destruct ph as [| |[|d ds]|v|v|[|d ds]].
    + (* acquire *)
      unfold acquire in Hs. destruct (s_locks s k) as [[u0 c0]|] eqn:EL.
      { destruct (Nat.eqb_spec u0 t) as [->|Hne]; [|discriminate]. exfalso.
        destruct (i_owner s HI k t c0 EL) as (_ & g & HG & Hg & Hk). destruct (HSplit t g HG) as [[_ [->|Hin]]|Hn]; [discriminate Hg| |contradiction].
        specialize (HRk g Hin). rewrite Hk in HRk. lia. }
      injection Hs as <-.
      assert (HF : forall u g, frame_of (mkstate (set_nth t (mkthread (mkframe o k PCheck :: fs) (t_todo T) (t_results T)) (s_threads s)) (upd (s_locks s) k (Some (t, 1))) (s_dict s) (s_log s) (s_alias s) (s_next s)) u g
          <-> (u = t /\ (g = mkframe o k PCheck \/ In g fs)) \/ (u <> t /\ frame_of s u g)).
      { intros u g. rewrite (frame_of_set s t T _ u g _ _ _ _ _ _ HT eq_refl). cbn [t_stack In]. intuition. }
      assert (HFo : forall u g, u <> t -> frame_of s u g -> holds g = true -> f_k g <> k).
      { intros u g Hne HG Hg Hk. pose proof (i_lock s HI u g HG Hg) as L. rewrite Hk, EL in L. discriminate. }
      constructor; cbn [s_threads s_locks s_dict s_log].
      * intros u U HU. destruct (thread_set _ _ _ _ _ _ HT HU) as [[-> ->]|[Hne HU']]; [|apply (i_sorted s HI u U HU')]. cbn [t_stack].
        constructor; [exact HSort|]. apply Forall_forall. intros g Hg. exact (HRk g Hg).
      * intros u U g gs HU E. destruct (thread_set _ _ _ _ _ _ HT HU) as [[-> ->]|[Hne HU']]; [inversion E; subst; exact HBel|apply (i_below s HI u U g gs HU' E)].
      * intros u g d HG Hd. apply HF in HG. destruct HG as [[-> [->|Hin]]|[_ HG]]; [destruct Hd|eapply i_pending; eauto|eapply i_pending; eassumption].
      * intros u g HG Hg. apply HF in HG. destruct HG as [[-> [->|Hin]]|[Hne HG]]; cbn [f_k].
        -- apply upd_eq.
        -- rewrite upd_neq; [apply i_lock; auto|]. specialize (HRk g Hin). intros E. rewrite E in HRk. lia.
        -- rewrite upd_neq; [apply i_lock; auto|]. eapply HFo; eassumption.
      * intros k' u c. destruct (Nat.eq_dec k' k) as [->|Hk].
        -- rewrite upd_eq. intros H; inversion H; subst. split; [reflexivity|]. exists (mkframe o k PCheck). split; [apply HF; left; auto|auto].
        -- rewrite upd_neq by exact Hk. intros H. destruct (i_owner s HI k' u c H) as (-> & g & HG & Hg & Ek). split; [reflexivity|]. exists g. split; [|auto].
           apply HF. destruct (HSplit u g HG) as [[-> [->|Hin]]|Hne]; [discriminate|left; auto|right; auto].
      * intros u g ds HG Hg. apply HF in HG. destruct HG as [[-> [->|Hin]]|[_ HG]]; [discriminate|eapply i_run; eauto|eapply i_run; eassumption].
      * intros u g v HG Hg. apply HF in HG. destruct HG as [[-> [->|Hin]]|[_ HG]]; [discriminate|eapply i_store; eauto|eapply i_store; eassumption].
      * intros u g v HG Hg. apply HF in HG. destruct HG as [[-> [->|Hin]]|[_ HG]]; [discriminate|eapply i_ret; eauto|eapply i_ret; eassumption].
      * apply (i_dict s HI).
      * intros o' k' Hd Hno. apply (i_none s HI o' k' Hd). intros u g v HG Ho Hk Hp. apply (Hno u g v); auto. apply HF.
        destruct (HSplit u g HG) as [[-> [->|Hin]]|Hne]; [discriminate|left; auto|right; auto].
      * intros u U o' k' v HU HIn. destruct (thread_set _ _ _ _ _ _ HT HU) as [[-> ->]|[Hne HU']]; [cbn in HIn; eapply (i_results s HI); eassumption|eapply (i_results s HI); eassumption].
    + (* look into __dict__ *)
      destruct (s_dict s o k) as [v|] eqn:ED; injection Hs as <-.
      * assert (HF : forall u g, frame_of (with_thread s t (mkthread (mkframe o k (PRet v) :: fs) (t_todo T) (t_results T))) u g
          <-> (u = t /\ (g = mkframe o k (PRet v) \/ In g fs)) \/ (u <> t /\ frame_of s u g)).
        { intros u g. unfold with_thread. rewrite (frame_of_set s t T _ u g _ _ _ _ _ _ HT eq_refl). cbn [t_stack In]. intuition. }
        constructor; cbn [with_thread s_threads s_locks s_dict s_log].
        -- intros u U HU. destruct (thread_set _ _ _ _ _ _ HT HU) as [[-> ->]|[Hne HU']]; [|apply (i_sorted s HI u U HU')]. cbn [t_stack].
           constructor; [exact HSort|]. apply Forall_forall. intros g Hg. exact (HRk g Hg).
        -- intros u U g gs HU E. destruct (thread_set _ _ _ _ _ _ HT HU) as [[-> ->]|[Hne HU']]; [inversion E; subst; exact HBel|apply (i_below s HI u U g gs HU' E)].
        -- intros u g d HG Hd. apply HF in HG. destruct HG as [[-> [->|Hin]]|[_ HG]]; [destruct Hd|eapply i_pending; eauto|eapply i_pending; eassumption].
        -- intros u g HG Hg. apply HF in HG. destruct HG as [[-> [->|Hin]]|[Hne HG]]; [apply (i_lock s HI t f HFt); reflexivity|apply i_lock; auto|apply i_lock; auto].
        -- intros k' u c H. destruct (i_owner s HI k' u c H) as (-> & g & HG & Hg & Ek). split; [reflexivity|].
           destruct (HSplit u g HG) as [[-> [->|Hin]]|Hne]; [exists (mkframe o k (PRet v))|exists g|exists g]; (split; [apply HF|auto]); auto.
        -- intros u g ds HG Hg. apply HF in HG. destruct HG as [[-> [->|Hin]]|[_ HG]]; [discriminate|eapply i_run; eauto|eapply i_run; eassumption].
        -- intros u g w HG Hg. apply HF in HG. destruct HG as [[-> [->|Hin]]|[_ HG]]; [discriminate|eapply i_store; eauto|eapply i_store; eassumption].
        -- intros u g w HG Hg. apply HF in HG. destruct HG as [[-> [->|Hin]]|[_ HG]]; [inversion Hg; subst; exact ED|eapply i_ret; eauto|eapply i_ret; eassumption].
        -- apply (i_dict s HI).
        -- intros o' k' Hd Hno. apply (i_none s HI o' k' Hd). intros u g w HG Ho Hk Hp. apply (Hno u g w); auto. apply HF.
           destruct (HSplit u g HG) as [[-> [->|Hin]]|Hne]; [discriminate|left; auto|right; auto].
        -- intros u U o' k' w HU HIn. destruct (thread_set _ _ _ _ _ _ HT HU) as [[-> ->]|[Hne HU']]; [cbn in HIn; eapply (i_results s HI); eassumption|eapply (i_results s HI); eassumption].
      * assert (HF : forall u g, frame_of (with_thread s t (mkthread (mkframe o k (PRun (plan o k)) :: fs) (t_todo T) (t_results T))) u g
          <-> (u = t /\ (g = mkframe o k (PRun (plan o k)) \/ In g fs)) \/ (u <> t /\ frame_of s u g)).
        { intros u g. unfold with_thread. rewrite (frame_of_set s t T _ u g _ _ _ _ _ _ HT eq_refl). cbn [t_stack In]. intuition. }
        assert (HEv : evals (s_log s) o k = []).
        { apply (i_none s HI o k ED). intros u g w HG Ho Hk Hp. destruct (HExcl eq_refl u g HG) as [_ Eg]; [unfold holds; rewrite Hp; reflexivity|exact Hk|]. subst g. discriminate. }
        constructor; cbn [with_thread s_threads s_locks s_dict s_log].
        -- intros u U HU. destruct (thread_set _ _ _ _ _ _ HT HU) as [[-> ->]|[Hne HU']]; [|apply (i_sorted s HI u U HU')]. cbn [t_stack].
           constructor; [exact HSort|]. apply Forall_forall. intros g Hg. exact (HRk g Hg).
        -- intros u U g gs HU E. destruct (thread_set _ _ _ _ _ _ HT HU) as [[-> ->]|[Hne HU']]; [inversion E; subst; exact HBel|apply (i_below s HI u U g gs HU' E)].
        -- intros u g d HG Hd. apply HF in HG. destruct HG as [[-> [->|Hin]]|[_ HG]]; [cbn in Hd |- *; eapply acyclic; exact Hd|eapply i_pending; eauto|eapply i_pending; eassumption].
        -- intros u g HG Hg. apply HF in HG. destruct HG as [[-> [->|Hin]]|[Hne HG]]; [apply (i_lock s HI t f HFt); reflexivity|apply i_lock; auto|apply i_lock; auto].
        -- intros k' u c H. destruct (i_owner s HI k' u c H) as (-> & g & HG & Hg & Ek). split; [reflexivity|].
           destruct (HSplit u g HG) as [[-> [->|Hin]]|Hne]; [exists (mkframe o k (PRun (plan o k)))|exists g|exists g]; (split; [apply HF|auto]); auto.
        -- intros u g ds HG Hg. apply HF in HG. destruct HG as [[-> [->|Hin]]|[_ HG]]; [cbn [f_o f_k]; auto|eapply i_run; eauto|eapply i_run; eassumption].
        -- intros u g w HG Hg. apply HF in HG. destruct HG as [[-> [->|Hin]]|[_ HG]]; [discriminate|eapply i_store; eauto|eapply i_store; eassumption].
        -- intros u g w HG Hg. apply HF in HG. destruct HG as [[-> [->|Hin]]|[_ HG]]; [discriminate|eapply i_ret; eauto|eapply i_ret; eassumption].
        -- apply (i_dict s HI).
        -- intros o' k' Hd Hno. apply (i_none s HI o' k' Hd). intros u g w HG Ho Hk Hp. apply (Hno u g w); auto. apply HF.
           destruct (HSplit u g HG) as [[-> [->|Hin]]|Hne]; [discriminate|left; auto|right; auto].
        -- intros u U o' k' w HU HIn. destruct (thread_set _ _ _ _ _ _ HT HU) as [[-> ->]|[Hne HU']]; [cbn in HIn; eapply (i_results s HI); eassumption|eapply (i_results s HI); eassumption].
    + (* evaluation *)
      injection Hs as <-. set (v := s_next s).
      assert (HF : forall u g, frame_of (mkstate (set_nth t (mkthread (mkframe o k (PStore v) :: fs) (t_todo T) (t_results T)) (s_threads s)) (s_locks s) (s_dict s) ((o, k, v) :: s_log s) (s_alias s) (S v)) u g
          <-> (u = t /\ (g = mkframe o k (PStore v) \/ In g fs)) \/ (u <> t /\ frame_of s u g)).
      { intros u g. rewrite (frame_of_set s t T _ u g _ _ _ _ _ _ HT eq_refl). cbn [t_stack In]. intuition. }
      destruct (i_run s HI t f [] HFt eq_refl) as [ED EE]. cbn [f_o f_k f] in ED, EE.
      assert (HL : forall o' k', (o', k') <> (o, k) -> evals ((o, k, v) :: s_log s) o' k' = evals (s_log s) o' k').
      { intros o' k' Hne. rewrite evals_cons. cbn [fst snd]. destruct (Nat.eqb_spec o o'), (Nat.eqb_spec k k'); cbn [andb]; try reflexivity. subst. congruence. }
      assert (HL1 : evals ((o, k, v) :: s_log s) o k = [v]) by (rewrite evals_cons; cbn [fst snd]; rewrite !Nat.eqb_refl; cbn [andb]; rewrite EE; reflexivity).
      assert (HNE : forall u g, ((u = t /\ In g fs) \/ (u <> t /\ frame_of s u g)) -> holds g = true -> (f_o g, f_k g) <> (o, k)).
      { intros u g HG Hg E. inversion E as [[Eo Ek]]. destruct HG as [[-> Hin]|[Hne HG]].
        - specialize (HRk g Hin). rewrite Ek in HRk. lia.
        - destruct (HExcl eq_refl u g HG Hg Ek) as [E1 _]. contradiction. }
      constructor; cbn [s_threads s_locks s_dict s_log].
      * intros u U HU. destruct (thread_set _ _ _ _ _ _ HT HU) as [[-> ->]|[Hne HU']]; [|apply (i_sorted s HI u U HU')]. cbn [t_stack].
        constructor; [exact HSort|]. apply Forall_forall. intros g Hg. exact (HRk g Hg).
      * intros u U g gs HU E. destruct (thread_set _ _ _ _ _ _ HT HU) as [[-> ->]|[Hne HU']]; [inversion E; subst; exact HBel|apply (i_below s HI u U g gs HU' E)].
      * intros u g d HG Hd. apply HF in HG. destruct HG as [[-> [->|Hin]]|[_ HG]]; [destruct Hd|eapply i_pending; eauto|eapply i_pending; eassumption].
      * intros u g HG Hg. apply HF in HG. destruct HG as [[-> [->|Hin]]|[Hne HG]]; [apply (i_lock s HI t f HFt); reflexivity|apply i_lock; auto|apply i_lock; auto].
      * intros k' u c H. destruct (i_owner s HI k' u c H) as (-> & g & HG & Hg & Ek). split; [reflexivity|].
        destruct (HSplit u g HG) as [[-> [->|Hin]]|Hne]; [exists (mkframe o k (PStore v))|exists g|exists g]; (split; [apply HF|auto]); auto.
      * intros u g ds HG Hg. apply HF in HG. destruct HG as [[-> [->|Hin]]|[Hne HG]]; [discriminate| |].
        -- rewrite HL; [eapply i_run; eauto|]. apply (HNE t g); [left; auto|unfold holds; rewrite Hg; reflexivity].
        -- rewrite HL; [eapply i_run; eauto|]. apply (HNE u g); [right; auto|unfold holds; rewrite Hg; reflexivity].
      * intros u g w HG Hg. apply HF in HG. destruct HG as [[-> [->|Hin]]|[Hne HG]].
        -- inversion Hg; subst. cbn [f_o f_k]. auto.
        -- rewrite HL; [eapply i_store; eauto|]. apply (HNE t g); [left; auto|unfold holds; rewrite Hg; reflexivity].
        -- rewrite HL; [eapply i_store; eauto|]. apply (HNE u g); [right; auto|unfold holds; rewrite Hg; reflexivity].
      * intros u g w HG Hg. apply HF in HG. destruct HG as [[-> [->|Hin]]|[Hne HG]]; [discriminate|eapply i_ret; eauto|eapply i_ret; eauto].
      * intros o' k' w Hw. rewrite HL; [apply (i_dict s HI); exact Hw|]. intros E; inversion E; subst. congruence.
      * intros o' k' Hd Hno. destruct (Nat.eq_dec o' o) as [->|Ho]; [destruct (Nat.eq_dec k' k) as [->|Hk]|].
        -- exfalso. apply (Hno t (mkframe o k (PStore v)) v); auto. apply HF; auto.
        -- rewrite HL by congruence. apply (i_none s HI o k' Hd). intros u g w HG Ho' Hk' Hp. apply (Hno u g w); auto. apply HF.
           destruct (HSplit u g HG) as [[-> [->|Hin]]|Hne]; [discriminate|left; auto|right; auto].
        -- rewrite HL by congruence. apply (i_none s HI o' k' Hd). intros u g w HG Ho' Hk' Hp. apply (Hno u g w); auto. apply HF.
           destruct (HSplit u g HG) as [[-> [->|Hin]]|Hne]; [discriminate|left; auto|right; auto].
      * intros u U o' k' w HU HIn. destruct (thread_set _ _ _ _ _ _ HT HU) as [[-> ->]|[Hne HU']]; [cbn in HIn; eapply (i_results s HI); eassumption|eapply (i_results s HI); eassumption].
    + (* read a dependency *)
      injection Hs as <-.
      assert (HF : forall u g, frame_of (with_thread s t (mkthread (mkframe o d PWait :: mkframe o k (PRun ds) :: fs) (t_todo T) (t_results T))) u g
          <-> (u = t /\ (g = mkframe o d PWait \/ g = mkframe o k (PRun ds) \/ In g fs)) \/ (u <> t /\ frame_of s u g)).
      { intros u g. unfold with_thread. rewrite (frame_of_set s t T _ u g _ _ _ _ _ _ HT eq_refl). cbn [t_stack In]. intuition. }
      assert (Hd : rank d < rank k) by (apply (i_pending s HI t f d HFt); left; reflexivity).
      constructor; cbn [with_thread s_threads s_locks s_dict s_log].
      * intros u U HU. destruct (thread_set _ _ _ _ _ _ HT HU) as [[-> ->]|[Hne HU']]; [|apply (i_sorted s HI u U HU')]. cbn [t_stack].
        constructor; [constructor; [exact HSort|]|]; apply Forall_forall; intros g Hg; [exact (HRk g Hg)|]. unfold below. cbn [f_k]. destruct Hg as [<-|Hg]; [exact Hd|specialize (HRk g Hg); lia].
      * intros u U g gs HU E. destruct (thread_set _ _ _ _ _ _ HT HU) as [[-> ->]|[Hne HU']]; [|apply (i_below s HI u U g gs HU' E)].
        inversion E; subst. intros h [<-|Hh]; [exact I|apply HBel; exact Hh].
      * intros u g e HG He. apply HF in HG. destruct HG as [[-> [->|[->|Hin]]]|[_ HG]]; [destruct He| |eapply i_pending; eauto|eapply i_pending; eassumption].
        apply (i_pending s HI t f e HFt). right. exact He.
      * intros u g HG Hg. apply HF in HG. destruct HG as [[-> [->|[->|Hin]]]|[Hne HG]]; [discriminate|apply (i_lock s HI t f HFt); reflexivity|apply i_lock; auto|apply i_lock; auto].
      * intros k' u c H. destruct (i_owner s HI k' u c H) as (-> & g & HG & Hg & Ek). split; [reflexivity|].
        destruct (HSplit u g HG) as [[-> [->|Hin]]|Hne]; [exists (mkframe o k (PRun ds))|exists g|exists g]; (split; [apply HF|auto]); auto.
      * intros u g es HG Hg. apply HF in HG. destruct HG as [[-> [->|[->|Hin]]]|[_ HG]]; [discriminate|apply (i_run s HI t f (d :: ds) HFt); reflexivity|eapply i_run; eauto|eapply i_run; eassumption].
      * intros u g w HG Hg. apply HF in HG. destruct HG as [[-> [->|[->|Hin]]]|[_ HG]]; [discriminate|discriminate|eapply i_store; eauto|eapply i_store; eassumption].
      * intros u g w HG Hg. apply HF in HG. destruct HG as [[-> [->|[->|Hin]]]|[_ HG]]; [discriminate|discriminate|eapply i_ret; eauto|eapply i_ret; eassumption].
      * apply (i_dict s HI).
      * intros o' k' He Hno. apply (i_none s HI o' k' He). intros u g w HG Ho Hk Hp. apply (Hno u g w); auto. apply HF.
        destruct (HSplit u g HG) as [[-> [->|Hin]]|Hne]; [discriminate|left; auto|right; auto].
      * intros u U o' k' w HU HIn. destruct (thread_set _ _ _ _ _ _ HT HU) as [[-> ->]|[Hne HU']]; [cbn in HIn; eapply (i_results s HI); eassumption|eapply (i_results s HI); eassumption].
    + (* setdefault *)
      destruct (i_store s HI t f v HFt eq_refl) as [ED EE]. cbn [f_o f_k f] in ED, EE. rewrite ED in Hs. injection Hs as <-.
      assert (HF : forall u g, frame_of (mkstate (set_nth t (mkthread (mkframe o k (PRet v) :: fs) (t_todo T) (t_results T)) (s_threads s)) (s_locks s) (upd (s_dict s) o (upd (s_dict s o) k (Some v))) (s_log s) (s_alias s) (s_next s)) u g
          <-> (u = t /\ (g = mkframe o k (PRet v) \/ In g fs)) \/ (u <> t /\ frame_of s u g)).
      { intros u g. rewrite (frame_of_set s t T _ u g _ _ _ _ _ _ HT eq_refl). cbn [t_stack In]. intuition. }
      assert (HD1 : upd (s_dict s) o (upd (s_dict s o) k (Some v)) o k = Some v) by (rewrite !upd_eq; reflexivity).
      assert (HD2 : forall o' k', (o', k') <> (o, k) -> upd (s_dict s) o (upd (s_dict s o) k (Some v)) o' k' = s_dict s o' k').
      { intros o' k' Hne. destruct (Nat.eq_dec o' o) as [->|Ho]; [rewrite upd_eq, upd_neq by congruence; reflexivity|rewrite upd_neq by exact Ho; reflexivity]. }
      assert (HNE : forall u g, ((u = t /\ In g fs) \/ (u <> t /\ frame_of s u g)) -> holds g = true -> (f_o g, f_k g) <> (o, k)).
      { intros u g HG Hg E. inversion E as [[Eo Ek]]. destruct HG as [[-> Hin]|[Hne HG]].
        - specialize (HRk g Hin). rewrite Ek in HRk. lia.
        - destruct (HExcl eq_refl u g HG Hg Ek) as [E1 _]. contradiction. }
      assert (HMono : forall o' k' w, s_dict s o' k' = Some w -> upd (s_dict s) o (upd (s_dict s o) k (Some v)) o' k' = Some w).
      { intros o' k' w Hw. rewrite HD2; [exact Hw|]. intros E; inversion E; subst. congruence. }
      constructor; cbn [s_threads s_locks s_dict s_log].
      * intros u U HU. destruct (thread_set _ _ _ _ _ _ HT HU) as [[-> ->]|[Hne HU']]; [|apply (i_sorted s HI u U HU')]. cbn [t_stack].
        constructor; [exact HSort|]. apply Forall_forall. intros g Hg. exact (HRk g Hg).
      * intros u U g gs HU E. destruct (thread_set _ _ _ _ _ _ HT HU) as [[-> ->]|[Hne HU']]; [inversion E; subst; exact HBel|apply (i_below s HI u U g gs HU' E)].
      * intros u g d HG Hd. apply HF in HG. destruct HG as [[-> [->|Hin]]|[_ HG]]; [destruct Hd|eapply i_pending; eauto|eapply i_pending; eassumption].
      * intros u g HG Hg. apply HF in HG. destruct HG as [[-> [->|Hin]]|[Hne HG]]; [apply (i_lock s HI t f HFt); reflexivity|apply i_lock; auto|apply i_lock; auto].
      * intros k' u c H. destruct (i_owner s HI k' u c H) as (-> & g & HG & Hg & Ek). split; [reflexivity|].
        destruct (HSplit u g HG) as [[-> [->|Hin]]|Hne]; [exists (mkframe o k (PRet v))|exists g|exists g]; (split; [apply HF|auto]); auto.
      * intros u g es HG Hg. apply HF in HG. destruct HG as [[-> [->|Hin]]|[Hne HG]]; [discriminate| |].
        -- rewrite HD2; [eapply i_run; eauto|]. apply (HNE t g); [left; auto|unfold holds; rewrite Hg; reflexivity].
        -- rewrite HD2; [eapply i_run; eauto|]. apply (HNE u g); [right; auto|unfold holds; rewrite Hg; reflexivity].
      * intros u g w HG Hg. apply HF in HG. destruct HG as [[-> [->|Hin]]|[Hne HG]]; [discriminate| |].
        -- rewrite HD2; [eapply i_store; eauto|]. apply (HNE t g); [left; auto|unfold holds; rewrite Hg; reflexivity].
        -- rewrite HD2; [eapply i_store; eauto|]. apply (HNE u g); [right; auto|unfold holds; rewrite Hg; reflexivity].
      * intros u g w HG Hg. apply HF in HG. destruct HG as [[-> [->|Hin]]|[Hne HG]]; [inversion Hg; subst; exact HD1|apply HMono; eapply i_ret; eauto|apply HMono; eapply i_ret; eauto].
      * intros o' k' w Hw. destruct (Nat.eq_dec o' o) as [->|Ho]; [destruct (Nat.eq_dec k' k) as [->|Hk]|].
        -- rewrite HD1 in Hw. inversion Hw; subst. exact EE.
        -- rewrite HD2 in Hw by congruence. apply (i_dict s HI). exact Hw.
        -- rewrite HD2 in Hw by congruence. apply (i_dict s HI). exact Hw.
      * intros o' k' Hd Hno. assert (Hne : (o', k') <> (o, k)) by (intros E; inversion E; subst; congruence). rewrite HD2 in Hd by exact Hne. apply (i_none s HI o' k' Hd).
        intros u g w HG Ho' Hk' Hp. apply (Hno u g w); auto. apply HF.
        destruct (HSplit u g HG) as [[-> [->|Hin]]|Hn]; [exfalso; apply Hne; subst; reflexivity|left; auto|right; auto].
      * intros u U o' k' w HU HIn. apply HMono. destruct (thread_set _ _ _ _ _ _ HT HU) as [[-> ->]|[Hne HU']]; [cbn in HIn; eapply (i_results s HI); eassumption|eapply (i_results s HI); eassumption].
    + (* release and return *)
      injection Hs as <-. pose proof (i_lock s HI t f HFt eq_refl) as EL. pose proof (i_ret s HI t f v HFt eq_refl) as ED. cbn [f_o f_k f] in EL, ED.
      assert (Hrel : forall x, release t k (s_locks s) x = upd (s_locks s) k None x) by (intros x; unfold release; rewrite EL; reflexivity).
      assert (HF : forall u g, frame_of (mkstate (set_nth t (mkthread fs (t_todo T) ((o, k, v) :: t_results T)) (s_threads s)) (release t k (s_locks s)) (s_dict s) (s_log s) (s_alias s) (s_next s)) u g
          <-> (u = t /\ In g fs) \/ (u <> t /\ frame_of s u g)).
      { intros u g. rewrite (frame_of_set s t T _ u g _ _ _ _ _ _ HT eq_refl). cbn [t_stack In]. intuition. }
      assert (HFo : forall u g, (u = t /\ In g fs) \/ (u <> t /\ frame_of s u g) -> holds g = true -> f_k g <> k).
      { intros u g HG Hg Ek. destruct HG as [[-> Hin]|[Hne HG]]; [specialize (HRk g Hin); rewrite Ek in HRk; lia|]. destruct (HExcl eq_refl u g HG Hg Ek) as [E1 _]. contradiction. }
      constructor; cbn [s_threads s_locks s_dict s_log].
      * intros u U HU. destruct (thread_set _ _ _ _ _ _ HT HU) as [[-> ->]|[Hne HU']]; [|apply (i_sorted s HI u U HU')]. exact HSort.
      * intros u U g gs HU E. destruct (thread_set _ _ _ _ _ _ HT HU) as [[-> ->]|[Hne HU']]; [|apply (i_below s HI u U g gs HU' E)]. cbn in E. intros h Hh. apply HBel. rewrite E. right. exact Hh.
      * intros u g d HG Hd. apply HF in HG. destruct HG as [[-> Hin]|[_ HG]]; [eapply i_pending; eauto|eapply i_pending; eassumption].
      * intros u g HG Hg. apply HF in HG. rewrite Hrel, upd_neq by (eapply HFo; eassumption). destruct HG as [[-> Hin]|[Hne HG]]; apply i_lock; auto.
      * intros k' u c. rewrite Hrel. destruct (Nat.eq_dec k' k) as [->|Hk]; [rewrite upd_eq; discriminate|]. rewrite upd_neq by exact Hk. intros H.
        destruct (i_owner s HI k' u c H) as (-> & g & HG & Hg & Ek). split; [reflexivity|]. exists g. split; [|auto]. apply HF.
        destruct (HSplit u g HG) as [[-> [->|Hin]]|Hne]; [exfalso; apply Hk; symmetry; exact Ek|left; auto|right; auto].
      * intros u g es HG Hg. apply HF in HG. destruct HG as [[-> Hin]|[Hne HG]]; eapply i_run; eauto.
      * intros u g w HG Hg. apply HF in HG. destruct HG as [[-> Hin]|[Hne HG]]; eapply i_store; eauto.
      * intros u g w HG Hg. apply HF in HG. destruct HG as [[-> Hin]|[Hne HG]]; eapply i_ret; eauto.
      * apply (i_dict s HI).
      * intros o' k' Hd Hno. apply (i_none s HI o' k' Hd). intros u g w HG Ho Hk Hp. apply (Hno u g w); auto. apply HF.
        destruct (HSplit u g HG) as [[-> [->|Hin]]|Hne]; [discriminate|left; auto|right; auto].
      * intros u U o' k' w HU HIn. destruct (thread_set _ _ _ _ _ _ HT HU) as [[-> ->]|[Hne HU']]; [|eapply (i_results s HI); eassumption].
        destruct HIn as [E|HIn]; [inversion E; subst; exact ED|eapply (i_results s HI); eassumption].
    + (* alias: evaluation *)
      injection Hs as <-.
      assert (HF : forall u g, frame_of (mkstate (set_nth t (mkthread fs (t_todo T) (t_results T)) (s_threads s)) (s_locks s) (s_dict s) (s_log s) ((o, k, s_next s) :: s_alias s) (S (s_next s))) u g
          <-> (u = t /\ In g fs) \/ (u <> t /\ frame_of s u g)).
      { intros u g. rewrite (frame_of_set s t T _ u g _ _ _ _ _ _ HT eq_refl). cbn [t_stack In]. intuition. }
      constructor; cbn [s_threads s_locks s_dict s_log].
      * intros u U HU. destruct (thread_set _ _ _ _ _ _ HT HU) as [[-> ->]|[Hne HU']]; [|apply (i_sorted s HI u U HU')]. exact HSort.
      * intros u U g gs HU E. destruct (thread_set _ _ _ _ _ _ HT HU) as [[-> ->]|[Hne HU']]; [|apply (i_below s HI u U g gs HU' E)]. cbn in E. intros h Hh. apply HBel. rewrite E. right. exact Hh.
      * intros u g d HG Hd. apply HF in HG. destruct HG as [[-> Hin]|[_ HG]]; [eapply i_pending; eauto|eapply i_pending; eassumption].
      * intros u g HG Hg. apply HF in HG. destruct HG as [[-> Hin]|[Hne HG]]; apply i_lock; auto.
      * intros k' u c H. destruct (i_owner s HI k' u c H) as (-> & g & HG & Hg & Ek). split; [reflexivity|]. exists g. split; [|auto]. apply HF.
        destruct (HSplit u g HG) as [[-> [->|Hin]]|Hne]; [discriminate|left; auto|right; auto].
      * intros u g es HG Hg. apply HF in HG. destruct HG as [[-> Hin]|[Hne HG]]; eapply i_run; eauto.
      * intros u g w HG Hg. apply HF in HG. destruct HG as [[-> Hin]|[Hne HG]]; eapply i_store; eauto.
      * intros u g w HG Hg. apply HF in HG. destruct HG as [[-> Hin]|[Hne HG]]; eapply i_ret; eauto.
      * apply (i_dict s HI).
      * intros o' k' Hd Hno. apply (i_none s HI o' k' Hd). intros u g w HG Ho Hk Hp. apply (Hno u g w); auto. apply HF.
        destruct (HSplit u g HG) as [[-> [->|Hin]]|Hne]; [discriminate|left; auto|right; auto].
      * intros u U o' k' w HU HIn. destruct (thread_set _ _ _ _ _ _ HT HU) as [[-> ->]|[Hne HU']]; [cbn in HIn; eapply (i_results s HI); eassumption|eapply (i_results s HI); eassumption].
    + (* alias: read a dependency *)
      injection Hs as <-.
      assert (HF : forall u g, frame_of (with_thread s t (mkthread (mkframe o d PWait :: mkframe o k (PAlias ds) :: fs) (t_todo T) (t_results T))) u g
          <-> (u = t /\ (g = mkframe o d PWait \/ g = mkframe o k (PAlias ds) \/ In g fs)) \/ (u <> t /\ frame_of s u g)).
      { intros u g. unfold with_thread. rewrite (frame_of_set s t T _ u g _ _ _ _ _ _ HT eq_refl). cbn [t_stack In]. intuition. }
      assert (Hd : rank d < rank k) by (apply (i_pending s HI t f d HFt); left; reflexivity).
      constructor; cbn [with_thread s_threads s_locks s_dict s_log].
      * intros u U HU. destruct (thread_set _ _ _ _ _ _ HT HU) as [[-> ->]|[Hne HU']]; [|apply (i_sorted s HI u U HU')]. cbn [t_stack].
        constructor; [constructor; [exact HSort|]|]; apply Forall_forall; intros g Hg; [exact (HRk g Hg)|]. unfold below. cbn [f_k]. destruct Hg as [<-|Hg]; [exact Hd|specialize (HRk g Hg); lia].
      * intros u U g gs HU E. destruct (thread_set _ _ _ _ _ _ HT HU) as [[-> ->]|[Hne HU']]; [|apply (i_below s HI u U g gs HU' E)].
        inversion E; subst. intros h [<-|Hh]; [exact I|apply HBel; exact Hh].
      * intros u g e HG He. apply HF in HG. destruct HG as [[-> [->|[->|Hin]]]|[_ HG]]; [destruct He| |eapply i_pending; eauto|eapply i_pending; eassumption].
        apply (i_pending s HI t f e HFt). right. exact He.
      * intros u g HG Hg. apply HF in HG. destruct HG as [[-> [->|[->|Hin]]]|[Hne HG]]; [discriminate|discriminate|apply i_lock; auto|apply i_lock; auto].
      * intros k' u c H. destruct (i_owner s HI k' u c H) as (-> & g & HG & Hg & Ek). split; [reflexivity|].
        destruct (HSplit u g HG) as [[-> [->|Hin]]|Hne]; [discriminate|exists g|exists g]; (split; [apply HF|auto]); auto.
      * intros u g es HG Hg. apply HF in HG. destruct HG as [[-> [->|[->|Hin]]]|[_ HG]]; [discriminate|discriminate|eapply i_run; eauto|eapply i_run; eassumption].
      * intros u g w HG Hg. apply HF in HG. destruct HG as [[-> [->|[->|Hin]]]|[_ HG]]; [discriminate|discriminate|eapply i_store; eauto|eapply i_store; eassumption].
      * intros u g w HG Hg. apply HF in HG. destruct HG as [[-> [->|[->|Hin]]]|[_ HG]]; [discriminate|discriminate|eapply i_ret; eauto|eapply i_ret; eassumption].
      * apply (i_dict s HI).
      * intros o' k' He Hno. apply (i_none s HI o' k' He). intros u g w HG Ho Hk Hp. apply (Hno u g w); auto. apply HF.
        destruct (HSplit u g HG) as [[-> [->|Hin]]|Hne]; [discriminate|left; auto|right; auto].
      * intros u U o' k' w HU HIn. destruct (thread_set _ _ _ _ _ _ HT HU) as [[-> ->]|[Hne HU']]; [cbn in HIn; eapply (i_results s HI); eassumption|eapply (i_results s HI); eassumption].
Qed.

Lemma run_inv sched : forall s, inv s -> inv (run plan s sched).
Proof.
  induction sched as [|t sched IH]; intros s HI; [exact HI|]. cbn [run]. apply IH. destruct (step plan s t) as [s'|] eqn:E; [eapply step_inv; eassumption|exact HI].
Qed.
End Inv.

(** ** Progress *)
Section Progress.
Variable plan : nat -> nat -> list nat.
Variable rank : nat -> nat.
Hypothesis acyclic : forall o k d, In d (plan o k) -> rank d < rank k.

(** A thread that cannot step although it has something to do waits for a lock held
    by another thread. *)
Lemma blocked s t T : nth_error (s_threads s) t = Some T -> ~ finished T -> step plan s t = None ->
  exists o k fs u c, t_stack T = mkframe o k PWait :: fs /\ s_locks s k = Some (u, c) /\ u <> t.
Proof.
  intros HT HN Hs. unfold step in Hs. rewrite HT in Hs. destruct (t_stack T) as [|[o k ph] fs] eqn:ES.
  - destruct (t_todo T) as [|[]] eqn:ET; [|discriminate|discriminate]. exfalso. apply HN. split; assumption.
  - destruct ph as [| |[|d ds]|v|v|[|d ds]]; try discriminate; [|destruct (s_dict s o k); discriminate].
    unfold acquire in Hs. destruct (s_locks s k) as [[u c]|] eqn:EL; [|discriminate]. destruct (Nat.eqb_spec u t) as [->|Hne]; [discriminate|].
    exists o, k, fs, u, c. auto.
Qed.

Lemma progress s : inv rank s -> (exists t T, nth_error (s_threads s) t = Some T /\ ~ finished T) -> exists t, step plan s t <> None.
Proof.
  intros HI (t & T & HT & HN).
  (* by induction on the rank of the lock waited for *)
  assert (H : forall r u U, nth_error (s_threads s) u = Some U -> ~ finished U ->
     (match t_stack U with f :: _ => rank (f_k f) < r | [] => True end) -> exists t', step plan s t' <> None).
  { induction r as [r IH] using lt_wf_ind. intros u U HU HNU Hr. destruct (step plan s u) as [s'|] eqn:E; [exists u; congruence|].
    destruct (blocked s u U HU HNU E) as (o & k & fs & w & c & ES & EL & Hne). rewrite ES in Hr. cbn [f_k] in Hr.
    destruct (i_owner rank s HI k w c EL) as (_ & g & (W & HW & Hin) & Hg & Ek).
    destruct (step plan s w) as [s'|] eqn:E2; [exists w; congruence|].
    assert (HNW : ~ finished W) by (intros [E1 _]; rewrite E1 in Hin; destruct Hin).
    destruct (blocked s w W HW HNW E2) as (o2 & k2 & fs2 & w2 & c2 & ES2 & EL2 & Hne2).
    apply (IH (rank k) Hr w W HW HNW). rewrite ES2 in Hin |- *. cbn [f_k]. destruct Hin as [<-|Hin]; [discriminate Hg|].
    rewrite <- Ek. exact (same_thread_ranks rank s w W HI HW (mkframe o2 k2 PWait) g fs2 ES2 Hin). }
  destruct (t_stack T) as [|f fs] eqn:ES; [apply (H 0 t T HT HN); rewrite ES; exact I|apply (H (S (rank (f_k f))) t T HT HN); rewrite ES; lia].
Qed.

(** ** Bounded work *)
Fixpoint w (fuel o k : nat) : nat :=
  match fuel with
  | 0 => 0
  | S f => 7 + list_sum (map (fun d => S (w f o d)) (plan o k))
  end.
Definition W (o k : nat) : nat := w (S (rank k)) o k.

Lemma list_sum_ext {A} (f g : A -> nat) l : (forall x, In x l -> f x = g x) -> list_sum (map f l) = list_sum (map g l).
Proof. intros H. f_equal. apply map_ext_in. exact H. Qed.

Lemma w_stable o : forall f1 f2 k, rank k < f1 -> rank k < f2 -> w f1 o k = w f2 o k.
Proof.
  induction f1 as [|f1 IH]; intros [|f2] k H1 H2; try lia. cbn [w]. do 1 f_equal. apply list_sum_ext. intros d Hd.
  pose proof (acyclic o k d Hd). f_equal. apply IH; lia.
Qed.
Definition deps_cost (o : nat) (ds : list nat) : nat := list_sum (map (fun d => S (W o d)) ds).
Lemma W_eq o k : W o k = 7 + deps_cost o (plan o k).
Proof.
  unfold W. cbn [w]. unfold deps_cost. f_equal. apply list_sum_ext. intros d Hd. f_equal. unfold W. apply w_stable; [|lia].
  exact (acyclic o k d Hd).
Qed.

Definition frame_cost (f : frame) : nat :=
  match f_ph f with
  | PWait => W (f_o f) (f_k f)
  | PCheck => W (f_o f) (f_k f) - 1
  | PRun ds => 3 + deps_cost (f_o f) ds
  | PStore _ => 2
  | PRet _ => 1
  | PAlias ds => 1 + deps_cost (f_o f) ds
  end.
Definition request_cost (r : request) : nat :=
  match r with RProp o k => S (W o k) | RAlias o k => S (W o k) end.
Definition thread_cost (T : thread) : nat := list_sum (map frame_cost (t_stack T)) + list_sum (map request_cost (t_todo T)).
Definition cost (s : state) : nat := list_sum (map thread_cost (s_threads s)).

Lemma ls_cons a l : list_sum (a :: l) = a + list_sum l.
Proof. reflexivity. Qed.
Lemma ls_nil : list_sum [] = 0.
Proof. reflexivity. Qed.
Lemma set_nth_sum t T T' l : nth_error l t = Some T ->
  list_sum (map thread_cost (set_nth t T' l)) + thread_cost T = list_sum (map thread_cost l) + thread_cost T'.
Proof.
  revert t; induction l as [|x l IH]; intros [|t] H; cbn [nth_error set_nth map] in *; try discriminate; rewrite ?ls_cons; [inversion H; subst; lia|]. specialize (IH t H). lia.
Qed.

Lemma step_cost s t s' : step plan s t = Some s' -> cost s' < cost s.
Proof.
  intros Hs. unfold step in Hs. destruct (nth_error (s_threads s) t) as [T|] eqn:HT; [|discriminate].
  assert (H : forall T' threads locks dict log al nx, threads = set_nth t T' (s_threads s) -> thread_cost T' < thread_cost T -> cost (mkstate threads locks dict log al nx) < cost s).
  { intros T' threads locks dict log al nx -> Hlt. unfold cost. cbn [s_threads]. pose proof (set_nth_sum t T T' (s_threads s) HT). lia. }
  destruct (t_stack T) as [|[o k ph] fs] eqn:ES.
  - destruct (t_todo T) as [|[o k|o k] todo] eqn:ET; [discriminate| |]; injection Hs as <-; (eapply H; [reflexivity|]); unfold thread_cost; rewrite ES, ET; cbn [t_stack t_todo map]; rewrite ?ls_cons, ?ls_nil; unfold frame_cost, request_cost; cbn [f_ph f_o f_k]; pose proof (W_eq o k); lia.
  - pose proof (W_eq o k) as HW.
    destruct ph as [| |[|d ds]|v|v|[|d ds]].
    + destruct (acquire t k (s_locks s)); [|discriminate]. injection Hs as <-. eapply H; [reflexivity|]. unfold thread_cost; rewrite ES; cbn [t_stack t_todo map]; rewrite ?ls_cons, ?ls_nil; unfold frame_cost; cbn [f_ph f_o f_k]. lia.
    + destruct (s_dict s o k); injection Hs as <-; (eapply H; [reflexivity|]); unfold thread_cost; rewrite ES; cbn [t_stack t_todo map]; rewrite ?ls_cons, ?ls_nil; unfold frame_cost; cbn [f_ph f_o f_k]; lia.
    + injection Hs as <-. eapply H; [reflexivity|]. unfold thread_cost; rewrite ES; cbn [t_stack t_todo map]; rewrite ?ls_cons, ?ls_nil; unfold frame_cost; cbn [f_ph f_o f_k]. unfold deps_cost. cbn [map]. rewrite ls_nil. lia.
    + injection Hs as <-. eapply H; [reflexivity|]. unfold thread_cost; rewrite ES; cbn [t_stack t_todo map]; rewrite ?ls_cons, ?ls_nil; unfold frame_cost; cbn [f_ph f_o f_k]. unfold deps_cost. cbn [map]. rewrite ?ls_cons. lia.
    + injection Hs as <-. eapply H; [reflexivity|]. unfold thread_cost; rewrite ES; cbn [t_stack t_todo map]; rewrite ?ls_cons, ?ls_nil; unfold frame_cost; cbn [f_ph f_o f_k]. lia.
    + injection Hs as <-. eapply H; [reflexivity|]. unfold thread_cost; rewrite ES; cbn [t_stack t_todo map]; rewrite ?ls_cons, ?ls_nil; unfold frame_cost; cbn [f_ph f_o f_k]. lia.
    + injection Hs as <-. eapply H; [reflexivity|]. unfold thread_cost; rewrite ES; cbn [t_stack t_todo map]; rewrite ?ls_cons, ?ls_nil; unfold frame_cost; cbn [f_ph f_o f_k]. lia.
    + injection Hs as <-. eapply H; [reflexivity|]. unfold thread_cost; rewrite ES; cbn [t_stack t_todo map]; rewrite ?ls_cons, ?ls_nil; unfold frame_cost; cbn [f_ph f_o f_k]. unfold deps_cost. cbn [map]. rewrite ?ls_cons. lia.
Qed.

Lemma effective_bound sched : forall s, effective plan s sched <= cost s.
Proof.
  induction sched as [|t sched IH]; intros s; cbn [effective]; [lia|]. destruct (step plan s t) as [s'|] eqn:E; [|apply IH].
  pose proof (step_cost s t s' E). specialize (IH s'). lia.
Qed.
End Progress.

(** ** The cached properties of MarkovChain *)
Fixpoint depth (fuel k : nat) : nat :=
  match fuel with 0 => 0 | S f => S (list_max (map (depth f) (mc_reads k))) end.
Definition mc_rank (k : nat) : nat := depth 12 k.

Lemma mc_acyclic k d : In d (mc_reads k) -> mc_rank d < mc_rank k.
Proof.
  intros H. assert (Hk : k < 51).
  { do 51 (destruct k as [|k]; [lia|]). destruct H. }
  assert (E : forallb (fun k => forallb (fun d => Nat.ltb (mc_rank d) (mc_rank k)) (mc_reads k)) (seq 0 51) = true) by (vm_compute; reflexivity).
  rewrite forallb_forall in E. specialize (E k ltac:(apply in_seq; lia)). rewrite forallb_forall in E. apply Nat.ltb_lt. apply E. exact H.
Qed.

Lemma plan_acyclic plan : mc_plan plan -> forall o k d, In d (plan o k) -> mc_rank d < mc_rank k.
Proof. intros H o k d Hd. apply mc_acyclic. exact (H o k d Hd). Qed.

Lemma cached_once plan requests sched : mc_plan plan -> let s := run plan (start requests) sched in
  forall o k, length (evals (s_log s) o k) <= 1 /\ forall v, completed s o k v -> evals (s_log s) o k = [v].
Proof.
  intros HP s o k. assert (HI : inv mc_rank s) by (apply run_inv; [apply plan_acyclic; exact HP|apply inv_start]).
  assert (HC : forall v, completed s o k v -> evals (s_log s) o k = [v]).
  { intros v (t & T & HT & HIn). apply (i_dict _ _ HI). eapply (i_results _ _ HI); eassumption. }
  split; [|exact HC]. destruct (s_dict s o k) as [v|] eqn:ED; [rewrite (i_dict _ _ HI o k v ED); cbn; lia|].
  (* either some thread is about to store it, or nothing was evaluated *)
  destruct (evals (s_log s) o k) as [|x l] eqn:EE; [cbn; lia|].
  assert (HX : exists t f v, frame_of s t f /\ f_o f = o /\ f_k f = k /\ f_ph f = PStore v).
  { set (hit := fun f : frame => Nat.eqb (f_o f) o && Nat.eqb (f_k f) k && match f_ph f with PStore _ => true | _ => false end).
    destruct (existsb (fun T => existsb hit (t_stack T)) (s_threads s)) eqn:EX.
    - apply existsb_exists in EX. destruct EX as (T & HT & HX). apply existsb_exists in HX. destruct HX as (f & Hf & Hh). apply In_nth_error in HT. destruct HT as (t & HT).
      unfold hit in Hh. apply andb_true_iff in Hh. destruct Hh as [Hh Hp]. apply andb_true_iff in Hh. destruct Hh as [Ho Hk]. apply Nat.eqb_eq in Ho, Hk.
      destruct (f_ph f) as [| | |v| |] eqn:Ep; try discriminate. exists t, f, v. repeat split; auto. exists T. auto.
    - exfalso. assert (EN : evals (s_log s) o k = []); [|congruence]. apply (i_none _ _ HI o k ED). intros t f v (T & HT & Hf) Ho Hk Hp.
      assert (EX' : existsb (fun T => existsb hit (t_stack T)) (s_threads s) = true); [|congruence].
      apply existsb_exists. exists T. split; [eapply nth_error_In; exact HT|]. apply existsb_exists. exists f. split; [exact Hf|]. unfold hit. rewrite Hp, Ho, Hk, !Nat.eqb_refl. reflexivity. }
  destruct HX as (t & f & v & HF & Ho & Hk & Hp). destruct (i_store _ _ HI t f v HF Hp) as [_ E]. rewrite Ho, Hk, EE in E. rewrite E. cbn. lia.
Qed.

Lemma no_deadlock plan requests sched : mc_plan plan -> let s := run plan (start requests) sched in
  (forall t T, nth_error (s_threads s) t = Some T -> finished T) \/ exists t, step plan s t <> None.
Proof.
  intros HP s. assert (HI : inv mc_rank s) by (apply run_inv; [apply plan_acyclic; exact HP|apply inv_start]).
  assert (HD : forall T, {finished T} + {~ finished T}).
  { intros T. unfold finished. destruct (t_stack T); [destruct (t_todo T); [left; auto|right; intros [_ H]; discriminate]|right; intros [H _]; discriminate]. }
  destruct (forallb (fun T => if HD T then true else false) (s_threads s)) eqn:E.
  - left. intros t T HT. rewrite forallb_forall in E. specialize (E T (nth_error_In _ _ HT)). destruct (HD T); [assumption|discriminate].
  - right. apply (progress plan mc_rank); [exact HI|]. assert (HX : exists T, In T (s_threads s) /\ ~ finished T).
    { clear -E. induction (s_threads s) as [|T l IH]; [discriminate|]. cbn [forallb] in E. destruct (HD T) as [F|F]; [|exists T; split; [left; reflexivity|exact F]].
      destruct (IH E) as (U & HU & HF). exists U. split; [right; exact HU|exact HF]. }
    destruct HX as (T & HT & HF). apply In_nth_error in HT. destruct HT as (t & HT). exists t, T. auto.
Qed.

Lemma reads_bounded plan requests : mc_plan plan -> exists N, forall sched, effective plan (start requests) sched <= N.
Proof. intros HP. exists (cost plan mc_rank (start requests)). intros sched. apply effective_bound. apply plan_acyclic; exact HP. Qed.

(** Through an alias the function is evaluated again. *)
Lemma alias_again : exists requests sched, let s := run (fun _ => mc_reads) (start requests) sched in
  length (evals (s_alias s) 0 42) = 2 /\ evals (s_log s) 0 42 = [].
Proof. exists [[RAlias 0 42; RAlias 0 42]], (repeat 0 200). vm_compute. split; reflexivity. Qed.
