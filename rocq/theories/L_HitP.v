(** L_HitP: hitting probabilities. *)
From Verif Require Export S_Nnls L_Hit.
Open Scope nat_scope.

Lemma nth_map_default {A B} (f : A -> B) l k d d' : k < length l -> nth k (map f l) d' = f (nth k l d).
Proof. intros H. rewrite (nth_indep _ d' (f d)) by (rewrite map_length; exact H). apply map_nth. Qed.
Lemma nth_repeat_lt {A} (a d : A) n i : i < n -> nth i (repeat a n) d = a.
Proof. intros H. rewrite (nth_indep _ d a) by (rewrite repeat_length; exact H). apply nth_repeat. Qed.
Section BLK.
Variables (P : mat) (N : list nat).
Definition blk_a : mat := msub (mix P N N) (eye (length N)).
Lemma blk_wf : 0 < length N -> wf (length N) (length N) blk_a.
Proof. intros H. apply wf_msub; [exact H|apply wf_mix]. Qed.
Lemma blk_get i j : i < length N -> j < length N -> mget blk_a i j = (mget P (nth i N 0%nat) (nth j N 0%nat) - delta i j)%Qc.
Proof.
  intros Hi Hj. unfold blk_a. rewrite (mget_msub (length N) (length N)); [|apply wf_mix|exact Hi|exact Hj].
  rewrite mget_mix, mget_eye by assumption. reflexivity.
Qed.
Lemma blk_sum (x : nat -> Qc) i : i < length N ->
  sumn (length N) (fun j => mget blk_a i j * x j)%Qc = (sumn (length N) (fun j => mget P (nth i N 0%nat) (nth j N 0%nat) * x j) - x i)%Qc.
Proof.
  intros Hi. rewrite (sumn_ext _ _ (fun j => mget P (nth i N 0%nat) (nth j N 0%nat) * x j - delta i j * x j)%Qc) by (intros j Hj; rewrite blk_get by assumption; ring).
  rewrite sumn_minus. f_equal. f_equal. rewrite (sumn_single _ _ i Hi); [rewrite delta_refl; ring|]. intros j _ Ne. rewrite delta_neq by congruence. ring.
Qed.
Lemma blk_mv x i : 0 < length N -> i < length N ->
  vget (mvmul blk_a x) i = (sumn (length N) (fun j => mget P (nth i N 0%nat) (nth j N 0%nat) * vget x j) - vget x i)%Qc.
Proof. intros H Hi. rewrite (vget_mvmul (length N) (length N)); [|apply blk_wf; exact H|exact Hi]. apply (blk_sum (vget x) i Hi). Qed.
End BLK.

Lemma neg_target n P T i : NoDup T -> (forall x, In x T -> x < n) ->
  lsum (map (fun j => - mget P i j)%Qc T) = (- sumn n (fun j => if memn j T then mget P i j else 0))%Qc.
Proof.
  intros ND Lt. rewrite <- (sumn_nth_lsum T (fun j => - mget P i j)%Qc).
  rewrite <- (sumn_block n T (fun j => if memn j T then mget P i j else 0q) ND Lt).
  - rewrite (sumn_ext (length T) (fun k => if memn (nth k T 0) T then mget P i (nth k T 0) else 0q) (fun k => mget P i (nth k T 0))).
    + rewrite (sumn_ext _ _ (fun k => (- (1)) * mget P i (nth k T 0%nat))%Qc) by (intros; ring). rewrite sumn_mul_l. ring.
    + intros k Hk. rewrite (proj2 (memn_In _ T)) by (apply nth_In; exact Hk). reflexivity.
  - intros j _ Nj. apply memn_false in Nj. rewrite Nj. reflexivity.
Qed.

Definition nontarget (n : nat) (T : list nat) : list nat := filter (fun i => negb (memn i T)) (seq 0 n).
Lemma nontarget_in n T i : In i (nontarget n T) <-> i < n /\ ~ In i T.
Proof.
  unfold nontarget. rewrite filter_In, in_seq, negb_true_iff. split.
  - intros [H1 H2]. split; [lia|apply memn_false; exact H2].
  - intros [H1 H2]. split; [lia|apply memn_false; exact H2].
Qed.
Lemma nontarget_nd n T : NoDup (nontarget n T).
Proof. apply NoDup_filter, seq_NoDup. Qed.
Lemma sum_split_T n T (f : nat -> Qc) : sumn n f = (sumn n (fun j => if memn j T then f j else 0) + sumn (length (nontarget n T)) (fun k => f (nth k (nontarget n T) 0%nat)))%Qc.
Proof.
  rewrite (sumn_ext _ (fun k => f (nth k (nontarget n T) 0)) (fun k => (fun j => if memn j T then 0q else f j) (nth k (nontarget n T) 0))).
  - rewrite (sumn_block n (nontarget n T) (fun j => if memn j T then 0q else f j) (nontarget_nd n T)).
    + rewrite <- sumn_plus. apply sumn_ext. intros j _. destruct (memn j T); ring.
    + intros x Ix. apply nontarget_in in Ix. apply Ix.
    + intros j Hj Nj. destruct (memn j T) eqn:E; [reflexivity|]. exfalso. apply Nj, nontarget_in. split; [exact Hj|apply memn_false; exact E].
  - intros k Hk. cbv beta. pose proof (nth_In (nontarget n T) 0 Hk) as I. apply nontarget_in in I. rewrite (proj2 (memn_false _ T)) by apply I. reflexivity.
Qed.

Section HP.
Variables (n : nat) (P : mat) (T : list nat) (h : nat -> Qc).
Hypothesis St : stochastic n P.
Hypothesis ND : NoDup T.
Hypothesis Lt : forall x, In x T -> x < n.
Hypothesis Th : forall i, i < n -> tends (fun k => hit_by n P T k i) (h i).
Hypothesis H1 : forall i, In i T -> h i = 1q.
Hypothesis Hh : forall i, i < n -> ~ In i T -> h i = sumn n (fun j => mget P i j * h j)%Qc.
Hypothesis H01 : forall i, i < n -> (0 <= h i <= 1)%Qc.
Let N := nontarget n T.
Lemma hp_eq i : i < n -> ~ In i T -> h i = (sumn n (fun j => if memn j T then mget P i j else 0) + sumn (length N) (fun k => mget P i (nth k N 0%nat) * h (nth k N 0%nat)))%Qc.
Proof.
  intros Hi Ni. rewrite (Hh i Hi Ni), (sum_split_T n T). f_equal. apply sumn_ext. intros j Hj. destruct (memn j T) eqn:E; [|reflexivity].
  rewrite H1 by (apply memn_In; exact E). ring.
Qed.
Definition hp_b : vec := map (fun i => lsum (map (fun j => - mget P i j)%Qc T)) N.
Lemma hp_b_get k : k < length N -> vget hp_b k = (- sumn n (fun j => if memn j T then mget P (nth k N 0%nat) j else 0))%Qc.
Proof.
  intros Hk. unfold hp_b, vget. rewrite (nth_map_default _ _ k 0 0q) by exact Hk. apply neg_target; assumption.
Qed.
Lemma hp_h_solves : 0 < length N -> mvmul (blk_a P N) (map h N) = hp_b.
Proof.
  intros HN. apply (vec_ext _ _ (length N)); [apply (length_mvmul (length N) (length N)), blk_wf; exact HN|apply map_length|].
  intros k Hk. rewrite blk_mv, hp_b_get by assumption. pose proof (nth_In N 0 Hk) as I. apply nontarget_in in I.
  assert (G : forall l, l < length N -> vget (map h N) l = h (nth l N 0)) by (intros l Hl; unfold vget; apply nth_map_default; exact Hl).
  rewrite (G k Hk), (hp_eq (nth k N 0)) by apply I. rewrite (sumn_ext _ _ (fun l => mget P (nth k N 0%nat) (nth l N 0%nat) * h (nth l N 0%nat))%Qc) by (intros l Hl; rewrite G by exact Hl; reflexivity).
  ring.
Qed.
Lemma hp_ge x : 0 < length N -> length x = length N -> (forall i, i < length N -> (0 <= vget x i)%Qc) -> mvmul (blk_a P N) x = hp_b ->
  forall k, k < length N -> (h (nth k N 0%nat) <= vget x k)%Qc.
Proof.
  intros HN Lx X0 E.
  assert (NDN : NoDup N) by apply nontarget_nd.
  set (X := fun i => match index_of Nat.eqb i N with Some a => vget x a | None => 1q end).
  assert (XN : forall k, k < length N -> X (nth k N 0) = vget x k) by (intros k Hk; unfold X; rewrite index_of_nat_nth by assumption; reflexivity).
  assert (XT : forall i, In i T -> X i = 1q).
  { intros i Ii. unfold X. rewrite (proj2 (index_of_None Nat.eqb Nat_eqb_iff i N)); [reflexivity|]. intros F. apply nontarget_in in F. apply (proj2 F Ii). }
  assert (nt : forall i, i < n -> ~ In i T -> exists k, k < length N /\ nth k N 0 = i).
  { intros i Hi Ni. assert (I : In i N) by (apply nontarget_in; auto). destruct (In_nth N i 0 I) as (k & Hk & Ek). exists k. auto. }
  intros k Hk. rewrite <- (XN k Hk). pose proof (nth_In N 0 Hk) as I. apply nontarget_in in I. destruct I as [Li Ni].
  apply (tends_le _ _ _ (Th _ Li)). intros t. apply (hit_minimal n P T St); [| | |exact Li].
  - intros i Hi. destruct (memn i T) eqn:Em; [rewrite XT by (apply memn_In; exact Em); discriminate|]. apply memn_false in Em.
    destruct (nt i Hi Em) as (c & Hc & <-). rewrite XN by exact Hc. apply X0. exact Hc.
  - intros i Ii. rewrite XT by exact Ii. apply Qcle_refl.
  - intros i Hi Em. destruct (nt i Hi Em) as (c & Hc & Ec). rewrite (sum_split_T n T). fold N.
    assert (Ev : vget (mvmul (blk_a P N) x) c = vget hp_b c) by (rewrite E; reflexivity). rewrite blk_mv, hp_b_get, Ec in Ev by assumption.
    replace (X i) with (vget x c) by (rewrite <- Ec; symmetry; apply XN; exact Hc).
    rewrite (sumn_ext n (fun j => if memn j T then (mget P i j * X j)%Qc else 0q) (fun j => if memn j T then mget P i j else 0q)).
    + rewrite (sumn_ext _ (fun k => mget P i (nth k N 0%nat) * X (nth k N 0%nat))%Qc (fun k => mget P i (nth k N 0%nat) * vget x k)%Qc) by (intros l Hl; rewrite XN by exact Hl; reflexivity).
      qclra.
    + intros j Hj. destruct (memn j T) eqn:Ej; [|reflexivity]. rewrite XT by (apply memn_In; exact Ej). ring.
Qed.
Lemma hp_diff x : 0 < length N -> length x = length N -> mvmul (blk_a P N) x = hp_b ->
  forall r, r < length N -> sumn (length N) (fun i => mget (blk_a P N) r i * (vget x i - h (nth i N 0%nat)))%Qc = 0q.
Proof.
  intros HN Lx E r Hr.
  assert (A1 : sumn (length N) (fun i => mget (blk_a P N) r i * vget x i)%Qc = vget hp_b r).
  { rewrite <- E, (vget_mvmul (length N) (length N)); [reflexivity|apply blk_wf; exact HN|exact Hr]. }
  assert (A2 : sumn (length N) (fun i => mget (blk_a P N) r i * h (nth i N 0%nat))%Qc = vget hp_b r).
  { rewrite <- (hp_h_solves HN), (vget_mvmul (length N) (length N)); [|apply blk_wf; exact HN|exact Hr]. apply sumn_ext. intros i Hi. f_equal. unfold vget. symmetry. apply nth_map_default. exact Hi. }
  rewrite (sumn_ext _ _ (fun i => mget (blk_a P N) r i * vget x i - mget (blk_a P N) r i * h (nth i N 0%nat))%Qc) by (intros; ring).
  rewrite sumn_minus, A1, A2. ring.
Qed.
Lemma hp_result nnls x : (0 < length N -> nnls (blk_a P N) hp_b = Ok x /\ forall k, k < length N -> vget x k = h (nth k N 0%nat)) ->
  exists hp, hitting_probabilities nnls P T = Ok hp /\ length hp = n /\ forall i, i < n -> vget hp i = h i.
Proof.
  intros Hx. unfold hitting_probabilities. assert (En : nrows P = n) by (apply (wf_nrows n n); apply St). rewrite En. fold (nontarget n T). fold N.
  destruct (Nat.eqb_spec (length N) 0) as [E|E].
  - exists (repeat 1q n). split; [reflexivity|]. split; [apply repeat_length|]. intros i Hi. unfold vget. rewrite nth_repeat_lt by exact Hi.
    destruct (memn i T) eqn:Em; [symmetry; apply H1, memn_In, Em|]. exfalso. assert (I : In i N) by (apply nontarget_in; split; [exact Hi|apply memn_false; exact Em]).
    destruct N; [contradiction|discriminate].
  - destruct (Hx ltac:(lia)) as (Ex & Vx).
    change (msub (mix P N N) (eye (length N))) with (blk_a P N). change (map (fun i => lsum (map (fun j => (- mget P i j)%Qc) T)) N) with hp_b. rewrite Ex. cbn [bind].
    eexists. split; [reflexivity|]. split; [apply tab_length|]. intros i Hi. rewrite vget_tab by exact Hi.
    destruct (memn i T) eqn:Em.
    + rewrite (proj2 (index_of_None Nat.eqb Nat_eqb_iff i N)); [symmetry; apply H1, memn_In, Em|]. intros F. apply nontarget_in in F. apply memn_In in Em. apply (proj2 F Em).
    + assert (I : In i N) by (apply nontarget_in; split; [exact Hi|apply memn_false; exact Em]). destruct (In_nth N i 0 I) as (k & Hk & <-).
      rewrite index_of_nat_nth; [apply Vx; exact Hk|apply nontarget_nd|exact Hk].
Qed.
End HP.

Lemma blk_zero n P N (z : nat -> Qc) : stochastic n P -> NoDup N -> (forall x, In x N -> x < n) ->
  (forall i, In i N -> exists b, ~ In b N /\ reach n (edge P) i b) ->
  (forall r, r < length N -> sumn (length N) (fun i => mget (blk_a P N) r i * z i)%Qc = 0q) -> forall i, i < length N -> z i = 0q.
Proof.
  intros St ND Lt Out H i Hi. apply (tends_unique (fun _ => z i)); [apply tends_const|].
  pose proof (block_tends n P N (fun _ => 0q) (fun _ => 0q) (fun _ => ext N z) St ND Lt Out) as B. rewrite <- (ext_nth N ND z i Hi). apply B; [| |exact Hi].
  - intros k _. rewrite sumn_0; [ring|]. intros; ring.
  - intros _ a Ia. destruct (In_nth N a 0 Ia) as (r & Hr & <-). specialize (H r Hr). rewrite blk_sum in H by exact Hr.
    rewrite (ext_nth N ND z r Hr). rewrite (sumn_ext n _ (fun j => mget P (nth r N 0%nat) j * ext N z j)%Qc).
    + rewrite (ext_sum n P N ND Lt z). qclra.
    + intros j _. destruct (memn j N) eqn:E; [reflexivity|]. rewrite ext_out by (apply memn_false; exact E). ring.
Qed.

Lemma hitting_probabilities_spec nnls n P T : nnls_basic nnls -> stochastic n P -> NoDup T -> (forall x, In x T -> x < n) ->
  exists hp, hitting_probabilities nnls P T = Ok hp /\ length hp = n /\ forall i, i < n -> tends (fun k => hit_by n P T k i) (vget hp i).
Proof.
  intros NN St ND Lt. destruct (hit_limit n P T St Lt) as (h & Th & H1 & Hh & H01 & _). set (N := nontarget n T).
  assert (X : exists x, 0 < length N -> nnls (blk_a P N) (hp_b n P T) = Ok x /\ forall k, k < length N -> vget x k = h (nth k N 0%nat)).
  { destruct (Nat.eq_dec (length N) 0) as [E|E]; [exists []; lia|]. assert (L0 : 0 < length N) by lia.
    destruct (NN (length N) (length N) (blk_a P N) (hp_b n P T) L0 (blk_wf P N L0) (map_length _ _)) as (x & Ex & Lx & X0 & Mx & Ind).
    { exists (map h N). split; [apply map_length|]. split; [|apply hp_h_solves; assumption]. intros i Hi. unfold vget. rewrite (nth_map_default h N i 0 0q) by exact Hi.
      apply H01. pose proof (nth_In N 0 Hi) as I. apply nontarget_in in I. apply I. }
    exists x. intros _. split; [exact Ex|]. intros k Hk.
    pose proof (hp_ge n P T h St ND Lt Th x L0 Lx X0 Mx) as Ge. pose proof (hp_diff n P T h ND Lt H1 Hh x L0 Lx Mx) as Df.
    assert (Z : (vget x k - h (nth k N 0%nat))%Qc = 0q); [|qclra]. apply (Ind (fun i => vget x i - h (nth i N 0%nat))%Qc); [|exact Df|exact Hk].
    intros i Hi E0. specialize (Ge i Hi). fold N in Ge. rewrite E0 in *. pose proof (nth_In N 0 Hi) as I. apply nontarget_in in I. pose proof (proj1 (H01 _ (proj1 I))). qclra. }
  destruct X as (x & Hx). destruct (hp_result n P T h St H1 nnls x Hx) as (hp & E & L & V).
  exists hp. split; [exact E|]. split; [exact L|]. intros i Hi. rewrite (V i Hi). apply Th. exact Hi.
Qed.
(** Without the assumption on the chosen columns: when every state leads to a target. *)
Lemma hitting_probabilities_ok nnls n P T : nnls_ok nnls -> stochastic n P -> NoDup T -> (forall x, In x T -> x < n) ->
  (forall i, i < n -> exists b, In b T /\ reach n (edge P) i b) ->
  exists hp, hitting_probabilities nnls P T = Ok hp /\ length hp = n /\ forall i, i < n -> tends (fun k => hit_by n P T k i) (vget hp i).
Proof.
  intros NN St ND Lt R. destruct (hit_limit n P T St Lt) as (h & Th & H1 & Hh & H01 & _). set (N := nontarget n T).
  assert (X : exists x, 0 < length N -> nnls (blk_a P N) (hp_b n P T) = Ok x /\ forall k, k < length N -> vget x k = h (nth k N 0%nat)).
  { destruct (Nat.eq_dec (length N) 0) as [E|E]; [exists []; lia|]. assert (L0 : 0 < length N) by lia.
    destruct (NN (length N) (length N) (blk_a P N) (hp_b n P T) L0 (blk_wf P N L0) (map_length _ _)) as (x & Ex & Lx & X0 & Mx).
    { exists (map h N). split; [apply map_length|]. split; [|apply hp_h_solves; assumption]. intros i Hi. unfold vget. rewrite (nth_map_default h N i 0 0q) by exact Hi.
      apply H01. pose proof (nth_In N 0 Hi) as I. apply nontarget_in in I. apply I. }
    exists x. intros _. split; [exact Ex|]. intros k Hk.
    assert (Z : (vget x k - h (nth k N 0%nat))%Qc = 0q); [|qclra].
    apply (blk_zero n P N (fun i => vget x i - h (nth i N 0%nat))%Qc St (nontarget_nd n T)); [| | |exact Hk].
    - intros y Iy. apply nontarget_in in Iy. apply Iy.
    - intros i Ii. apply nontarget_in in Ii. destruct (R i (proj1 Ii)) as (b & Ib & Rb). exists b. split; [|exact Rb]. intros F. apply nontarget_in in F. apply (proj2 F Ib).
    - apply (hp_diff n P T h ND Lt H1 Hh x L0 Lx Mx). }
  destruct X as (x & Hx). destruct (hp_result n P T h St H1 nnls x Hx) as (hp & E & L & V).
  exists hp. split; [exact E|]. split; [exact L|]. intros i Hi. rewrite (V i Hi). apply Th. exact Hi.
Qed.
