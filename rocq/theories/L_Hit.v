(** L_Hit: the probability of ever hitting a set, for an arbitrary chain. *)
From Verif Require Export L_Ergodic.
Open Scope nat_scope.

Section LEAK2.
Variables (n : nat) (Q : nat -> nat -> Qc).
Hypothesis Pos : forall i j, i < n -> j < n -> (0 <= Q i j)%Qc.
Hypothesis Sub : forall i, i < n -> (sumn n (Q i) <= 1)%Qc.
Hypothesis Leak : forall i, i < n -> exists j, j < n /\ reach n (fun a b => (0 < Q a b)%Qc) i j /\ (sumn n (Q j) < 1)%Qc.
Lemma leak_zero (x : nat -> Qc) : (forall i, i < n -> x i = sumn n (fun j => Q i j * x j)%Qc) -> forall i, i < n -> x i = 0q.
Proof.
  intros H i Hi. apply (tends_unique (fun _ => x i)); [apply tends_const|].
  apply (affine_tends n Q Pos Sub Leak (fun _ => 0q) (fun _ => 0q) (fun _ => x)); [| |exact Hi].
  - intros a _. rewrite sumn_0; [ring|]. intros; ring.
  - intros _ a Ha. rewrite (H a Ha) at 1. ring.
Qed.
Lemma leak_nonsingular : nonsingular n (mk n n (fun i j => (delta i j - Q i j)%Qc)).
Proof.
  intros z Hz. apply leak_zero. intros i Hi. specialize (Hz i Hi).
  rewrite (sumn_ext n _ (fun j => delta i j * z j - Q i j * z j)%Qc) in Hz by (intros j Hj; rewrite mget_mk by assumption; ring).
  rewrite sumn_minus in Hz. rewrite (sumn_single n _ i Hi) in Hz.
  - rewrite delta_refl in Hz. qclra.
  - intros j _ N. rewrite delta_neq by congruence. ring.
Qed.
Lemma leak_solve (b : nat -> Qc) : exists x, forall i, i < n -> x i = (b i + sumn n (fun j => Q i j * x j))%Qc.
Proof.
  destruct (Nat.eq_dec n 0) as [E|E]; [exists (fun _ => 0q); lia|].
  destruct (solve_vec_complete n _ (tab n b) ltac:(lia) (wf_mk n n _) (tab_length n b) leak_nonsingular) as (x & Ex).
  destruct (solve_vec_spec n _ _ x ltac:(lia) (wf_mk n n _) (tab_length n b) Ex) as (Lx & _ & H). exists (vget x). intros i Hi. specialize (H i Hi).
  rewrite vget_tab in H by exact Hi.
  rewrite (sumn_ext n _ (fun j => delta i j * vget x j - Q i j * vget x j)%Qc) in H by (intros j Hj; rewrite mget_mk by assumption; ring).
  rewrite sumn_minus in H. rewrite (sumn_single n _ i Hi) in H.
  - rewrite delta_refl in H. rewrite <- H. ring.
  - intros j _ N. rewrite delta_neq by congruence. ring.
Qed.
End LEAK2.

Lemma exit_solve n P inn (b : nat -> Qc) : stochastic n P -> (forall i, i < n -> inn i = true -> exists b, inn b = false /\ reach n (edge P) i b) ->
  exists x, forall i, i < n -> inn i = true -> x i = (b i + sumn n (fun j => if inn j then mget P i j * x j else 0))%Qc.
Proof.
  intros St Out. destruct (leak_solve n (exitk P inn) (exitk_pos n P inn St) (exitk_sub n P inn St) (exitk_leak n P inn St Out) b) as (x & Hx).
  exists x. intros i Hi Ei. rewrite (Hx i Hi). f_equal. apply sumn_ext. intros j _. unfold exitk. rewrite Ei. cbn [andb]. destruct (inn j); ring.
Qed.

Section HITP.
Variables (n : nat) (P : mat) (T : list nat).
Hypothesis St : stochastic n P.
Hypothesis LtT : forall x, In x T -> x < n.
Lemma hit_in k i : i < n -> memn i T = true -> hit_by n P T k i = 1q.
Proof. intros Hi E. pose proof (hit_never n P T St k i Hi) as H. rewrite never_in in H by exact E. rewrite <- H. ring. Qed.
Lemma hit_0 i : memn i T = false -> hit_by n P T 0 i = 0q.
Proof. intros E. unfold hit_by. rewrite prob_paths_0. cbn [avoids forallb]. rewrite E. reflexivity. Qed.
Lemma hit_S k i : memn i T = false -> hit_by n P T (S k) i = sumn n (fun j => mget P i j * hit_by n P T k j)%Qc.
Proof.
  intros E. unfold hit_by. rewrite prob_paths_S. apply sumn_ext. intros j _. f_equal. apply prob_paths_ext.
  intros w _. cbn [avoids forallb]. rewrite E. reflexivity.
Qed.
Lemma hit_nonneg k i : i < n -> (0 <= hit_by n P T k i)%Qc.
Proof. intros Hi. unfold hit_by. apply prob_paths_nonneg; [apply St|exact Hi]. Qed.
Lemma hit_le_1 k i : i < n -> (hit_by n P T k i <= 1)%Qc.
Proof.
  intros Hi. pose proof (hit_never n P T St k i Hi) as H. assert (0 <= never_by n P T k i)%Qc by (unfold never_by; apply prob_paths_nonneg; [apply St|exact Hi]). qclra.
Qed.
Lemma hit_minimal (x : nat -> Qc) : (forall i, i < n -> (0 <= x i)%Qc) -> (forall i, In i T -> (1 <= x i)%Qc) ->
  (forall i, i < n -> ~ In i T -> (sumn n (fun j => mget P i j * x j) <= x i)%Qc) -> forall k i, i < n -> (hit_by n P T k i <= x i)%Qc.
Proof.
  intros P0 H1 H2 k. induction k as [|k IH]; intros i Hi; (destruct (memn i T) eqn:E; [rewrite hit_in by assumption; apply H1, memn_In, E|]).
  - rewrite hit_0 by exact E. apply P0. exact Hi.
  - rewrite hit_S by exact E. apply Qcle_trans with (sumn n (fun j => mget P i j * x j)%Qc); [|apply H2; [exact Hi|apply memn_false; exact E]].
    apply sumn_le. intros j Hj. rewrite !(Qcmult_comm (mget P i j)). apply Qcmult_le_compat_r; [apply IH; exact Hj|apply St; assumption].
Qed.
Lemma hit_mono k : forall i, i < n -> (hit_by n P T k i <= hit_by n P T (S k) i)%Qc.
Proof.
  induction k as [|k IH]; intros i Hi; (destruct (memn i T) eqn:E; [rewrite !hit_in by assumption; apply Qcle_refl|]).
  - rewrite hit_0 by exact E. apply hit_nonneg. exact Hi.
  - rewrite (hit_S k), (hit_S (S k)) by exact E. apply sumn_le. intros j Hj. rewrite !(Qcmult_comm (mget P i j)). apply Qcmult_le_compat_r; [apply IH; exact Hj|apply St; assumption].
Qed.
Lemma hit_mono_le k l i : i < n -> k <= l -> (hit_by n P T k i <= hit_by n P T l i)%Qc.
Proof. intros Hi L. induction L as [|l L IH]; [apply Qcle_refl|]. apply Qcle_trans with (1 := IH). apply hit_mono. exact Hi. Qed.
Lemma hit_walk k i b : walk n (edge P) k i b -> In b T -> (0 < hit_by n P T k i)%Qc.
Proof.
  intros W Ib. induction W as [i Hi|k i c b Hi Hc He W IH].
  - rewrite hit_in; [reflexivity|exact Hi|apply memn_In; exact Ib].
  - destruct (memn i T) eqn:E; [rewrite hit_in by assumption; reflexivity|]. rewrite hit_S by exact E.
    apply (sumn_pos n _ c Hc); [apply Qc_mul_pos; [exact He|apply IH; exact Ib]|].
    intros j Hj. apply Qc_mul_nonneg; [apply St; assumption|apply hit_nonneg; exact Hj].
Qed.
Definition canb (i : nat) : bool := existsb (reachb P i) T.
Lemma canb_spec i : i < n -> canb i = true <-> exists b, In b T /\ reach n (edge P) i b.
Proof.
  intros Hi. unfold canb. rewrite existsb_exists. split; intros (b & Ib & R); exists b; (split; [exact Ib|]); apply (reachb_spec n P i b); auto; apply St.
Qed.
Lemma canb_step i j : i < n -> j < n -> canb i = false -> (0 < mget P i j)%Qc -> canb j = false.
Proof.
  intros Hi Hj E L. destruct (canb j) eqn:Ej; [|reflexivity]. apply (canb_spec j Hj) in Ej. destruct Ej as (b & Ib & (k & W)).
  assert (F : canb i = true) by (apply canb_spec; [exact Hi|]; exists b; split; [exact Ib|]; exists (S k); apply walk_cons with j; assumption). congruence.
Qed.
Lemma canb_in i : i < n -> memn i T = true -> canb i = true.
Proof. intros Hi E. apply canb_spec; [exact Hi|]. exists i. split; [apply memn_In; exact E|]. exists 0. constructor. exact Hi. Qed.
Lemma hit_cannot k : forall i, i < n -> canb i = false -> hit_by n P T k i = 0q.
Proof.
  induction k as [|k IH]; intros i Hi E; (assert (Em : memn i T = false) by (destruct (memn i T) eqn:Em; [rewrite (canb_in i Hi Em) in E; discriminate|reflexivity])).
  - apply hit_0. exact Em.
  - rewrite hit_S by exact Em. apply sumn_0. intros j Hj. destruct (Qcle_lt_or_eq _ _ (proj1 (proj2 St) i j Hi Hj)) as [L|L].
    + rewrite IH; [ring|exact Hj|]. exact (canb_step i j Hi Hj E L).
    + rewrite <- L. ring.
Qed.
(** The limit exists; it is the probability of ever visiting T. *)
Lemma hit_limit : exists h : nat -> Qc,
  (forall i, i < n -> tends (fun k => hit_by n P T k i) (h i)) /\
  (forall i, In i T -> h i = 1q) /\ (forall i, i < n -> ~ In i T -> h i = sumn n (fun j => mget P i j * h j)%Qc) /\
  (forall i, i < n -> (0 <= h i <= 1)%Qc) /\ (forall i, i < n -> (0 < h i)%Qc <-> exists b, In b T /\ reach n (edge P) i b).
Proof.
  set (inn := fun i => canb i && negb (memn i T)).
  assert (Out : forall i, i < n -> inn i = true -> exists b, inn b = false /\ reach n (edge P) i b).
  { intros i Hi E. apply andb_true_iff in E. destruct E as [E _]. apply (canb_spec i Hi) in E. destruct E as (b & Ib & R). exists b. split; [|exact R].
    unfold inn. rewrite (proj2 (memn_In b T) Ib). apply andb_false_r. }
  destruct (exit_solve n P inn (fun i => sumn n (fun j => if memn j T then mget P i j else 0q)) St Out) as (x & Hx).
  set (h := fun i => if memn i T then 1q else if canb i then x i else 0q).
  assert (Th : forall i, i < n -> tends (fun k => hit_by n P T k i) (h i)).
  { intros i Hi. unfold h. destruct (memn i T) eqn:E.
    - eapply tends_ext; [|apply tends_const]. intros k. symmetry. apply hit_in; assumption.
    - destruct (canb i) eqn:Ec.
      + apply (exit_tends n P inn St Out _ x (hit_by n P T) Hx); [|exact Hi|unfold inn; rewrite E, Ec; reflexivity].
        intros k a Ha Ea. apply andb_true_iff in Ea. destruct Ea as [_ Ea]. apply negb_true_iff in Ea. rewrite (hit_S k a Ea), <- sumn_plus.
        apply sumn_ext. intros j Hj. unfold inn. destruct (memn j T) eqn:Ej.
        * rewrite hit_in by assumption. rewrite andb_false_r. ring.
        * destruct (canb j) eqn:Ecj; cbn [andb negb]; [ring|]. rewrite hit_cannot by assumption. ring.
      + eapply tends_ext; [|apply tends_const]. intros k. symmetry. apply hit_cannot; assumption. }
  exists h. split; [exact Th|]. split; [intros i Ii; unfold h; rewrite (proj2 (memn_In i T) Ii); reflexivity|]. split; [|split].
  - intros i Hi Ni. apply memn_false in Ni. apply (tends_unique (fun k => hit_by n P T (S k) i)); [apply (proj1 (tends_shift (fun k => hit_by n P T k i) (h i))); apply Th; exact Hi|].
    eapply tends_ext; [intros k; symmetry; apply hit_S; exact Ni|]. apply tends_sumn with (f := fun k j => (mget P i j * hit_by n P T k j)%Qc). intros j Hj. apply tends_mul_l. apply Th. exact Hj.
  - intros i Hi. split; [apply (tends_ge _ _ _ (Th i Hi)); intros; apply hit_nonneg; exact Hi|apply (tends_le _ _ _ (Th i Hi)); intros; apply hit_le_1; exact Hi].
  - intros i Hi. split.
    + intros L. apply (canb_spec i Hi). destruct (canb i) eqn:E; [reflexivity|]. exfalso. unfold h in L. rewrite E in L.
      destruct (memn i T) eqn:Em; [rewrite (canb_in i Hi Em) in E; discriminate|]. exact (Qclt_not_eq _ _ L eq_refl).
    + intros (b & Ib & (k & W)). apply Qclt_le_trans with (hit_by n P T k i); [exact (hit_walk k i b W Ib)|].
      apply (tends_ge (fun l => hit_by n P T (k + l) i)).
      * intros eps He. destruct (Th i Hi eps He) as (N & HN). exists N. intros l Hl. apply HN. lia.
      * intros l. apply hit_mono_le; [exact Hi|lia].
Qed.
End HITP.
