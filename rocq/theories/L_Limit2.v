(** L_Limit2: passage times, return times, committors, absorption as limits. *)
From Verif Require Export L_Limit.
Open Scope nat_scope.

Section EXIT.
Variables (n : nat) (P : mat) (inn : nat -> bool).
Hypothesis St : stochastic n P.
Hypothesis Out : forall i, i < n -> inn i = true -> exists b, inn b = false /\ reach n (edge P) i b.
Definition exitk (i j : nat) : Qc := if inn i && inn j then mget P i j else 0q.
Lemma exitk_pos i j : i < n -> j < n -> (0 <= exitk i j)%Qc.
Proof. intros Hi Hj. unfold exitk. destruct (inn i && inn j); [apply St; assumption|discriminate]. Qed.
Lemma exitk_le i j : i < n -> j < n -> (exitk i j <= mget P i j)%Qc.
Proof. intros Hi Hj. unfold exitk. destruct (inn i && inn j); [apply Qcle_refl|apply St; assumption]. Qed.
Lemma exitk_sub i : i < n -> (sumn n (exitk i) <= 1)%Qc.
Proof.
  intros Hi. rewrite <- (st_row n P i St Hi). apply sumn_le. intros j Hj. apply exitk_le; assumption.
Qed.
Lemma exitk_leak : forall i, i < n -> exists j, j < n /\ reach n (fun a b => (0 < exitk a b)%Qc) i j /\ (sumn n (exitk j) < 1)%Qc.
Proof.
  assert (Z : forall i, inn i = false -> (sumn n (exitk i) < 1)%Qc).
  { intros i E. rewrite sumn_0; [reflexivity|]. intros j _. unfold exitk. rewrite E. reflexivity. }
  assert (W : forall k i b, walk n (edge P) k i b -> inn b = false -> exists j, j < n /\ reach n (fun a b => (0 < exitk a b)%Qc) i j /\ (sumn n (exitk j) < 1)%Qc).
  { intros k i b H. induction H as [i Hi|k i c b Hi Hc He H IH]; intros E.
    - exists i. split; [exact Hi|]. split; [exists 0; constructor; exact Hi|auto].
    - destruct (inn i) eqn:Ei.
      + destruct (inn c) eqn:Ec.
        * destruct (IH E) as (j & Hj & (l & R) & L). exists j. split; [exact Hj|]. split; [|exact L]. exists (S l).
          apply walk_cons with c; try assumption. unfold exitk. rewrite Ei, Ec. exact He.
        * exists i. split; [exact Hi|]. split; [exists 0; constructor; exact Hi|]. rewrite <- (st_row n P i St Hi).
          apply (sumn_lt n _ _ c Hc); [|intros; apply exitk_le; assumption]. unfold exitk. rewrite Ec, andb_false_r. exact He.
      + exists i. split; [exact Hi|]. split; [exists 0; constructor; exact Hi|auto]. }
  intros i Hi. destruct (inn i) eqn:Ei.
  - destruct (Out i Hi Ei) as (b & Eb & (k & R)). exact (W k i b R Eb).
  - exists i. split; [exact Hi|]. split; [exists 0; constructor; exact Hi|auto].
Qed.
Lemma exit_tends (b x : nat -> Qc) (f : nat -> nat -> Qc) :
  (forall i, i < n -> inn i = true -> x i = (b i + sumn n (fun j => if inn j then mget P i j * x j else 0))%Qc) ->
  (forall k i, i < n -> inn i = true -> f (S k) i = (b i + sumn n (fun j => if inn j then mget P i j * f k j else 0))%Qc) ->
  forall i, i < n -> inn i = true -> tends (fun k => f k i) (x i).
Proof.
  intros Hx Hf i Hi Ei.
  pose proof (affine_tends n exitk exitk_pos exitk_sub exitk_leak (fun a => if inn a then b a else 0q) (fun a => if inn a then x a else 0q)
    (fun k a => if inn a then f k a else 0q)) as T.
  assert (T1 : forall a, a < n -> (if inn a then x a else 0q) = ((if inn a then b a else 0) + sumn n (fun j => exitk a j * (if inn j then x j else 0)))%Qc).
  { intros a Ha. destruct (inn a) eqn:Ea.
    - rewrite (Hx a Ha Ea). f_equal. apply sumn_ext. intros j Hj. unfold exitk. rewrite Ea. cbn [andb]. destruct (inn j); [reflexivity|ring].
    - rewrite sumn_0; [ring|]. intros j _. unfold exitk. rewrite Ea. cbn [andb]. ring. }
  assert (T2 : forall k a, a < n -> (if inn a then f (S k) a else 0q) = ((if inn a then b a else 0) + sumn n (fun j => exitk a j * (if inn j then f k j else 0)))%Qc).
  { intros k a Ha. destruct (inn a) eqn:Ea.
    - rewrite (Hf k a Ha Ea). f_equal. apply sumn_ext. intros j Hj. unfold exitk. rewrite Ea. cbn [andb]. destruct (inn j); [reflexivity|ring].
    - rewrite sumn_0; [ring|]. intros j _. unfold exitk. rewrite Ea. cbn [andb]. ring. }
  specialize (T T1 T2 i Hi). cbv beta in T. rewrite Ei in T. exact T.
Qed.
End EXIT.

(** ** Hitting a set *)
Section HIT.
Variables (n : nat) (P : mat) (T : list nat).
Hypothesis St : stochastic n P.
Lemma prob_paths_0 i c : prob_paths n P 0 i c = if c [] then 1q else 0q.
Proof. unfold prob_paths. cbn. destruct (c []); ring. Qed.
Lemma never_in k i : memn i T = true -> never_by n P T k i = 0q.
Proof.
  intros E. unfold never_by. rewrite (prob_paths_ext n P k i _ (fun _ => false)); [apply prob_paths_false|].
  intros w _. cbn [avoids forallb]. rewrite E. reflexivity.
Qed.
Lemma never_0 i : never_by n P T 0 i = if memn i T then 0q else 1q.
Proof. unfold never_by. rewrite prob_paths_0. cbn [avoids forallb]. destruct (memn i T); reflexivity. Qed.
Lemma never_S k i : memn i T = false -> never_by n P T (S k) i = sumn n (fun j => mget P i j * never_by n P T k j)%Qc.
Proof.
  intros E. unfold never_by. rewrite prob_paths_S. apply sumn_ext. intros j _. f_equal. apply prob_paths_ext.
  intros w _. cbn [avoids forallb]. rewrite E. reflexivity.
Qed.
Lemma hit_never k i : i < n -> (hit_by n P T k i + never_by n P T k i)%Qc = 1q.
Proof.
  intros Hi. unfold hit_by, never_by. rewrite !prob_exp, <- exp_paths_plus.
  rewrite (exp_paths_ext n P k i _ (fun _ => 1q)); [apply exp_paths_const; assumption|].
  intros w _. destruct (avoids T (i :: w)); cbn [negb]; ring.
Qed.
Lemma mean_hit_S k i : memn i T = false -> mean_hit_by n P T (S k) i = (1 + sumn n (fun j => mget P i j * mean_hit_by n P T k j))%Qc.
Proof.
  intros E. unfold mean_hit_by. rewrite sumn_S_front, never_0, E. f_equal.
  rewrite (sumn_ext k _ (fun t => sumn n (fun j => mget P i j * never_by n P T t j)%Qc)) by (intros; apply never_S; exact E).
  rewrite sumn_swap. apply sumn_ext. intros j _. apply sumn_mul_l.
Qed.
Lemma mean_hit_in k i : memn i T = true -> mean_hit_by n P T k i = 0q.
Proof. intros E. unfold mean_hit_by. apply sumn_0. intros; apply never_in; exact E. Qed.
Hypothesis Reach : forall i, i < n -> exists b, In b T /\ reach n (edge P) i b.
Lemma hit_out i : i < n -> negb (memn i T) = true -> exists b, negb (memn b T) = false /\ reach n (edge P) i b.
Proof. intros Hi _. destruct (Reach i Hi) as (b & Ib & R). exists b. split; [|exact R]. rewrite (proj2 (memn_In b T) Ib). reflexivity. Qed.
Lemma never_tends i : i < n -> tends (fun k => never_by n P T k i) 0q.
Proof.
  intros Hi. destruct (memn i T) eqn:E.
  - eapply tends_ext; [|apply tends_const]. intros k. symmetry. apply never_in. exact E.
  - apply (exit_tends n P (fun i => negb (memn i T)) St hit_out (fun _ => 0q) (fun _ => 0q) (never_by n P T)); [| |exact Hi|rewrite E; reflexivity].
    + intros a _ _. rewrite sumn_0; [ring|]. intros j _. destruct (negb (memn j T)); ring.
    + intros k a Ha Ea. apply negb_true_iff in Ea. rewrite (never_S k a Ea), Qcplus_0_l. apply sumn_ext. intros j _.
      destruct (memn j T) eqn:Ej; cbn [negb]; [rewrite never_in by exact Ej; ring|reflexivity].
Qed.
Lemma passage_tends t : passage n P T t -> forall i, i < n -> tends (fun k => mean_hit_by n P T k i) (vget t i).
Proof.
  intros (Lt & Z & E) i Hi. destruct (memn i T) eqn:Ei.
  - rewrite Z by (apply memn_In; exact Ei). eapply tends_ext; [|apply tends_const]. intros k. symmetry. apply mean_hit_in. exact Ei.
  - apply (exit_tends n P (fun i => negb (memn i T)) St hit_out (fun _ => 1q) (vget t) (mean_hit_by n P T)); [| |exact Hi|rewrite Ei; reflexivity].
    + intros a Ha Ea. apply negb_true_iff, memn_false in Ea. rewrite (E a Ha Ea). f_equal. apply sumn_ext. intros j _. destruct (memn j T); reflexivity.
    + intros k a Ha Ea. apply negb_true_iff in Ea. rewrite (mean_hit_S k a Ea). f_equal. apply sumn_ext. intros j _.
      destruct (memn j T) eqn:Ej; cbn [negb]; [rewrite mean_hit_in by exact Ej; ring|reflexivity].
Qed.
End HIT.

Lemma irreducible_reach n P T : irreducible n (edge P) -> T <> [] -> (forall x, In x T -> x < n) -> forall i, i < n -> exists b, In b T /\ reach n (edge P) i b.
Proof. intros I N L i Hi. destruct T as [|b T']; [congruence|]. exists b. split; [left; reflexivity|]. apply I; [exact Hi|apply L; left; reflexivity]. Qed.

Lemma return_S n P k j : mean_return_by n P (S k) j = (1 + sumn n (fun x => mget P j x * mean_hit_by n P [j] k x))%Qc.
Proof.
  unfold mean_return_by, mean_hit_by. rewrite sumn_S_front. rewrite prob_paths_0. cbn [avoids forallb]. f_equal.
  rewrite (sumn_ext k _ (fun t => sumn n (fun x => mget P j x * never_by n P [j] t x)%Qc)).
  - rewrite sumn_swap. apply sumn_ext. intros x _. apply sumn_mul_l.
  - intros t _. rewrite prob_paths_S. reflexivity.
Qed.
Lemma return_tends n P j t : stochastic n P -> irreducible n (edge P) -> j < n -> passage n P [j] t ->
  tends (fun k => mean_return_by n P k j) (1 + sumn n (fun k => if Nat.eqb k j then 0 else mget P j k * vget t k))%Qc.
Proof.
  intros St I Hj Ps. apply tends_shift. eapply tends_ext; [intros k; symmetry; apply return_S|].
  apply tends_plus; [apply tends_const|]. destruct Ps as (L & Z & E).
  rewrite (sumn_ext n (fun k => if Nat.eqb k j then 0q else (mget P j k * vget t k)%Qc) (fun k => mget P j k * vget t k)%Qc).
  - apply (tends_sumn n (fun k x => mget P j x * mean_hit_by n P [j] k x)%Qc (fun k => mget P j k * vget t k)%Qc).
    intros x Hx. apply tends_mul_l. apply (passage_tends n P [j] St); [|split; [exact L|split; assumption]|exact Hx].
    apply irreducible_reach; [exact I|discriminate|]. intros y [<-|[]]. exact Hj.
  - intros k Hk. destruct (Nat.eqb_spec k j) as [->|]; [|reflexivity]. rewrite Z by (left; reflexivity). ring.
Qed.

(** ** Reaching one set before another *)
Section BEFORE.
Variables (n : nat) (P : mat) (A B : list nat).
Hypothesis St : stochastic n P.
Hypothesis Dis : forall x, In x A -> ~ In x B.
Let inn i := negb (memn i A || memn i B).
Lemma before_A k i : memn i A = true -> before_by n P A B k i = 0q.
Proof.
  intros E. unfold before_by. rewrite (prob_paths_ext n P k i _ (fun _ => false)); [apply prob_paths_false|].
  intros w _. cbn [first_in]. rewrite E. reflexivity.
Qed.
Lemma before_B k i : i < n -> memn i A = false -> memn i B = true -> before_by n P A B k i = 1q.
Proof.
  intros Hi EA EB. unfold before_by. rewrite prob_exp, (exp_paths_ext n P k i _ (fun _ => 1q)); [apply exp_paths_const; assumption|].
  intros w _. cbn [first_in]. rewrite EA, EB. reflexivity.
Qed.
Lemma before_S k i : inn i = true -> before_by n P A B (S k) i = sumn n (fun j => mget P i j * before_by n P A B k j)%Qc.
Proof.
  intros E. unfold inn in E. apply negb_true_iff, orb_false_iff in E. destruct E as [EA EB].
  unfold before_by. rewrite prob_paths_S. apply sumn_ext. intros j _. f_equal. apply prob_paths_ext.
  intros w _. cbn [first_in]. rewrite EA, EB. reflexivity.
Qed.
Hypothesis Reach : forall i, i < n -> exists b, In b (A ++ B) /\ reach n (edge P) i b.
Lemma before_tends x : committor n (mget P) A B x -> forall i, i < n -> tends (fun k => before_by n P A B k i) (vget x i).
Proof.
  intros (L & ZA & ZB & E) i Hi. destruct (memn i A) eqn:EA.
  { rewrite ZA by (apply memn_In; exact EA). eapply tends_ext; [|apply tends_const]. intros k. symmetry. apply before_A. exact EA. }
  destruct (memn i B) eqn:EB.
  { rewrite ZB by (apply memn_In; exact EB). eapply tends_ext; [|apply tends_const]. intros k. symmetry. apply before_B; assumption. }
  assert (bx : forall j k, j < n -> inn j = false -> before_by n P A B k j = vget x j).
  { intros j k Hj Ej. unfold inn in Ej. apply negb_false_iff, orb_true_iff in Ej. destruct (memn j A) eqn:EjA.
    - rewrite before_A by exact EjA. symmetry. apply ZA. apply memn_In. exact EjA.
    - destruct Ej as [|EjB]; [discriminate|]. rewrite before_B by assumption. symmetry. apply ZB. apply memn_In. exact EjB. }
  apply (exit_tends n P inn St) with (b := fun a => sumn n (fun j => if inn j then 0q else (mget P a j * vget x j)%Qc)) (x := vget x); [| | |exact Hi|].
  - intros a Ha _. destruct (Reach a Ha) as (b & Ib & R). exists b. split; [|exact R]. unfold inn. apply negb_false_iff, orb_true_iff.
    apply in_app_iff in Ib. destruct Ib as [Ib|Ib]; [left|right]; apply memn_In; exact Ib.
  - intros a Ha Ea. unfold inn in Ea. apply negb_true_iff, orb_false_iff in Ea. destruct Ea as [Ea1 Ea2].
    rewrite (E a Ha) by (apply memn_false; assumption). rewrite <- sumn_plus. apply sumn_ext. intros j _. destruct (inn j); ring.
  - intros k a Ha Ea. rewrite (before_S k a Ea), <- sumn_plus. apply sumn_ext. intros j Hj. destruct (inn j) eqn:Ej; [ring|].
    rewrite bx by assumption. ring.
  - unfold inn. rewrite EA, EB. reflexivity.
Qed.
End BEFORE.
