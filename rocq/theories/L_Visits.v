(** L_Visits: expected numbers of visits. *)
From Verif Require Export L_HitT.
Open Scope nat_scope.

Section VIS.
Variables (n : nat) (P : mat) (j : nat).
Hypothesis St : stochastic n P.
Hypothesis Hj : j < n.
Definition recb (i : nat) : bool := forallb (fun y => negb (reachb P i y) || reachb P y i) (seq 0 n).
Lemma recb_spec i : i < n -> recb i = true <-> forall y, reach n (edge P) i y -> reach n (edge P) y i.
Proof.
  intros Hi. assert (W : wf n n P) by apply St. unfold recb. rewrite forallb_forall. split.
  - intros H y R. destruct (reach_lt n (edge P) i y R) as [_ Hy]. specialize (H y ltac:(apply in_seq; lia)). apply orb_true_iff in H. destruct H as [H|H].
    + apply negb_true_iff in H. apply (reachb_spec n P i y W Hi Hy) in R. congruence.
    + apply (reachb_spec n P y i W Hy Hi). exact H.
  - intros H y Iy. apply in_seq in Iy. destruct (reachb P i y) eqn:E; [|reflexivity]. cbn. apply (reachb_spec n P y i W); [lia|exact Hi|]. apply H. apply (reachb_spec n P i y W); [exact Hi|lia|exact E].
Qed.
Lemma rec_step i x : i < n -> x < n -> recb i = true -> (0 < mget P i x)%Qc -> recb x = true /\ reach n (edge P) x i.
Proof.
  intros Hi Hx R L. pose proof (proj1 (recb_spec i Hi) R) as Ri. assert (Rx : reach n (edge P) x i) by (apply Ri, reach_step; assumption). split; [|exact Rx].
  apply recb_spec; [exact Hx|]. intros y Ry. apply (reach_trans n (edge P) y i x); [|apply reach_step; assumption]. apply Ri. apply (reach_trans n (edge P) i x y); [apply reach_step; assumption|exact Ry].
Qed.
Lemma rec_reach i x : i < n -> recb i = true -> reach n (edge P) i x -> recb x = true /\ reach n (edge P) x i.
Proof.
  intros Hi R Rx. destruct (reach_lt n (edge P) i x Rx) as [_ Hx]. pose proof (proj1 (recb_spec i Hi) R) as Ri. split; [|apply Ri; exact Rx].
  apply recb_spec; [exact Hx|]. intros y Ry. apply (reach_trans n (edge P) y i x); [|exact Rx]. apply Ri. apply (reach_trans n (edge P) i x y); assumption.
Qed.
Lemma trans_out i : i < n -> negb (recb i) = true -> exists b, negb (recb b) = false /\ reach n (edge P) i b.
Proof.
  intros Hi _. destruct (essential_exists n P i ltac:(apply St) Hi) as (x & Rx & Ex). exists x. split; [|exact Rx]. apply negb_false_iff, recb_spec; [apply (reach_lt n (edge P) i x Rx)|exact Ex].
Qed.

(** The kernel of the code's linear system. *)
Definition kerK (i k : nat) : Qc := if recb i then 0q else if Nat.eqb k j then 0q else mget P i k.
Lemma kerK_pos i k : i < n -> k < n -> (0 <= kerK i k)%Qc.
Proof. intros Hi Hk. unfold kerK. destruct (recb i); [apply Qcle_refl|]. destruct (Nat.eqb k j); [apply Qcle_refl|apply St; assumption]. Qed.
Lemma kerK_le i k : i < n -> k < n -> (kerK i k <= mget P i k)%Qc.
Proof. intros Hi Hk. unfold kerK. destruct (recb i); [apply St; assumption|]. destruct (Nat.eqb k j); [apply St; assumption|apply Qcle_refl]. Qed.
Lemma kerK_sub i : i < n -> (sumn n (kerK i) <= 1)%Qc.
Proof. intros Hi. rewrite <- (st_row n P i St Hi). apply sumn_le. intros k Hk. apply kerK_le; assumption. Qed.
Lemma kerK_leak i : i < n -> exists x, x < n /\ reach n (fun a b => (0 < kerK a b)%Qc) i x /\ (sumn n (kerK x) < 1)%Qc.
Proof.
  intros Hi. destruct (essential_exists n P i ltac:(apply St) Hi) as (b & (k & W) & Eb). revert Eb.
  assert (Z : forall x, recb x = true -> (sumn n (kerK x) < 1)%Qc) by (intros x E; rewrite sumn_0; [reflexivity|]; intros y _; unfold kerK; rewrite E; reflexivity).
  induction W as [i Hi'|k i c b Hi' Hc He W IH]; intros Eb.
  - exists i. split; [exact Hi|]. split; [exists 0; constructor; exact Hi|]. apply Z, recb_spec; assumption.
  - destruct (recb i) eqn:Er; [exists i; split; [exact Hi|]; split; [exists 0; constructor; exact Hi|apply Z; exact Er]|].
    destruct (Nat.eqb_spec c j) as [->|Ne].
    + exists i. split; [exact Hi|]. split; [exists 0; constructor; exact Hi|]. rewrite <- (st_row n P i St Hi). apply (sumn_lt n _ _ j Hj); [|intros; apply kerK_le; assumption].
      unfold kerK. rewrite Er, Nat.eqb_refl. exact He.
    + destruct (IH Hc Eb) as (x & Hx & (l & R) & L). exists x. split; [exact Hx|]. split; [|exact L]. exists (S l). apply walk_cons with c; try assumption.
      unfold kerK. rewrite Er. destruct (Nat.eqb_spec c j); [contradiction|exact He].
Qed.

(** ** First return probabilities *)
Lemma return_hit k x : x <> j -> return_by n P k x j = hit_by n P [j] k x.
Proof.
  intros N. unfold return_by, hit_by. apply prob_paths_ext. intros w _. cbn [avoids forallb memn existsb]. destruct (Nat.eqb_spec x j); [contradiction|]. reflexivity.
Qed.
Lemma return_step k i : return_by n P (S k) i j = sumn n (fun x => mget P i x * hit_by n P [j] k x)%Qc.
Proof. unfold return_by, hit_by. rewrite prob_paths_S. reflexivity. Qed.
Section F.
Variable h : nat -> Qc.
Hypothesis Th : forall i, i < n -> tends (fun k => hit_by n P [j] k i) (h i).
Hypothesis H1 : forall i, In i [j] -> h i = 1q.
Hypothesis H01 : forall i, i < n -> (0 <= h i <= 1)%Qc.
Hypothesis Hpos : forall i, i < n -> (0 < h i)%Qc <-> exists b, In b [j] /\ reach n (edge P) i b.
Definition fret (i : nat) : Qc := sumn n (fun x => mget P i x * h x)%Qc.
Lemma fret_tends i : tends (fun k => return_by n P k i j) (fret i).
Proof.
  apply tends_shift. eapply tends_ext; [intros k; symmetry; apply return_step|]. apply tends_sumn with (f := fun k x => (mget P i x * hit_by n P [j] k x)%Qc).
  intros x Hx. apply tends_mul_l. apply Th. exact Hx.
Qed.
Lemma fret_h x : x < n -> x <> j -> fret x = h x.
Proof. intros Hx N. apply (tends_unique _ _ _ (fret_tends x)). eapply tends_ext; [intros k; symmetry; apply return_hit; exact N|apply Th; exact Hx]. Qed.
Lemma fret_eq i : fret i = (mget P i j + sumn n (fun x => if Nat.eqb x j then 0 else mget P i x * fret x))%Qc.
Proof.
  unfold fret at 1. replace (mget P i j) with (sumn n (fun x => if Nat.eqb x j then mget P i x else 0q)).
  - rewrite <- sumn_plus. apply sumn_ext. intros x Hx. destruct (Nat.eqb_spec x j) as [->|N]; [rewrite H1 by (left; reflexivity); ring|rewrite fret_h by assumption; ring].
  - rewrite (sumn_single n _ j Hj); [rewrite Nat.eqb_refl; reflexivity|]. intros x _ N. destruct (Nat.eqb_spec x j); [contradiction|reflexivity].
Qed.
Lemma fret_nonneg i : i < n -> (0 <= fret i)%Qc.
Proof. intros Hi. unfold fret. apply sumn_nonneg. intros x Hx. apply Qc_mul_nonneg; [apply St; assumption|apply H01; exact Hx]. Qed.
Lemma fret_le_1 i : i < n -> (fret i <= 1)%Qc.
Proof.
  intros Hi. rewrite <- (st_row n P i St Hi). apply sumn_le. intros x Hx. rewrite <- (Qcmult_1_r (mget P i x)) at 2. rewrite !(Qcmult_comm (mget P i x)).
  apply Qcmult_le_compat_r; [apply H01; exact Hx|apply St; assumption].
Qed.
(** zero: j is never entered *)
Lemma fret_zero i : i < n -> fret i = 0q -> forall t, kstep n P (S t) i j = 0q.
Proof.
  intros Hi E t. destruct (Qcle_lt_or_eq _ _ (kstep_nonneg n P (S t) ltac:(apply St) i j Hi Hj)) as [L|L]; [exfalso|symmetry; exact L].
  apply (kstep_walk n P (S t) ltac:(apply St) i j Hi Hj) in L. inversion L as [|k a c b Ha Hc He W]; subst.
  assert (G : (0 < h c)%Qc) by (apply Hpos; [exact Hc|]; exists j; split; [left; reflexivity|exists t; exact W]).
  assert (F : (0 < fret i)%Qc).
  { unfold fret. apply (sumn_pos n _ c Hc); [apply Qc_mul_pos; assumption|]. intros x Hx. apply Qc_mul_nonneg; [apply St; assumption|apply H01; exact Hx]. }
  rewrite E in F. exact (Qclt_not_eq _ _ F eq_refl).
Qed.
Lemma fret_not_reach i : i < n -> ~ reach n (edge P) i j -> fret i = 0q.
Proof.
  intros Hi N. unfold fret. apply sumn_0. intros x Hx. destruct (Qcle_lt_or_eq _ _ (proj1 (proj2 St) i x Hi Hx)) as [L|L]; [|rewrite <- L; ring].
  destruct (Qcle_lt_or_eq _ _ (proj1 (H01 x Hx))) as [Lh|Lh]; [|rewrite <- Lh; ring]. exfalso. apply Hpos in Lh; [|exact Hx]. destruct Lh as (b & [<-|[]] & R).
  apply N. apply (reach_trans n (edge P) i x j); [apply reach_step; assumption|exact R].
Qed.
(** recurrent states of the class of j return surely *)
Lemma fret_rec i : i < n -> recb i = true -> reach n (edge P) i j -> fret i = 1q.
Proof.
  intros Hi R Rij. destruct (rec_reach i j Hi R Rij) as [Rj Rji].
  assert (Hc : forall x, x < n -> reach n (edge P) j x -> h x = 1q).
  { intros x Hx Rx. destruct (Nat.eq_dec x j) as [->|N]; [apply H1; left; reflexivity|].
    set (inn := fun y => reachb P j y && negb (Nat.eqb y j)). assert (W : wf n n P) by apply St.
    assert (T0 : tends (fun k => never_by n P [j] k x) 0q).
    { apply (exit_tends n P inn St) with (b := fun _ => 0q) (x := fun _ => 0q) (f := never_by n P [j]); [| | |exact Hx|].
      - intros y Hy Ey. apply andb_true_iff in Ey. destruct Ey as [Ey _]. exists j. split; [unfold inn; rewrite Nat.eqb_refl; apply andb_false_r|].
        apply (rec_reach j y Hj Rj). apply (reachb_spec n P j y W Hj Hy). exact Ey.
      - intros y _ _. rewrite sumn_0; [ring|]. intros z _. destruct (inn z); ring.
      - intros k y Hy Ey. apply andb_true_iff in Ey. destruct Ey as [Ey1 Ey2]. apply (reachb_spec n P j y W Hj Hy) in Ey1. apply negb_true_iff, Nat.eqb_neq in Ey2.
        rewrite never_S by (cbn [memn existsb]; destruct (Nat.eqb_spec y j); [contradiction|reflexivity]). rewrite Qcplus_0_l. apply sumn_ext. intros z Hz. unfold inn.
        destruct (Nat.eqb_spec z j) as [->|Nz]; [rewrite andb_false_r, never_in by (cbn [memn existsb]; rewrite Nat.eqb_refl; reflexivity); ring|].
        destruct (reachb P j z) eqn:Ez; [reflexivity|]. destruct (Qcle_lt_or_eq _ _ (proj1 (proj2 St) y z Hy Hz)) as [L|L]; [exfalso|rewrite <- L; cbn [andb]; ring].
        assert (F : reachb P j z = true) by (apply (reachb_spec n P j z W Hj Hz); apply (reach_trans n (edge P) j y z); [exact Ey1|apply reach_step; assumption]). congruence.
      - unfold inn. rewrite (proj2 (reachb_spec n P j x W Hj Hx) Rx). destruct (Nat.eqb_spec x j); [contradiction|reflexivity]. }
    apply (tends_unique (fun k => hit_by n P [j] k x)); [apply Th; exact Hx|]. replace 1q with (1 - 0)%Qc by ring.
    eapply tends_ext; [|apply tends_minus; [apply (tends_const 1q)|exact T0]]. intros k. cbv beta. pose proof (hit_never n P [j] St k x Hx) as E. rewrite <- E. ring. }
  rewrite <- (st_row n P i St Hi). unfold fret. apply sumn_ext. intros x Hx. destruct (Qcle_lt_or_eq _ _ (proj1 (proj2 St) i x Hi Hx)) as [L|L]; [|rewrite <- L; ring].
  rewrite Hc; [ring|exact Hx|]. apply (reach_trans n (edge P) j i x); [exact Rji|apply reach_step; assumption].
Qed.
Lemma fret_transient : recb j = false -> (fret j < 1)%Qc.
Proof.
  intros R. destruct (Qcle_lt_or_eq _ _ (fret_le_1 j Hj)) as [L|E]; [exact L|exfalso].
  assert (Z : forall i, i < n -> recb i = true -> fret i = 0q).
  { intros i Hi Ri. apply fret_not_reach; [exact Hi|]. intros Rij. destruct (rec_reach i j Hi Ri Rij). congruence. }
  assert (F : forall i, i < n -> fret i = 0q).
  { apply (leak_zero n (exitk P (fun i => negb (recb i))) (exitk_pos n P _ St) (exitk_sub n P _ St) (exitk_leak n P _ St trans_out)). intros i Hi. unfold exitk.
    destruct (recb i) eqn:Ri; cbn [negb andb].
    - rewrite (Z i Hi Ri). symmetry. apply sumn_0. intros; ring.
    - rewrite fret_eq. replace (mget P i j) with (sumn n (fun x => if Nat.eqb x j then mget P i x else 0q)).
      + rewrite <- sumn_plus. apply sumn_ext. intros x Hx. destruct (Nat.eqb_spec x j) as [->|N]; [rewrite R; cbn [negb]; rewrite E; ring|].
        destruct (recb x) eqn:Rx; cbn [negb]; [rewrite (Z x Hx Rx)|]; ring.
      + rewrite (sumn_single n _ j Hj); [rewrite Nat.eqb_refl; reflexivity|]. intros x _ N. destruct (Nat.eqb_spec x j); [contradiction|reflexivity]. }
  rewrite (F j Hj) in E. discriminate.
Qed.

(** ** Numbers of visits *)
Lemma kstep_1 i : i < n -> kstep n P 1 i j = mget P i j.
Proof.
  intros Hi. rewrite kstep_S. rewrite (sumn_single n _ j Hj); [rewrite kstep_0, delta_refl; ring|]. intros x _ N. rewrite kstep_0, delta_neq by exact N. ring.
Qed.
Lemma visits_after_S k i : i < n -> visits_after n P (S k) i j = (mget P i j + sumn n (fun x => mget P i x * visits_after n P k x j))%Qc.
Proof.
  intros Hi. unfold visits_after. rewrite sumn_S_front, kstep_1 by exact Hi. f_equal.
  rewrite (sumn_ext k _ (fun t => sumn n (fun x => mget P i x * kstep n P (S t) x j)%Qc)) by (intros; apply kstep_S).
  rewrite sumn_swap. apply sumn_ext. intros x _. apply sumn_mul_l.
Qed.
Lemma visits_zero i : i < n -> fret i = 0q -> forall k, visits_after n P k i j = 0q.
Proof. intros Hi E k. unfold visits_after. apply sumn_0. intros t _. apply fret_zero; assumption. Qed.
Lemma visits_nonneg k i : i < n -> (0 <= visits_after n P k i j)%Qc.
Proof. intros Hi. unfold visits_after. apply sumn_nonneg. intros t _. apply kstep_nonneg; [apply St|exact Hi|exact Hj]. Qed.
Lemma visits_finite i : recb j = false -> i < n -> tends (fun k => visits_after n P k i j) (fret i / (1 - fret j))%Qc.
Proof.
  intros R Hi. pose proof (fret_transient R) as Lj.
  assert (Z : forall x, x < n -> recb x = true -> fret x = 0q).
  { intros x Hx Rx. apply fret_not_reach; [exact Hx|]. intros Rxj. destruct (rec_reach x j Hx Rx Rxj). congruence. }
  assert (D : (1 - fret j)%Qc <> 0q) by (intros F; rewrite <- (Qcplus_0_l (fret j)), <- F in Lj; apply (Qclt_not_eq _ _ Lj); ring).
  destruct (recb i) eqn:Ri.
  - rewrite (Z i Hi Ri). replace (0 / (1 - fret j))%Qc with 0q by (field; exact D). eapply tends_ext; [|apply tends_const]. intros k. symmetry. apply visits_zero; [exact Hi|apply Z; assumption].
  - apply (exit_tends n P (fun x => negb (recb x)) St trans_out) with (b := fun a => mget P a j) (x := fun a => (fret a / (1 - fret j))%Qc) (f := fun k a => visits_after n P k a j); [| |exact Hi|rewrite Ri; reflexivity].
    + intros a Ha Ea. rewrite (fret_eq a) at 1.
      assert (E : sumn n (fun x => if negb (recb x) then (mget P a x * (fret x / (1 - fret j)))%Qc else 0q) = ((mget P a j * fret j + sumn n (fun x => if Nat.eqb x j then 0 else mget P a x * fret x)) / (1 - fret j))%Qc).
      { rewrite (sumn_ext n _ (fun x => (if Nat.eqb x j then mget P a x * fret x else 0) * (/ (1 - fret j)) + (if Nat.eqb x j then 0 else mget P a x * fret x) * (/ (1 - fret j)))%Qc).
        - rewrite sumn_plus, !sumn_mul_r. rewrite (sumn_single n (fun x => if Nat.eqb x j then (mget P a x * fret x)%Qc else 0q) j Hj); [rewrite Nat.eqb_refl; field; exact D|].
          intros x _ N. destruct (Nat.eqb_spec x j); [contradiction|reflexivity].
        - intros x Hx. destruct (recb x) eqn:Rx; cbn [negb]; [rewrite (Z x Hx Rx); destruct (Nat.eqb x j); ring|]. destruct (Nat.eqb x j); field; exact D. }
      rewrite E. field. exact D.
    + intros k a Ha Ea. rewrite visits_after_S by exact Ha. f_equal. apply sumn_ext. intros x Hx. destruct (recb x) eqn:Rx; cbn [negb]; [|reflexivity]. rewrite visits_zero; [ring|exact Hx|apply Z; assumption].
Qed.
Lemma visits_add a b i : i < n -> visits_after n P (a + b) i j = (visits_after n P a i j + sumn n (fun y => kstep n P a i y * visits_after n P b y j))%Qc.
Proof.
  intros Hi. unfold visits_after. rewrite sumn_split. f_equal.
  rewrite (sumn_ext b _ (fun t => sumn n (fun y => kstep n P a i y * kstep n P (S t) y j)%Qc)).
  - rewrite sumn_swap. apply sumn_ext. intros y _. apply sumn_mul_l.
  - intros t _. replace (S (a + t)) with (a + S t) by lia. destruct (kstep_add n P a (S t) i j) as [E|F]; [exact E|contradiction].
Qed.
Lemma visits_mono a b i : i < n -> a <= b -> (visits_after n P a i j <= visits_after n P b i j)%Qc.
Proof.
  intros Hi L. replace b with (a + (b - a)) by lia. rewrite visits_add by exact Hi.
  assert (0 <= sumn n (fun y => kstep n P a i y * visits_after n P (b - a) y j))%Qc; [|qclra]. apply sumn_nonneg. intros y Hy. apply Qc_mul_nonneg; [apply kstep_nonneg; [apply St|exact Hi|exact Hy]|apply visits_nonneg; exact Hy].
Qed.
Lemma class_visits : recb j = true -> exists M d, (0 < d)%Qc /\ forall x, x < n -> reach n (edge P) j x -> (d <= visits_after n P M x j)%Qc.
Proof.
  intros R. assert (W : wf n n P) by apply St.
  destruct (bounded_choice n (fun x t => reach n (edge P) j x -> (0 < kstep n P (S t) x j)%Qc)) as (B & HB).
  { intros x Hx. destruct (reachb P j x) eqn:E.
    - apply (reachb_spec n P j x W Hj Hx) in E. destruct (rec_reach j x Hj R E) as [Rx _]. destruct (stochastic_total n P St x Hx) as (c & Hc & Ec).
      assert (Rc : reach n (edge P) c j). { apply (rec_reach j c Hj R). apply (reach_trans n (edge P) j x c); [exact E|apply reach_step; assumption]. }
      destruct Rc as (k & Wk). exists k. intros _. apply (kstep_walk n P (S k) ltac:(apply St) x j Hx Hj). apply walk_cons with c; assumption.
    - exists 0. intros F. apply (reachb_spec n P j x W Hj Hx) in F. congruence. }
  destruct (min_pos n (fun x => if reachb P j x then visits_after n P (S B) x j else 1q)) as (d & D0 & _ & Dd).
  { intros x Hx. destruct (reachb P j x) eqn:E; [|reflexivity]. apply (reachb_spec n P j x W Hj Hx) in E. destruct (HB x Hx) as (t & Lt & Ht). specialize (Ht E).
    unfold visits_after. apply (sumn_pos (S B) _ t ltac:(lia) Ht). intros u _. apply kstep_nonneg; [apply St|exact Hx|exact Hj]. }
  exists (S B), d. split; [exact D0|]. intros x Hx Rx. specialize (Dd x Hx). cbv beta in Dd. rewrite (proj2 (reachb_spec n P j x W Hj Hx) Rx) in Dd. exact Dd.
Qed.
Lemma class_grows : recb j = true -> grows (fun k => visits_after n P k j j).
Proof.
  intros R. destruct (class_visits R) as (M & d & D0 & HM).
  assert (Q : forall q x, x < n -> reach n (edge P) j x -> (Qcn q * d <= visits_after n P (q * M) x j)%Qc).
  { induction q as [|q IH]; intros x Hx Rx; [cbn; rewrite Qcn_0; unfold visits_after; cbn [sumn]; rewrite Qcmult_0_l; apply Qcle_refl|].
    cbn [Nat.mul]. rewrite visits_add by exact Hx. rewrite Qcn_S.
    assert (G : (Qcn q * d <= sumn n (fun y => kstep n P M x y * visits_after n P (q * M) y j))%Qc).
    { replace (Qcn q * d)%Qc with (sumn n (fun y => kstep n P M x y * (Qcn q * d))%Qc).
      - apply sumn_le. intros y Hy. destruct (Qcle_lt_or_eq _ _ (kstep_nonneg n P M ltac:(apply St) x y Hx Hy)) as [L|L]; [|rewrite <- L, !Qcmult_0_l; apply Qcle_refl].
        rewrite !(Qcmult_comm (kstep n P M x y)). apply Qcmult_le_compat_r; [|apply Qclt_le_weak; exact L]. apply IH; [exact Hy|].
        apply (kstep_walk n P M ltac:(apply St) x y Hx Hy) in L. apply (reach_trans n (edge P) j x y); [exact Rx|exists M; exact L].
      - rewrite (sumn_mul_r n (Qcn q * d)%Qc (kstep n P M x)). assert (E : sumn n (kstep n P M x) = 1q) by exact (kstep_sum n P M St x Hx). rewrite E. ring. }
    specialize (HM x Hx Rx). qclra. }
  intros b. destruct (archimedes (b / d)) as (q & Hq). exists (q * M). intros k Hk.
  apply Qclt_le_trans with (Qcn q * d)%Qc.
  - replace b with (b / d * d)%Qc at 1 by (field; apply Qc_lt_neq; exact D0). apply Qcmult_lt_compat_r; assumption.
  - apply Qcle_trans with (visits_after n P (q * M) j j); [apply Q; [exact Hj|apply reach_refl; exact Hj]|apply visits_mono; [exact Hj|exact Hk]].
Qed.
Lemma visits_grow i : recb j = true -> i < n -> fret i <> 0q -> grows (fun k => visits_after n P k i j).
Proof.
  intros R Hi N. assert (W : wf n n P) by apply St.
  assert (Rij : reach n (edge P) i j).
  { destruct (reachb P i j) eqn:E; [apply (reachb_spec n P i j W Hi Hj); exact E|]. exfalso. apply N. apply fret_not_reach; [exact Hi|]. intros F. apply (reachb_spec n P i j W Hi Hj) in F. congruence. }
  destruct Rij as (m & Wm). assert (Lm : (0 < kstep n P m i j)%Qc) by (apply (kstep_walk n P m ltac:(apply St) i j Hi Hj); exact Wm).
  intros b. destruct (class_grows R (b / kstep n P m i j)%Qc) as (N0 & HN). exists (m + N0). intros k Hk. replace k with (m + (k - m)) by lia. rewrite visits_add by exact Hi.
  assert (G : (b < kstep n P m i j * visits_after n P (k - m) j j)%Qc).
  { replace b with (b / kstep n P m i j * kstep n P m i j)%Qc at 1 by (field; apply Qc_lt_neq; exact Lm). rewrite (Qcmult_comm (kstep n P m i j)). apply Qcmult_lt_compat_r; [exact Lm|apply HN; lia]. }
  assert (G2 : (kstep n P m i j * visits_after n P (k - m) j j <= sumn n (fun y => kstep n P m i y * visits_after n P (k - m) y j))%Qc).
  { apply (sumn_term_le n (fun y => (kstep n P m i y * visits_after n P (k - m) y j)%Qc) j Hj). intros y Hy. apply Qc_mul_nonneg; [apply kstep_nonneg; [apply St|exact Hi|exact Hy]|apply visits_nonneg; exact Hy]. }
  pose proof (visits_nonneg m i Hi). qclra.
Qed.
End F.
End VIS.

(** ** The code *)
Lemma closed_state_spec n P comps i : stochastic n P -> scc_enum n (edge P) comps -> i < n ->
  forallb (fun c => negb (memn i c) || forallb (fun a => forallb (fun b => memn b c || negb (Qcltb 0 (mget P a b))) (seq 0 n)) c) (communicating_indices comps) = recb n P i.
Proof.
  intros St Sc Hi. destruct (communicating_listing n (edge P) comps Sc) as ((Pt & Mu) & _ & _). apply eq_true_iff_eq. rewrite (recb_spec n P i St Hi i Hi), forallb_forall.
  destruct (part_cover n _ i Pt Hi) as (C & IC & Ii). split.
  - intros H y (k & W). specialize (H C IC). rewrite (proj2 (memn_In i C) Ii) in H. cbn [negb orb] in H. rewrite forallb_forall in H.
    assert (G : In y C).
    { clear Hi. induction W as [x Hx|k x c y Hx Hc He W IH]; [exact Ii|]. apply IH. specialize (H x Ii). rewrite forallb_forall in H. specialize (H c ltac:(apply in_seq; lia)).
      apply orb_true_iff in H. destruct H as [H|H]; [apply memn_In; exact H|]. apply negb_true_iff in H. apply Qcltb_lt in He. congruence. }
    destruct (Mu C i y IC Ii) as [M1 _]; [apply (part_lt n _ C y Pt IC G)|]. apply M1 in G. apply G.
  - intros H B IB. destruct (memn i B) eqn:E; [|reflexivity]. cbn [negb orb]. apply memn_In in E. apply forallb_forall. intros a Ia. apply forallb_forall. intros b Ib. apply in_seq in Ib.
    destruct (Qcltb 0 (mget P a b)) eqn:L; [|apply orb_true_r]. cbn [negb]. rewrite orb_false_r. apply memn_In. apply Qcltb_lt in L.
    assert (Ha : a < n) by (apply (part_lt n _ B a Pt IB Ia)). destruct (proj1 (Mu B i a IB E Ha) Ia) as [R1 R2].
    apply (Mu B i b IB E ltac:(lia)). assert (Rib : reach n (edge P) i b) by (apply (reach_trans n (edge P) i a b); [exact R1|apply reach_step; [exact Ha|lia|exact L]]).
    split; [exact Rib|apply H; exact Rib].
Qed.
Lemma mnv_hp_spec n m j : env_ok n m -> j < n -> exists x, mnv_hp m j = Ok x /\ length x = n /\
  forall h, (forall i, i < n -> tends (fun k => hit_by n (en_p m) [j] k i) (h i)) ->
    (forall i, In i [j] -> h i = 1q) -> (forall i, i < n -> (0 <= h i <= 1)%Qc) -> (forall i, i < n -> (0 < h i)%Qc <-> exists b, In b [j] /\ reach n (edge (en_p m)) i b) ->
    forall i, i < n -> vget x i = fret n (en_p m) h i.
Proof.
  intros Ok Hj. pose proof Ok as (Hn & St & _ & _ & Nx). pose proof (env_size n m Ok) as Es. unfold mnv_hp. rewrite Es. set (P := en_p m) in *.
  assert (Sc : scc_enum n (edge P) (en_comps m)) by apply Nx. assert (W : wf n n P) by apply St.
  cbv zeta. set (cs := fun i : nat => forallb (fun c => negb (memn i c) || forallb (fun a => forallb (fun b => memn b c || negb (Qcltb 0 (mget P a b))) (seq 0 n)) c) (communicating_indices (en_comps m))).
  assert (Cs : forall i, i < n -> cs i = recb n P i) by (intros i Hi; unfold cs; apply closed_state_spec; assumption).
  set (a := mk n n _). set (b := tab n _).
  assert (Ga : forall (z : nat -> Qc) i, i < n -> sumn n (fun k => mget a i k * z k)%Qc = if recb n P i then z i else (sumn n (fun k => kerK n P j i k * z k) - z i)%Qc).
  { intros z i Hi. unfold a. rewrite (sumn_ext n _ (fun k => (if recb n P i then delta i k else (kerK n P j i k - delta i k)) * z k)%Qc).
    - destruct (recb n P i) eqn:R.
      + rewrite (sumn_single n _ i Hi); [rewrite delta_refl; ring|]. intros k _ N. rewrite delta_neq by congruence. ring.
      + rewrite (sumn_ext n _ (fun k => kerK n P j i k * z k - delta i k * z k)%Qc) by (intros; ring). rewrite sumn_minus. f_equal. f_equal.
        rewrite (sumn_single n _ i Hi); [rewrite delta_refl; ring|]. intros k _ N. rewrite delta_neq by congruence. ring.
    - intros k Hk. rewrite mget_mk by assumption. fold (cs i). rewrite (Cs i Hi). f_equal. unfold kerK. destruct (recb n P i); reflexivity. }
  assert (NS : nonsingular n a).
  { intros z Hz. apply (leak_zero n (kerK n P j) (kerK_pos n P j St) (kerK_sub n P j St) (kerK_leak n P j St Hj)). intros i Hi. specialize (Hz i Hi). rewrite (Ga z i Hi) in Hz.
    destruct (recb n P i) eqn:R; [|qclra]. rewrite Hz. symmetry. apply sumn_0. intros k _. unfold kerK. rewrite R. ring. }
  destruct (solve_vec_complete n a b ltac:(lia) (wf_mk n n _) (tab_length _ _) NS) as (x & Ex). rewrite Ex. exists x. split; [reflexivity|].
  destruct (solve_vec_spec n a b x ltac:(lia) (wf_mk n n _) (tab_length _ _) Ex) as (Lx & _ & Hx). split; [exact Lx|].
  intros h Th H1 H01 Hpos. apply (nonsingular_unique n a _ _ NS). intros i Hi. rewrite (Hx i Hi). rewrite (Ga _ i Hi). unfold b. rewrite vget_tab by exact Hi. fold (cs i). rewrite (Cs i Hi).
  destruct (recb n P i) eqn:R.
  - destruct (communication_get n P (en_comps m) i j W Sc Hi Hj) as [[E M]|[E M]]; rewrite E; cbn [Z.eqb Pos.eqb].
    + symmetry. apply (fret_rec n P j St Hj h Th H1 i Hi R). apply M.
    + symmetry. apply (fret_not_reach n P j St h H01 Hpos i Hi). intros F. apply M. split; [exact F|]. apply (rec_reach n P j St Hj i j Hi R F).
  - rewrite (fret_eq n P j Hj h Th H1 i). rewrite (sumn_ext n (fun k => kerK n P j i k * fret n P h k)%Qc (fun k => if Nat.eqb k j then 0q else (mget P i k * fret n P h k)%Qc)).
    + ring.
    + intros k Hk. unfold kerK. rewrite R. destruct (Nat.eqb k j); ring.
Qed.
Lemma mapM_ok_nth {A B} (f : A -> res B) (l : list A) (Q : A -> B -> Prop) : (forall x, In x l -> exists y, f x = Ok y /\ Q x y) ->
  exists ys, mapM f l = Ok ys /\ length ys = length l /\ forall k d d', k < length l -> Q (nth k l d) (nth k ys d').
Proof.
  induction l as [|x l IH]; intros H; [exists []; repeat split; cbn; lia|]. destruct (H x ltac:(left; reflexivity)) as (y & Ey & Qy). destruct IH as (ys & Eys & Lys & Hys); [intros z Iz; apply H; right; exact Iz|].
  exists (y :: ys). cbn [mapM]. rewrite Ey. cbn [bind]. rewrite Eys. cbn [bind]. split; [reflexivity|]. split; [cbn; rewrite Lys; reflexivity|]. intros [|k] d d' Hk; [exact Qy|]. cbn in *. apply Hys. lia.
Qed.
(** What the entry for i and j says, depending on the probabilities of entering j. *)
Lemma mean_number_visits_spec n m : env_ok n m -> exists M, mean_number_visits m = Ok M /\ length M = n /\ (forall i, i < n -> length (nth i M []) = n) /\
  forall i j, i < n -> j < n -> exists fi fj, tends (fun k => return_by n (en_p m) k i j) fi /\ tends (fun k => return_by n (en_p m) k j j) fj /\
    ((fi = 0q \/ (atol < fi)%Qc) -> (fj = 1q \/ (fj <= 1 - Q2Qc (2 # 100000))%Qc) ->
     match nth j (nth i M []) None with
     | Some v => tends (fun k => visits_after n (en_p m) k i j) v
     | None => grows (fun k => visits_after n (en_p m) k i j)
     end) /\
    nth j (nth i M []) None = if Qcleb fi atol then Some 0q else if isclose fj 1 then None else Some (fi / (1 - fj))%Qc.
Proof.
  intros Ok. pose proof Ok as (Hn & St & _). pose proof (env_size n m Ok) as Es. set (P := en_p m) in *. unfold mean_number_visits. rewrite Es.
  destruct (mapM_ok_nth (mnv_hp m) (seq 0 n) (fun j x => length x = n /\ forall h, (forall i, i < n -> tends (fun k => hit_by n P [j] k i) (h i)) ->
    (forall i, In i [j] -> h i = 1q) -> (forall i, i < n -> (0 <= h i <= 1)%Qc) -> (forall i, i < n -> (0 < h i)%Qc <-> exists b, In b [j] /\ reach n (edge P) i b) ->
    forall i, i < n -> vget x i = fret n P h i)) as (cols & Ec & Lc & Hc).
  { intros j Ij. apply in_seq in Ij. destruct (mnv_hp_spec n m j Ok ltac:(lia)) as (x & Ex & H). exists x. split; [exact Ex|exact H]. }
  rewrite Ec. cbn [bind]. eexists. split; [reflexivity|]. split; [apply tab_length|]. split; [intros i Hi; rewrite tab_nth by exact Hi; apply tab_length|].
  intros i j Hi Hj. destruct (hit_limit n P [j] St) as (h & Th & H1 & _ & H01 & Hpos); [intros x [<-|[]]; exact Hj|].
  assert (V : forall x, x < n -> vget (nth j cols []) x = fret n P h x).
  { intros x Hx. specialize (Hc j 0 [] ltac:(rewrite seq_length; exact Hj)). rewrite seq_nth in Hc by exact Hj. destruct Hc as [_ Hc]. exact (Hc h Th H1 H01 Hpos x Hx). }
  exists (fret n P h i), (fret n P h j). split; [apply (fret_tends n P j h Th)|]. split; [apply (fret_tends n P j h Th)|].
  rewrite (tab_nth n _ [] i Hi), (tab_nth n _ None j Hj), (V i Hi), (V j Hj).
  pose proof (fret_nonneg n P St h H01 i Hi) as F0.
  assert (Ei : isclose (fret n P h i) 0 = Qcleb (fret n P h i) atol).
  { apply eq_true_iff_eq. rewrite Qcleb_le. apply isclose_0_iff. exact F0. }
  rewrite Ei. split.
  - intros Ci Cj. destruct (Qcleb (fret n P h i) atol) eqn:Eb.
    + apply Qcleb_le in Eb. destruct Ci as [Ci|Ci]; [|exfalso; exact (Qclt_not_le _ _ Ci Eb)].
      eapply tends_ext; [|apply tends_const]. intros k. symmetry. apply (visits_zero n P j St Hj h H01 Hpos i Hi Ci).
    + assert (Nz : fret n P h i <> 0q) by (intros E; rewrite E in Eb; vm_compute in Eb; discriminate).
      destruct (recb n P j) eqn:R.
      * assert (E1 : fret n P h j = 1q) by (apply (fret_rec n P j St Hj h Th H1 j Hj R), reach_refl, Hj). rewrite E1, isclose_refl.
        apply (visits_grow n P j St Hj h H01 Hpos i R Hi Nz).
      * pose proof (fret_transient n P j St Hj h Th H1 H01 Hpos R) as Lt. destruct Cj as [Cj|Cj]; [rewrite Cj in Lt; exfalso; exact (Qclt_not_eq _ _ Lt eq_refl)|].
        rewrite (isclose_one_gap _ Cj). replace (fret n P h i * (1 / (1 - fret n P h j)))%Qc with (fret n P h i / (1 - fret n P h j))%Qc by (unfold Qcdiv; ring).
        apply (visits_finite n P j St Hj h Th H1 H01 Hpos i R Hi).
  - destruct (Qcleb (fret n P h i) atol); [reflexivity|]. destruct (isclose (fret n P h j) 1); [reflexivity|]. f_equal. unfold Qcdiv. ring.
Qed.
