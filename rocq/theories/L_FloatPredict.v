(** L_FloatPredict: rounding does not change predictions, but can hide them. *)
From Coq Require Import Reals Lra Lia List ZArith Bool.
From Flocq Require Import Core.
From Verif Require Import Fl M_Float S_Float L_Float1 L_FloatRed M_FloatPredict S_FloatPredict.
Import ListNotations.
Local Open Scope R_scope.

Lemma last_from {A} (r : list A) : forall s c, last (s :: r) c = last r s.
Proof. induction r as [|a r IH]; intros s c; [reflexivity|]. change (last (s :: a :: r) c) with (last (a :: r) c). now rewrite !IH. Qed.
Lemma fold_Rmax l : forall a, a <= fold_left Rmax l a /\ (forall x, In x l -> x <= fold_left Rmax l a) /\
  (fold_left Rmax l a = a \/ In (fold_left Rmax l a) l).
Proof.
  induction l as [|b l IH]; intros a; cbn [fold_left]; [repeat split; [lra|intros x []|now left]|].
  destruct (IH (Rmax a b)) as (A & B & C). pose proof (Rmax_l a b). pose proof (Rmax_r a b).
  split; [lra|]. split; [intros x [<-|X]; [lra|now apply B]|].
  destruct C as [C|C]; [|right; right; exact C]. rewrite C. unfold Rmax. destruct (Rle_dec a b); [right; now left|now left].
Qed.
Lemma f_max_spec n d : (1 <= n)%nat -> (forall j, (j < n)%nat -> d j <= f_max n d) /\ exists j, (j < n)%nat /\ d j = f_max n d.
Proof.
  intros N. unfold f_max. destruct (fold_Rmax (map d (seq 1 (n - 1))) (d 0%nat)) as (A & B & C). split.
  - intros [|j] J; [exact A|]. apply B, in_map_iff. exists (S j). split; [reflexivity|]. apply in_seq. lia.
  - destruct C as [C|C]; [exists 0%nat; split; [lia|now rewrite C]|]. apply in_map_iff in C. destruct C as (j & C & I).
    apply in_seq in I. exists j. split; [lia|exact C].
Qed.
Lemma argwhere_in n d j : (1 <= n)%nat -> (In j (f_argwhere n d) <-> (j < n)%nat /\ forall i, (i < n)%nat -> d i <= d j).
Proof.
  intros N. destruct (f_max_spec n d N) as [A (m & M & B)]. unfold f_argwhere. rewrite filter_In, in_seq.
  destruct (Req_EM_T (d j) (f_max n d)) as [E|E]; split.
  - intros [I _]. split; [lia|]. intros i I'. rewrite E. now apply A.
  - intros [I _]. split; [lia|reflexivity].
  - intros [_ X]; discriminate.
  - intros [I X]. exfalso. apply E. apply Rle_antisym; [now apply A|]. rewrite <- B. now apply X.
Qed.
Lemma argwhere_nodup n d : NoDup (f_argwhere n d).
Proof. apply NoDup_filter, seq_NoDup. Qed.
Lemma argwhere_one n d s : (1 <= n)%nat -> (f_argwhere n d = [s] <-> best_by 0 n d s).
Proof.
  intros N. split.
  - intros E. assert (I : In s (f_argwhere n d)) by (rewrite E; now left). pose proof I as I'. apply (argwhere_in n d s N) in I.
    destruct I as [L I]. split; [exact L|]. intros j J NE. rewrite Rplus_0_r.
    destruct (I j J) as [X|X]; [exact X|]. exfalso. apply NE.
    assert (K : In j (f_argwhere n d)) by (apply (argwhere_in n d j N); split; [exact J|rewrite X; exact I]).
    rewrite E in K. destruct K as [K|[]]. now symmetry.
  - intros [L B]. assert (I : In s (f_argwhere n d)).
    { apply (argwhere_in n d s N). split; [exact L|]. intros i I. destruct (Nat.eq_dec i s) as [->|NE]; [lra|]. specialize (B i I NE). lra. }
    assert (U : forall j, In j (f_argwhere n d) -> j = s).
    { intros j J. apply (argwhere_in n d j N) in J. destruct J as [J X]. destruct (Nat.eq_dec j s) as [|NE]; [assumption|].
      specialize (B j J NE). specialize (X s L). lra. }
    pose proof (argwhere_nodup n d) as ND. destruct (f_argwhere n d) as [|a [|b l]]; [destruct I| |].
    + now rewrite (U a (or_introl eq_refl)).
    + exfalso. inversion ND as [|x y NI ND']. apply NI. rewrite (U a (or_introl eq_refl)), <- (U b (or_intror (or_introl eq_refl))). now left.
Qed.
Lemma argwhere_tied n d : (1 <= n)%nat -> (forall s, f_argwhere n d <> [s]) -> tied 0 n d.
Proof.
  intros N H. destruct (f_max_spec n d N) as [A (m & M & B)].
  assert (I : In m (f_argwhere n d)) by (apply (argwhere_in n d m N); split; [exact M|rewrite B; exact A]).
  pose proof (argwhere_nodup n d) as ND. pose proof (argwhere_in n d) as AI.
  destruct (f_argwhere n d) as [|a [|b l]]; [destruct I|now elim (H a)|].
  destruct (proj1 (AI a N) (or_introl eq_refl)) as [A1 A2]. destruct (proj1 (AI b N) (or_intror (or_introl eq_refl))) as [B1 B2].
  exists a, b. split; [exact A1|]. split; [exact B1|]. split.
  - intros ->. inversion ND as [|x y NI ND']. apply NI. now left.
  - intros j J. specialize (A2 j J). specialize (B2 j J). lra.
Qed.

Section Typed.
Variables (n : nat) (q : nat -> nat -> R).
Hypothesis N : (1 <= n)%nat.
Hypothesis Q : stochasticR n q.
Let p : fmat := fun i j => rnd (q i j).

Lemma entry i j : (i < n)%nat -> (j < n)%nat -> 0 <= q i j <= 1.
Proof.
  intros I J. destruct Q as [P T]. split; [now apply P|]. rewrite <- (T i I). apply (rsumn_in n (q i) j); [intros; now apply P|exact J].
Qed.
Lemma rounded_best i s : (i < n)%nat -> best_by 0 n (p i) s -> best_by 0 n (q i) s.
Proof.
  intros I [L B]. split; [exact L|]. intros j J NE. specialize (B j J NE). unfold p in B. rewrite Rplus_0_r in *.
  destruct (Rlt_dec (q i j) (q i s)) as [X|X]; [exact X|]. pose proof (rnd_le (q i s) (q i j) ltac:(lra)). lra.
Qed.
Lemma rounded_order i j s : (i < n)%nat -> (j < n)%nat -> (s < n)%nat -> p i j <= p i s -> q i j <= q i s + 3 * uu.
Proof.
  intros I J L H. unfold p in H. pose proof (entry i j I J) as [A1 A2]. pose proof (entry i s I L) as [B1 B2].
  pose proof (rnd_0_lo _ A1) as C. pose proof (rnd_0_up _ B1) as D. pose proof uu_pos. pose proof tiny_small. nra.
Qed.
Lemma clear_best i s : (i < n)%nat -> best_by (3 * uu) n (q i) s -> best_by 0 n (p i) s.
Proof.
  intros I [L B]. split; [exact L|]. intros j J NE. specialize (B j J NE). rewrite Rplus_0_r.
  destruct (Rlt_dec (p i j) (p i s)) as [X|X]; [exact X|]. pose proof (rounded_order i s j I L J ltac:(lra)). lra.
Qed.

Lemma loop_sound steps : forall cur r, (cur < n)%nat -> f_predict_loop n p steps cur = Some r ->
  length r = steps /\ best_walk 0 n q cur r.
Proof.
  induction steps as [|steps IH]; intros cur r C H; cbn [f_predict_loop] in H; [injection H as <-; split; [reflexivity|exact I]|].
  destruct (f_argwhere n (p cur)) as [|s [|b l]] eqn:E; [discriminate| |discriminate].
  apply (argwhere_one n (p cur) s N) in E. apply (rounded_best cur s C) in E.
  destruct (f_predict_loop n p steps s) as [r'|] eqn:F; [|discriminate]. injection H as <-.
  destruct (IH s r' (proj1 E) F) as [A B]. split; [cbn; now rewrite A|]. split; [exact E|exact B].
Qed.
Lemma loop_clear r : forall cur, (cur < n)%nat -> best_walk (3 * uu) n q cur r -> f_predict_loop n p (length r) cur = Some r.
Proof.
  induction r as [|s r IH]; intros cur C H; [reflexivity|]. destruct H as [B H]. cbn [length f_predict_loop].
  rewrite (proj2 (argwhere_one n (p cur) s N) (clear_best cur s C B)), (IH s (proj1 B) H). reflexivity.
Qed.
Lemma loop_none steps : forall cur, (cur < n)%nat -> f_predict_loop n p steps cur = None ->
  exists r, (length r < steps)%nat /\ best_walk 0 n q cur r /\ tied (3 * uu) n (q (last r cur)).
Proof.
  induction steps as [|steps IH]; intros cur C H; cbn [f_predict_loop] in H; [discriminate|].
  destruct (f_argwhere n (p cur)) as [|s [|b l]] eqn:E.
  - exists []. split; [cbn; lia|]. split; [exact I|]. cbn [last].
    destruct (argwhere_tied n (p cur) N ltac:(intros s; rewrite E; discriminate)) as (s & t & S1 & T1 & NE & X).
    exists s, t. split; [exact S1|]. split; [exact T1|]. split; [exact NE|]. intros j J. destruct (X j J) as [Y Z].
    split; apply rounded_order; auto; lra.
  - apply (argwhere_one n (p cur) s N) in E. apply (rounded_best cur s C) in E.
    destruct (f_predict_loop n p steps s) as [r'|] eqn:F; [discriminate|].
    destruct (IH s (proj1 E) F) as (r & L & B & T). exists (s :: r). split; [cbn; lia|]. split; [split; [exact E|exact B]|].
    now rewrite last_from.
  - exists []. split; [cbn; lia|]. split; [exact I|]. cbn [last].
    destruct (argwhere_tied n (p cur) N ltac:(intros s'; rewrite E; discriminate)) as (s' & t & S1 & T1 & NE & X).
    exists s', t. split; [exact S1|]. split; [exact T1|]. split; [exact NE|]. intros j J. destruct (X j J) as [Y Z].
    split; apply rounded_order; auto; lra.
Qed.
End Typed.

Lemma best_unique n d s t : best_by 0 n d s -> best_by 0 n d t -> s = t.
Proof.
  intros [A B] [C D]. destruct (Nat.eq_dec s t) as [|NE]; [assumption|exfalso].
  specialize (B t C ltac:(congruence)). specialize (D s A NE). lra.
Qed.
Lemma tied_not_best n d s : tied 0 n d -> ~ best_by 0 n d s.
Proof.
  intros (a & b & A & B & NE & X) [L Y].
  assert (exists c, (c < n)%nat /\ c <> s /\ d s <= d c) as (c & C & NC & Z).
  { destruct (Nat.eq_dec a s) as [->|]; [exists b|exists a]; destruct (X s L); repeat split; auto; lra. }
  specialize (Y c C NC). lra.
Qed.
Lemma walk_tied n q r : forall cur r', best_walk 0 n q cur r -> tied 0 n (q (last r cur)) -> best_walk 0 n q cur r' -> (length r' <= length r)%nat.
Proof.
  induction r as [|s r IH]; intros cur r' B T B'.
  - destruct r' as [|t r']; [cbn; lia|]. cbn [last] in T. destruct B' as [B' _]. now elim (tied_not_best _ _ _ T B').
  - destruct r' as [|t r']; [cbn; lia|]. destruct B as [B1 B2]. destruct B' as [C1 C2]. rewrite (best_unique _ _ _ _ C1 B1) in C2.
    cbn [length]. apply le_n_S. apply (IH s); [exact B2| |exact C2].
    now rewrite last_from in T.
Qed.

Theorem predict_sound n q steps init w : (1 <= n)%nat -> stochasticR n q -> (init < n)%nat ->
  f_predict n (fun i j => rnd (q i j)) steps init = Some w ->
  exists r, w = init :: r /\ length r = steps /\ best_walk 0 n q init r.
Proof.
  intros N Q I H. unfold f_predict in H. destruct (f_predict_loop _ _ _ _) as [r|] eqn:E; [|discriminate]. injection H as <-.
  exists r. split; [reflexivity|]. exact (loop_sound n q N steps init r I E).
Qed.
Theorem predict_clear n q init r : (1 <= n)%nat -> stochasticR n q -> (init < n)%nat -> best_walk (3 * uu) n q init r ->
  f_predict n (fun i j => rnd (q i j)) (length r) init = Some (init :: r).
Proof. intros N Q I H. unfold f_predict. now rewrite (loop_clear n q N Q r init I H). Qed.
Theorem predict_none n q steps init : (1 <= n)%nat -> stochasticR n q -> (init < n)%nat ->
  f_predict n (fun i j => rnd (q i j)) steps init = None ->
  exists r, (length r < steps)%nat /\ best_walk 0 n q init r /\ tied (3 * uu) n (q (last r init)).
Proof.
  intros N Q I H. unfold f_predict in H. destruct (f_predict_loop _ _ _ _) as [r|] eqn:E; [discriminate|].
  exact (loop_none n q N Q steps init I E).
Qed.
Theorem predict_tied n q steps init r : (1 <= n)%nat -> stochasticR n q -> (init < n)%nat ->
  (length r < steps)%nat -> best_walk 0 n q init r -> tied 0 n (q (last r init)) ->
  f_predict n (fun i j => rnd (q i j)) steps init = None.
Proof.
  intros N Q I L B T. destruct (f_predict _ _ _ _) as [w|] eqn:E; [exfalso|reflexivity].
  destruct (predict_sound n q steps init w N Q I E) as (r' & _ & L' & B'). pose proof (walk_tied n q r init r' B T B'). lia.
Qed.

(** ** a hidden maximum *)
Definition almost : nat -> nat -> R := fun _ j => match j with O => 1 / 2 + / 1000000000000000000 | _ => 1 / 2 - / 1000000000000000000 end.
Lemma almost_stochastic : stochasticR 2 almost.
Proof. split; [intros i [|j] _ _; unfold almost; lra|]. intros i _. unfold rsumn, almost. cbn [seq map rsum]. lra. Qed.
Theorem hidden_maximum : stochasticR 2 almost /\ best_walk 0 2 almost 0 [0%nat] /\ f_predict 2 (fun i j => rnd (almost i j)) 1 0 = None.
Proof.
  split; [exact almost_stochastic|]. split.
  - split; [|exact I]. split; [lia|]. intros [|[|j]] J NE; [congruence| |lia]. unfold almost. lra.
  - assert (E0 : rnd (almost 0 0) = 1 / 2).
    { unfold almost. rewrite (rnd_eval _ 4503599627370496 (-53)); [simpl; lra|lia|simpl; lra|]. apply Rabs_def1; simpl; lra. }
    assert (E1 : rnd (almost 0 1) = 1 / 2).
    { unfold almost. rewrite (rnd_eval _ 9007199254740992 (-54)); [simpl; lra|lia|simpl; lra|]. apply Rabs_def1; simpl; lra. }
    unfold f_predict. cbn [f_predict_loop].
    destruct (f_argwhere 2 (fun j => rnd (almost 0 j))) as [|s [|b l]] eqn:E; [reflexivity|exfalso|reflexivity].
    apply argwhere_one in E; [|lia]. revert E. apply tied_not_best. exists 0%nat, 1%nat. repeat split; try lia; destruct j as [|[|j]]; try lia; lra.
Qed.

(** ** example chains *)
Definition tilted : nat -> nat -> R := fun i j => if Nat.eqb i j then 1 / 3 else 2 / 3.
Lemma tilted_stochastic : stochasticR 2 tilted.
Proof.
  split; [intros i j _ _; unfold tilted; destruct (Nat.eqb i j); lra|].
  intros [|[|i]] I; [| |lia]; unfold rsumn, tilted; cbn [seq map rsum Nat.eqb]; lra.
Qed.
Lemma tilted_walk : best_walk (3 * uu) 2 tilted 0 [1%nat; 0%nat].
Proof.
  assert (U : 3 * uu < 1 / 3) by (unfold uu; simpl; lra).
  split; [|split; [|exact I]]; (split; [lia|]); intros [|[|j]] J NE; try lia; unfold tilted; cbn [Nat.eqb]; lra.
Qed.
Definition forked : nat -> nat -> R := fun i j => match i with O => if Nat.eqb j 1 then 1 else 0 | _ => 1 / 2 end.
Lemma forked_stochastic : stochasticR 2 forked.
Proof.
  split; [intros [|i] j _ _; unfold forked; [destruct (Nat.eqb j 1)|]; lra|].
  intros [|[|i]] I; [| |lia]; unfold rsumn, forked; cbn [seq map rsum Nat.eqb]; lra.
Qed.
Lemma forked_walk : best_walk 0 2 forked 0 [1%nat].
Proof. split; [|exact I]. split; [lia|]. intros [|[|j]] J NE; try lia. unfold forked; cbn [Nat.eqb]; lra. Qed.
Lemma forked_tied : tied 0 2 (forked 1%nat).
Proof. exists 0%nat, 1%nat. split; [lia|]. split; [lia|]. split; [lia|]. intros j J. unfold forked. lra. Qed.
