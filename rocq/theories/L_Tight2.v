(** L_Tight2: facts called for by edits of the model that other theorems did not
    notice, and graphs with parallel edges. *)
From Verif Require Export M_Graph L_Tight L_Simulation S_Graph2.
Open Scope nat_scope.
Open Scope res_scope.

Lemma simulate_steps_checked : forall p steps init final r u l, simulate p steps init final r u = Ok l -> 2 <= steps.
Proof. intros p steps init final r u l H. unfold simulate in H. destruct (Nat.leb_spec 2 steps) as [A|A]; [exact A|discriminate]. Qed.
Lemma transition_probability_iff : forall n P target origin v, stochastic n P ->
  (transition_probability P target origin = Ok v <-> target < n /\ origin < n /\ v = path_prob P origin [target]).
Proof.
  intros n P target origin v HP. unfold transition_probability. rewrite (st_rows n P HP). cbn [path_prob]. rewrite Qcmult_1_r.
  destruct (Nat.ltb_spec target n) as [A|A]; [destruct (Nat.ltb_spec origin n) as [B|B]|]; split.
  - intros H. injection H as <-. auto.
  - intros (_ & _ & ->). reflexivity.
  - discriminate.
  - intros (_ & C & _). lia.
  - discriminate.
  - intros (C & _ & _). lia.
Qed.

(** ** names in JSON files *)
Lemma json_fields_nonempty : forall ps obj k, json_fields ps obj = Ok k -> forall s, In s k -> s <> ""%string.
Proof.
  intros ps obj; induction ps as [|p ps IH]; intros k H s Hs; cbn [json_fields] in H; [injection H as <-; destruct Hs|].
  destruct (M_Json.get obj (chars (fst p))) as [[| | | |t| |]|]; try discriminate.
  destruct (Nat.eqb_spec (length t) 0) as [Z|Z]; [discriminate|]. cbn [negb] in H. cbv iota in H.
  destruct (allowed p (str t)); [|discriminate]. destruct (json_fields ps obj) as [k'|]; [|discriminate]. cbn [bind] in H. injection H as <-.
  destruct Hs as [<-|Hs]; [|eapply IH; [reflexivity|exact Hs]]. destruct t as [|c t]; [cbn in Z; lia|]. cbn. discriminate.
Qed.
Lemma dict_set_keys : forall d k x k', In k' (map fst (dict_set d k x)) -> k' = k \/ In k' (map fst d).
Proof.
  induction d as [|[a b] d IH]; intros k x k' H; cbn in H; [destruct H as [H|[]]; left; auto|]. destruct (key_eqb a k); cbn in H.
  - right. exact H.
  - destruct H as [H|H]; [right; left; exact H|]. destruct (IH _ _ _ H) as [A|A]; [left; exact A|right; right; exact A].
Qed.
Lemma json_records_nonempty : forall float ps l d d', json_records float ps l d = Ok d' ->
  (forall k, In k (map fst d) -> forall s, In s k -> s <> ""%string) -> forall k, In k (map fst d') -> forall s, In s k -> s <> ""%string.
Proof.
  intros float ps l; induction l as [|v l IH]; intros d d' H Hd; cbn [json_records] in H; [injection H as <-; exact Hd|].
  destruct v as [| | | | | |obj]; try discriminate.
  match type of H with (if ?b then _ else _) = _ => destruct b; [|discriminate] end.
  destruct (json_fields ps obj) as [k0|] eqn:EF; [|discriminate]. cbn [bind] in H. destruct (json_number float _) as [x0|]; [|discriminate]. cbn [bind] in H.
  apply (IH _ _ H). intros k Hk. destruct (dict_set_keys _ _ _ _ Hk) as [->|Hk']; [eapply json_fields_nonempty; exact EF|apply Hd; exact Hk'].
Qed.
Lemma read_json_nonempty : forall float ps t d, read_json float ps t = Ok d -> forall k, In k (map fst d) -> forall s, In s k -> s <> ""%string.
Proof.
  intros float ps t d H. unfold read_json in H. destruct (json_load (universal t)) as [v|]; [|discriminate]. cbn [bind] in H.
  destruct v; try discriminate. eapply json_records_nonempty; [exact H|]. intros k [].
Qed.

(** ** parallel edges *)
Lemma fill_graph_nodes : forall g g' st es p, g_nodes g = g_nodes g' -> fill_graph g st es p = fill_graph g' st es p.
Proof.
  intros g g' st es p H; revert p; induction es as [|[[a b] w] es IH]; intros p; [reflexivity|]. cbn [fill_graph]. unfold label. rewrite H.
  destruct (pos st _) as [i|]; [|reflexivity]. cbn [bind]. destruct (pos st _) as [j|]; [|reflexivity]. cbn [bind]. apply IH.
Qed.
Lemma fill_hmm_graph_nodes : forall g g' st sy es p e, g_nodes g = g_nodes g' -> fill_hmm_graph g st sy es p e = fill_hmm_graph g' st sy es p e.
Proof.
  intros g g' st sy es p e H; revert p e; induction es as [|[[[a b] w] t] es IH]; intros p e; [reflexivity|]. cbn [fill_hmm_graph]. unfold label. rewrite H.
  destruct (pos st _) as [i|]; [|reflexivity]. cbn [bind]. destruct (String.eqb t "E"); (destruct (pos _ _) as [j|]; [|reflexivity]); cbn [bind]; apply IH.
Qed.
Lemma multi_simple : forall nodes edges, from_graph (Some (mkg true nodes edges)) = from_graph (Some (mkg false nodes (simple_edges (mkg true nodes edges)))).
Proof.
  intros. unfold from_graph. change (v_graph (Some (mkg false nodes (simple_edges (mkg true nodes edges))))) with (v_graph (Some (mkg true nodes edges))).
  destruct (v_graph _) as [ns|]; [|reflexivity]. cbn [bind]. rewrite (fill_graph_nodes (mkg true nodes edges) (mkg false nodes (simple_edges (mkg true nodes edges)))) by reflexivity. reflexivity.
Qed.
Lemma hmm_multi_simple : forall nodes edges, hmm_from_graph (Some (mkg true nodes edges)) = hmm_from_graph (Some (mkg false nodes (simple_edges (mkg true nodes edges)))).
Proof.
  intros. unfold hmm_from_graph. change (v_hmm_graph (Some (mkg false nodes (simple_edges (mkg true nodes edges))))) with (v_hmm_graph (Some (mkg true nodes edges))).
  destruct (v_hmm_graph _) as [[[st sy] es]|]; [|reflexivity]. cbn [bind]. rewrite (fill_hmm_graph_nodes (mkg true nodes edges) (mkg false nodes (simple_edges (mkg true nodes edges)))) by reflexivity. reflexivity.
Qed.

Lemma edge_set_fst : forall l e, map fst (edge_set l e) = if existsb (fun f => Nat.eqb (fst (fst f)) (fst (fst e)) && Nat.eqb (snd (fst f)) (snd (fst e))) l then map fst l else map fst l ++ [fst e].
Proof.
  induction l as [|f l IH]; intros e; [reflexivity|]. cbn [edge_set existsb]. destruct (Nat.eqb (fst (fst f)) (fst (fst e)) && Nat.eqb (snd (fst f)) (snd (fst e))); [reflexivity|].
  cbn [orb map app]. rewrite IH. match goal with |- context [existsb ?t l] => destruct (existsb t l) end; reflexivity.
Qed.
Lemma pair_test : forall (p q : nat * nat), Nat.eqb (fst p) (fst q) && Nat.eqb (snd p) (snd q) = true <-> p = q.
Proof. intros [a b] [c d]. cbn. rewrite andb_true_iff, !Nat.eqb_eq. split; [intros [-> ->]; reflexivity|intros H; injection H as -> ->; auto]. Qed.
Lemma has_edge : forall l (e : gedge), existsb (fun f : gedge => Nat.eqb (fst (fst f)) (fst (fst e)) && Nat.eqb (snd (fst f)) (snd (fst e))) l = true <-> In (fst e) (map fst l).
Proof.
  intros l e. rewrite existsb_exists, in_map_iff. split; intros (f & A & B).
  - apply (pair_test (fst f) (fst e)) in B. exists f. auto.
  - exists f. split; [exact B|]. apply (pair_test (fst f) (fst e)). exact A.
Qed.
Lemma NoDup_app_single : forall {A} (l : list A) x, NoDup l -> ~ In x l -> NoDup (l ++ [x]).
Proof.
  intros A l x N H. induction N as [|a l Ha N IH]; cbn; [constructor; [intros []|constructor]|]. constructor.
  - rewrite in_app_iff. cbn. intros [C|[C|[]]]; [exact (Ha C)|apply H; left; auto].
  - apply IH. intros C. apply H. right. exact C.
Qed.
Lemma edge_set_keys : forall l e, NoDup (map fst l) -> NoDup (map fst (edge_set l e)) /\ forall p, In p (map fst (edge_set l e)) <-> In p (map fst l) \/ p = fst e.
Proof.
  intros l e N. rewrite edge_set_fst. match goal with |- context [existsb ?t l] => destruct (existsb t l) eqn:X end.
  - apply has_edge in X. split; [exact N|]. intros p. split; [auto|]. intros [A| ->]; assumption.
  - split.
    + apply NoDup_app_single; [exact N|]. intros C. apply has_edge in C. apply Bool.not_true_iff_false in X. exact (X C).
    + intros p. rewrite in_app_iff. cbn. split; [intros [A|[A|[]]]; auto|intros [A|A]; auto].
Qed.
Lemma edge_set_attrs : forall l e p at_, NoDup (map fst l) -> In (p, at_) (edge_set l e) ->
  (p <> fst e /\ In (p, at_) l) \/
  (p = fst e /\ ((~ In p (map fst l) /\ at_ = snd e) \/ exists old, In (p, old) l /\ at_ = (or_else (fst (snd e)) (fst old), or_else (snd (snd e)) (snd old)))).
Proof.
  induction l as [|f l IH]; intros e p at_ N H; cbn [edge_set] in H.
  - destruct H as [H|[]]. subst e. right. split; [reflexivity|]. left. split; [intros []|reflexivity].
  - cbn [map] in N. inversion N as [|? ? N1 N2]. subst. destruct (Nat.eqb (fst (fst f)) (fst (fst e)) && Nat.eqb (snd (fst f)) (snd (fst e))) eqn:T.
    + apply (pair_test (fst f) (fst e)) in T. destruct H as [H|H].
      * injection H as <- <-. right. split; [exact T|]. right. exists (snd f). split; [left; destruct f; reflexivity|reflexivity].
      * left. split; [|right; exact H]. intros ->. apply N1. rewrite T. apply in_map_iff. exists (fst e, at_). auto.
    + assert (T' : fst f <> fst e) by (intros C; apply (pair_test (fst f) (fst e)) in C; congruence). destruct H as [H|H].
      * subst f. left. split; [exact T'|left; reflexivity].
      * destruct (IH e p at_ N2 H) as [[A B]|[A B]]; [left; split; [exact A|right; exact B]|]. right. split; [exact A|].
        destruct B as [[B C]|(old & B & C)]; [left; split; [|exact C]|right; exists old; split; [right; exact B|exact C]].
        intros [D|D]; [apply T'; congruence|exact (B D)].
Qed.
Lemma last_given_snoc : forall {A} (g : option pyval * option pyval -> option A) es e a b,
  last_given g (es ++ [e]) a b = if Nat.eqb (fst (fst e)) a && Nat.eqb (snd (fst e)) b then match g (snd e) with Some x => Some x | None => last_given g es a b end else last_given g es a b.
Proof. intros. unfold last_given. rewrite fold_left_app. reflexivity. Qed.
Lemma last_given_none : forall {A} (g : option pyval * option pyval -> option A) es a b, ~ In (a, b) (map fst es) -> last_given g es a b = None.
Proof.
  intros A g es; induction es as [|e es IH] using rev_ind; intros a b H; [reflexivity|]. rewrite last_given_snoc. rewrite map_app, in_app_iff in H. cbn in H.
  destruct (Nat.eqb (fst (fst e)) a && Nat.eqb (snd (fst e)) b) eqn:T; [exfalso; apply H; right; left; apply (pair_test (fst e) (a, b)); exact T|]. apply IH. tauto.
Qed.
Lemma merged_fold : forall edges, merged edges (fold_left edge_set edges []).
Proof.
  induction edges as [|e edges IH] using rev_ind; [split; [constructor|split; [tauto|intros a b at_ []]]|].
  rewrite fold_left_app. cbn [fold_left]. destruct IH as (N & K & V). destruct (edge_set_keys (fold_left edge_set edges []) e N) as [N' K']. split; [exact N'|]. split.
  - intros p. rewrite K', K, map_app, in_app_iff. cbn. split; [intros [A|A]; auto|intros [A|[A|[]]]; auto].
  - intros a b at_ H. rewrite !last_given_snoc. destruct (edge_set_attrs _ _ _ _ N H) as [[A B]|[A B]].
    + destruct (Nat.eqb (fst (fst e)) a && Nat.eqb (snd (fst e)) b) eqn:T; [exfalso; apply A; symmetry; apply (pair_test (fst e) (a, b)); exact T|]. apply V. exact B.
    + assert (T : Nat.eqb (fst (fst e)) a && Nat.eqb (snd (fst e)) b = true) by (apply (pair_test (fst e) (a, b)); symmetry; exact A). rewrite T.
      destruct B as [[B ->]|(old & B & ->)].
      * rewrite K in B. rewrite !last_given_none by exact B. destruct (snd e) as [[w|] [t|]]; reflexivity.
      * rewrite (V _ _ _ B). cbn [fst snd]. destruct (snd e) as [[w|] [t|]]; reflexivity.
Qed.
Lemma from_multigraph : forall nodes edges, exists es, merged edges es /\ from_graph (Some (mkg true nodes edges)) = from_graph (Some (mkg false nodes es)).
Proof. intros. exists (fold_left edge_set edges []). split; [apply merged_fold|apply multi_simple]. Qed.
Lemma hmm_from_multigraph : forall nodes edges, exists es, merged edges es /\ hmm_from_graph (Some (mkg true nodes edges)) = hmm_from_graph (Some (mkg false nodes es)).
Proof. intros. exists (fold_left edge_set edges []). split; [apply merged_fold|apply hmm_multi_simple]. Qed.

(** the weights of the other parallel edges are lost *)
Definition g_par : pygraph := mkg true [(PStr "a", None); (PStr "b", None)]
  [(0, 1, (Some (PInt 1), None)); (0, 0, (Some (PInt 1), None)); (0, 1, (Some (PInt 2), None)); (1, 1, (Some (PInt 1), None))].
Lemma parallel_lost : exists nodes edges o y, map fst nodes = [PStr "a"; PStr "b"] /\ (forall i j a, In (i, j, a) edges -> i < 2 /\ j < 2) /\
  from_graph (Some (mkg true nodes edges)) = Ok o /\
  nth 1 (nth 0 (r_p o) []) NaN = Fin y /\ y <> (total_weight edges 0 1 / (total_weight edges 0 0 + total_weight edges 0 1))%Qc.
Proof.
  exists (g_nodes g_par), (g_edges g_par). do 2 eexists. split; [reflexivity|]. split; [|split; [vm_compute; reflexivity|split; [cbn; reflexivity|]]].
  - intros i j a H. cbn in H. repeat (destruct H as [H|H]; [injection H as <- <- <-; lia|]). destruct H.
  - apply Qceqb_neq. vm_compute. reflexivity.
Qed.
