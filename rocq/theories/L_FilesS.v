(** L_FilesS: what from_file guarantees about the chain it returns. *)
From Verif Require Import S_Files L_Gen1 L_Valid2 L_Io1.
Open Scope nat_scope.
Open Scope res_scope.

Definition keyed (d : dict) : Prop := NoDup (map fst d).
Lemma dict_set_keys d k v x : In x (map fst (dict_set d k v)) <-> x = k \/ In x (map fst d).
Proof.
  induction d as [|[k' v'] d IH]; cbn; [intuition congruence|]. destruct (key_eqb k' k) eqn:E; cbn.
  - apply key_eqb_eq in E. subst. intuition congruence.
  - rewrite IH. tauto.
Qed.
Lemma dict_set_keyed d k v : keyed d -> keyed (dict_set d k v).
Proof.
  unfold keyed. induction d as [|[k' v'] d IH]; cbn; intros H; [repeat constructor; intros []|]. destruct (key_eqb k' k) eqn:E; cbn; [exact H|].
  inversion H as [|? ? H1 H2]; subst. constructor; [|apply IH; exact H2]. rewrite dict_set_keys. intros [->|C]; [rewrite key_eqb_refl in E; discriminate|contradiction].
Qed.
Section Keyed.
Variable float : text -> option num.
Lemma records_keyed ps rows : forall d d', keyed d -> records float ps rows d = Ok d' -> keyed d'.
Proof.
  induction rows as [|row rows IH]; cbn; intros d d' Hd H; [injection H as <-; exact Hd|]. destruct (record float ps row) as [kx|]; [|discriminate]. cbn in H. eapply IH; [|exact H]. apply dict_set_keyed. exact Hd.
Qed.
Lemma json_records_keyed ps l : forall d d', keyed d -> json_records float ps l d = Ok d' -> keyed d'.
Proof.
  induction l as [|x l IH]; intros d d' Hd H; [injection H as <-; exact Hd|]. destruct x; try discriminate. cbn [json_records] in H. cbv zeta in H.
  match type of H with context [if ?b then _ else _] => destruct b; [|discriminate] end. cbv iota in H.
  destruct (json_fields ps _) as [k|]; [|discriminate]. cbn [bind] in H. destruct (json_number float _) as [y|]; [|discriminate]. cbn [bind] in H. eapply IH; [|exact H]. apply dict_set_keyed. exact Hd.
Qed.
Lemma xml_records_keyed root ps l : forall d d', keyed d -> xml_records float root ps l d = Ok d' -> keyed d'.
Proof.
  induction l as [|[tag attrs] l IH]; intros d d' Hd H; [injection H as <-; exact Hd|]. cbn [xml_records] in H. cbv zeta in H. destruct (text_eqb tag root); [eapply IH; eassumption|].
  destruct (text_eqb tag (chars "Item")); [|discriminate]. cbv iota in H.
  match type of H with context [if ?b then _ else _] => destruct b; [|discriminate] end. cbv iota in H.
  match type of H with context [if ?b then _ else _] => destruct b; [|discriminate] end. cbv iota in H.
  match type of H with bind ?x _ = _ => destruct x; [|discriminate] end. cbn [bind] in H. match type of H with bind ?x _ = _ => destruct x; [|discriminate] end. cbn [bind] in H. eapply IH; [|exact H]. apply dict_set_keyed. exact Hd.
Qed.
Lemma csv_cells_keyed keys : forall row d d', keyed d -> csv_cells float keys row d = Ok d' -> keyed d'.
Proof.
  induction keys as [|k keys IH]; intros [|w row] d d' Hd H; cbn in H; try (injection H as <-; exact Hd). destruct (float w); [|discriminate]. eapply IH; [|exact H]. apply dict_set_keyed. exact Hd.
Qed.
Lemma csv_body_keyed keys states : forall rows d d', keyed d -> csv_body float keys states rows d = Ok d' -> keyed d'.
Proof.
  induction states as [|s states IH]; intros [|row rows] d d' Hd H; try (injection H as <-; exact Hd). cbn [csv_body] in H.
  match type of H with context [if ?b then _ else _] => destruct b; [|discriminate] end. cbv iota in H. destruct (csv_cells float (keys s) row d) as [e|] eqn:E; [|discriminate]. cbn [bind] in H. eapply IH; [|exact H]. eapply csv_cells_keyed; eassumption.
Qed.
Lemma read_file_keyed limit nul_ok f t d : read_file float limit nul_ok f t = Ok d -> keyed d.
Proof.
  destruct f; cbn [read_file]; intros H.
  - unfold read_csv_mc in H. destruct (csv_read limit nul_ok t) as [[|header rows]|]; cbn [bind] in H; [injection H as <-; constructor| |discriminate].
    destruct (forallb nonempty header); [|discriminate]. cbv iota zeta in H. destruct (nodupb String.eqb (map str header)); [|discriminate]. cbv iota in H. match type of H with context [if ?b then _ else _] => destruct b; [|discriminate] end. cbv iota in H.
    eapply csv_body_keyed; [|exact H]. constructor.
  - unfold read_json in H. destruct (json_load (universal t)) as [[]|]; cbn [bind] in H; try discriminate. eapply json_records_keyed; [|exact H]. constructor.
  - unfold read_txt in H. eapply records_keyed; [|exact H]. constructor.
  - unfold read_xml in H. destruct (xml_load t) as [[tag attrs cs]|e]; [|destruct e; discriminate]. destruct (text_eqb tag root_mc); [|discriminate]. cbv iota in H. eapply xml_records_keyed; [|exact H]. constructor.
Qed.
End Keyed.
Lemma diagonal_in d a : In a (diagonal d) -> In [a; a] (map fst d).
Proof.
  unfold diagonal. rewrite in_flat_map. intros ([k v] & Hin & H). cbn [fst] in H. apply (in_map fst) in Hin. cbn [fst] in Hin.
  destruct k as [|x [|y [|z k]]]; try contradiction. destruct (String.eqb_spec x y) as [->|]; [|contradiction]. destruct H as [<-|[]]. exact Hin.
Qed.
Lemma diagonal_nodup d : keyed d -> NoDup (diagonal d).
Proof.
  unfold keyed. induction d as [|[k v] d IH]; cbn [map fst]; intros H; [constructor|]. inversion H as [|? ? H1 H2]; subst. unfold diagonal. cbn [flat_map]. fold (diagonal d). cbn [fst].
  destruct k as [|x [|y [|z k]]]; try (apply IH; exact H2). destruct (String.eqb_spec x y) as [->|]; [|apply IH; exact H2]. cbn [app]. constructor; [|apply IH; exact H2]. intros C. apply H1. apply diagonal_in. exact C.
Qed.
Lemma fill_shape states n d : length states = n -> forall p q, shape n n p -> fill_mc states d p = Ok q -> shape n n q.
Proof.
  intros HL. induction d as [|[k v] d IH]; cbn [fill_mc]; intros p q Hp H; [injection H as <-; exact Hp|]. destruct k as [|x [|y [|z k]]]; try discriminate.
  destruct (pos states x) as [i|] eqn:Ei; [|discriminate]. cbn [bind] in H. destruct (pos states y) as [j|]; [|discriminate]. cbn [bind] in H. apply pos_ok in Ei. eapply IH; [|exact H]. apply set2_shape; [exact Hp|lia].
Qed.
Lemma sum_finite l : forall a s, fold_left num_add l a = Fin s -> (exists x, a = Fin x) /\ exists l', l = map Fin l'.
Proof.
  induction l as [|x l IH]; cbn [fold_left]; intros a s H; [split; [exists s; exact H|exists []; reflexivity]|]. apply IH in H. destruct H as ((y & E) & l' & ->).
  destruct a as [q| | |], x as [r| | |]; cbn in E; try discriminate. split; [eexists; reflexivity|exists (r :: l'); reflexivity].
Qed.
Lemma finite_rows n m p : shape n m p -> rows_sum_to_one p = true -> exists P, p = map (map Fin) P /\ wf n m P /\ nearly_stochastic n m P.
Proof.
  intros Hp H. assert (E : exists P, p = map (map Fin) P).
  { unfold rows_sum_to_one in H. clear Hp. induction p as [|r p IH]; [exists []; reflexivity|]. cbn [forallb] in H. apply andb_true_iff in H. destruct H as [H1 H2]. destruct (IH H2) as (P & ->).
    unfold num_sum in H1. destruct (fold_left num_add r (Fin 0)) as [s| | |] eqn:E; try discriminate. apply sum_finite in E. destruct E as (_ & l' & ->). exists (l' :: P). reflexivity. }
  destruct E as (P & ->). exists P. split; [reflexivity|]. assert (HW : wf n m P).
  { destruct Hp as [H1 H2]. rewrite map_length in H1. split; [exact H1|]. intros r Hr. rewrite <- (H2 (map Fin r)); [rewrite map_length; reflexivity|apply in_map; exact Hr]. }
  split; [exact HW|]. apply (rows_sum_fin n m); assumption.
Qed.
Lemma from_file_shape float limit nul_ok f t o : from_file float limit nul_ok f t = Ok o ->
  exists n P, 2 <= n /\ length (r_states o) = n /\ NoDup (r_states o) /\ r_p o = map (map Fin) P /\ wf n n P /\ nearly_stochastic n n P.
Proof.
  unfold from_file. destruct (nonempty t); [|discriminate]. cbv iota. destruct (read_file float limit nul_ok f t) as [d|] eqn:E; [|discriminate]. cbn [bind]. unfold chain_of_dict. cbv zeta.
  destruct (Nat.leb 2 (length (diagonal d))) eqn:E2; [|discriminate]. cbv iota. destruct (fill_mc (diagonal d) d (nzeros (length (diagonal d)) (length (diagonal d)))) as [p|] eqn:E3; [|discriminate]. cbn [bind].
  destruct (rows_sum_to_one p) eqn:E4; [|discriminate]. cbv iota. intros H. injection H as <-. cbn [r_states r_p]. apply Nat.leb_le in E2.
  apply fill_shape with (n := length (diagonal d)) in E3; [|reflexivity|apply nzeros_shape]. destruct (finite_rows _ _ _ E3 E4) as (P & -> & HW & HS).
  exists (length (diagonal d)), P. split; [exact E2|]. split; [reflexivity|]. split; [apply diagonal_nodup; eapply read_file_keyed; exact E|]. auto.
Qed.
