(** L_Torn2: text files cut short, and the dictionaries read from them. *)
From Verif Require Import S_Disk L_Gen1 L_Valid2 L_Io1 L_Io3 L_Io4 L_Json L_Xml L_Files L_Torn.
Open Scope nat_scope.
Open Scope res_scope.

Notation words := M_Io.words.
Lemma prefix_app {A} (a b c d : list A) : a ++ b = c ++ d -> length a <= length c -> exists m, c = a ++ m /\ b = m ++ d.
Proof.
  revert c. induction a as [|x a IH]; intros c E Hl; [exists c; auto|]. destruct c as [|y c]; [cbn in Hl; lia|]. cbn [app length] in *. inversion E. subst. destruct (IH c H1) as (m & -> & ->); [lia|]. exists m. auto.
Qed.
Lemma prefix_concat (ls : list text) : forall p q, p ++ q = concat ls -> q <> [] ->
  exists k p' q', k < length ls /\ p = concat (firstn k ls) ++ p' /\ nth k ls [] = p' ++ q' /\ q' <> [].
Proof.
  induction ls as [|a ls IH]; intros p q E Hq; [apply app_eq_nil in E; destruct E; contradiction|]. cbn [concat] in E.
  destruct (Nat.ltb_spec (length p) (length a)) as [Hl|Hl].
  - destruct (prefix_app p q a (concat ls) E) as (m & -> & ->); [lia|]. exists 0, p, m. cbn [firstn concat nth app length]. split; [lia|]. split; [reflexivity|]. split; [reflexivity|]. intros ->. rewrite app_nil_r in Hl. lia.
  - symmetry in E. destruct (prefix_app a (concat ls) p q E Hl) as (m & -> & E2). symmetry in E2. destruct (IH m q E2 Hq) as (k & p' & q' & Hk & -> & E3 & H3).
    exists (S k), p', q'. cbn [firstn concat nth length]. rewrite <- app_assoc. split; [lia|]. auto.
Qed.
Lemma nodup_left {A} (l m : list A) : NoDup (l ++ m) -> NoDup l.
Proof. induction l as [|x l IH]; cbn [app]; intros H; [constructor|]. inversion H as [|? ? H1 H2]. subst. constructor; [intros C; apply H1; apply in_app_iff; left; exact C|apply IH; exact H2]. Qed.
Lemma words_len w : (forall c, In c w -> is_space c = false) -> length (words [] w) <= 1.
Proof. intros H. destruct w as [|c w]; [cbn; lia|]. rewrite words_last; [cbn; lia|]. split; [discriminate|exact H]. Qed.
Lemma words_cut v : solid v -> forall k, Forall (fun s => solid (chars s)) k -> forall p q, p ++ q = concat (map (fun a => chars a ++ [sp]) k) ++ v ++ [lf] -> q <> [] ->
  length (words [] p) = S (length k) -> exists v' v'', v = v' ++ v'' /\ v' <> [] /\ words [] p = map chars k ++ [v'].
Proof.
  intros Hv k Hk. induction Hk as [|a k Ha Hk IH]; intros p q E Hq Hl; cbn [map concat app length] in *.
  - destruct (Nat.leb_spec (length p) (length v)) as [L|L].
    + destruct (prefix_app p q v [lf] E L) as (m & -> & _). destruct p as [|c p]; [discriminate|]. exists (c :: p), m. split; [reflexivity|]. split; [discriminate|]. rewrite words_last; [reflexivity|]. split; [discriminate|]. intros x Hx. apply Hv. apply in_app_iff. left. exact Hx.
    + apply (f_equal (@length ascii)) in E. rewrite !app_length in E. cbn [length] in E. destruct q; [contradiction|]. cbn [length] in E. lia.
  - rewrite <- app_assoc in E. cbn [app] in E. rewrite <- app_assoc in E. cbn [app] in E. destruct (Nat.leb_spec (length p) (length (chars a))) as [L|L].
    + destruct (prefix_app p q (chars a) _ E L) as (m & Em & _). exfalso. assert (H : length (words [] p) <= 1) by (apply words_len; intros c Hc; apply Ha; rewrite Em; apply in_app_iff; left; exact Hc). lia.
    + change (chars a ++ sp :: concat (map (fun a0 => chars a0 ++ [sp]) k) ++ v ++ [lf]) with (chars a ++ [sp] ++ (concat (map (fun a0 => chars a0 ++ [sp]) k) ++ v ++ [lf])) in E. rewrite app_assoc in E. symmetry in E.
      destruct (prefix_app (chars a ++ [sp]) _ p q E) as (m & -> & E2); [rewrite app_length; cbn [length]; lia|]. rewrite <- app_assoc in Hl |- *. cbn [app] in Hl |- *. rewrite words_word in Hl |- * by exact Ha. cbn [length] in Hl. symmetry in E2.
      destruct (IH m q E2 Hq) as (v' & v'' & H1 & H2 & H3); [lia|]. exists v', v''. split; [exact H1|]. split; [exact H2|]. cbn [app]. rewrite H3. reflexivity.
Qed.

Section Txt.
Variable show : num -> text.
Variable float : text -> option num.
Definition txt_line (e : key * num) : text := concat (map (fun a => chars a ++ [sp]) (fst e)) ++ show (snd e) ++ [lf].
Lemma records_app ps r1 : forall d0 r2, records float ps (r1 ++ r2) d0 = bind (records float ps r1 d0) (records float ps r2).
Proof. induction r1 as [|r r1 IH]; intros d0 r2; [reflexivity|]. cbn [app records]. destruct (record float ps r) as [kx|e]; [|reflexivity]. cbn [bind]. apply IH. Qed.
Lemma record_length ps : forall row kx, record float ps row = Ok kx -> length row = S (length ps).
Proof.
  induction ps as [|p ps IH]; intros [|w row] kx H; cbn [record] in H; try discriminate.
  - destruct row; [reflexivity|discriminate].
  - destruct (allowed p (str w)); [|discriminate]. cbv iota in H. apply bind_inv in H. destruct H as (ky & Hy & _). cbn [length]. f_equal. exact (IH _ _ Hy).
Qed.
Lemma lines_tail p : ~ In lf p -> forall acc, lines acc p = match rev acc ++ p with [] => [] | l => [l] end.
Proof.
  induction p as [|c p IH]; intros H acc; cbn [lines].
  - rewrite app_nil_r. destruct acc as [|x acc]; [reflexivity|]. destruct (rev (x :: acc)) eqn:E; [apply (f_equal (@length ascii)) in E; rewrite rev_length in E; discriminate|reflexivity].
  - destruct (Ascii.eqb_spec c lf) as [->|Hc]; [exfalso; apply H; left; reflexivity|]. rewrite IH by (intros C; apply H; right; exact C). cbn [rev]. rewrite <- app_assoc. reflexivity.
Qed.
Lemma txt_rows_cut ps d p' : (forall e, In e d -> good_entry show float ps e) -> ~ In lf p' ->
  map (words []) (lines [] (concat (map txt_line d) ++ p')) = map (fun e => map chars (fst e) ++ [show (snd e)]) d ++ match p' with [] => [] | _ => [words [] p'] end.
Proof.
  intros Hd Hp. induction d as [|e d IH]; cbn [map concat app].
  - rewrite lines_tail by exact Hp. cbn [rev app]. destruct p'; reflexivity.
  - destruct (Hd e (or_introl eq_refl)) as (F & _ & Sv). replace ((txt_line e ++ concat (map txt_line d)) ++ p') with ((concat (map (fun a => chars a ++ [sp]) (fst e)) ++ show (snd e)) ++ lf :: (concat (map txt_line d) ++ p')) by (unfold txt_line; rewrite <- !app_assoc; reflexivity).
    rewrite lines_line by (apply line_nl; [apply fits_solid with ps; exact F|exact Sv|reflexivity|discriminate]). cbn [rev app map]. f_equal.
    + apply words_record; [apply fits_solid with ps; exact F|exact Sv].
    + apply IH. intros e' He'. apply Hd. right. exact He'.
Qed.
Lemma line_in ps e c : good_entry show float ps e -> is_space c = true -> c <> sp -> In c (txt_line e) -> c = lf.
Proof.
  intros (F & _ & Sv) Hc Hs H. unfold txt_line in H. rewrite app_assoc in H. apply in_app_iff in H. destruct H as [H|[H|[]]]; [|auto]. exfalso. revert H. apply line_nl; [apply fits_solid with ps; exact F|exact Sv|exact Hc|exact Hs].
Qed.
Lemma txt_cut ps d p d' : (forall e, In e d -> good_entry show float ps e) -> NoDup (map fst d) -> cut_short p (write_txt show d) -> read_txt float ps p = Ok d' ->
  exists k, k < length d /\ (d' = firstn k d \/ exists e x v' v'', nth_error d k = Some e /\ d' = firstn k d ++ [(fst e, x)] /\ show (snd e) = v' ++ v'' /\ v' <> [] /\ float v' = Some x).
Proof.
  intros Hd HN (q & Hq & E) HR. symmetry in E. change (write_txt show d) with (concat (map txt_line d)) in E.
  destruct (prefix_concat _ p q E Hq) as (k & p' & q' & Hk & Ep & Hnth & Hq'). rewrite map_length in Hk. exists k. split; [exact Hk|].
  destruct (nth_error d k) as [e|] eqn:He; [|apply nth_error_None in He; lia].
  assert (Hin : In e d) by (apply nth_error_In with k; exact He).
  assert (Hl : txt_line e = p' ++ q'). { rewrite <- Hnth. rewrite (nth_indep _ [] (txt_line e)) by (rewrite map_length; exact Hk). rewrite map_nth. f_equal. symmetry. apply nth_error_nth with (1 := He). }
  rewrite firstn_map in Ep. assert (Hdk : forall e, In e (firstn k d) -> good_entry show float ps e) by (intros x Hx; apply Hd; rewrite <- (firstn_skipn k d); apply in_app_iff; left; exact Hx).
  destruct (Hd e Hin) as (F & Hv & Sv).
  assert (Hlf : ~ In lf p').
  { intros C. destruct (exists_last Hq') as (q2 & y & ->). unfold txt_line in Hl. rewrite !app_assoc in Hl. apply app_inj_tail in Hl. destruct Hl as [Hl _]. assert (Hx : In lf (concat (map (fun a => chars a ++ [sp]) (fst e)) ++ show (snd e))) by (rewrite Hl; apply in_app_iff; left; exact C).
    revert Hx. apply line_nl; [apply fits_solid with ps; exact F|exact Sv|reflexivity|discriminate]. }
  assert (Hcr : ~ In cr p).
  { intros C. assert (Hc : In cr (concat (map txt_line d))) by (rewrite <- E; apply in_app_iff; left; exact C). apply in_concat in Hc. destruct Hc as (l & Hli & Hc). apply in_map_iff in Hli. destruct Hli as (e' & <- & He').
    pose proof (line_in ps e' cr (Hd e' He') eq_refl ltac:(discriminate) Hc). discriminate. }
  unfold read_txt in HR. rewrite universal_id in HR by exact Hcr. rewrite Ep, (txt_rows_cut ps) in HR by assumption. rewrite records_app in HR.
  assert (HNk : NoDup (map fst (firstn k d))) by (rewrite <- (firstn_skipn k d), map_app in HN; apply nodup_left in HN; exact HN).
  rewrite (records_ok show float ps (firstn k d) Hdk []) in HR by exact HNk. cbn [bind app] in HR.
  assert (Hor : p' = [] \/ match p' with [] => [] | _ :: _ => [words [] p'] end = [words [] p']) by (destruct p'; auto). destruct Hor as [->|Ew]; [cbn [records] in HR; inversion HR; left; reflexivity|]. right. rewrite Ew in HR.
  cbn [records] in HR. destruct (record float ps (words [] p')) as [kx|] eqn:HX; [|discriminate]. cbn [bind] in HR. pose proof (record_length _ _ _ HX) as HL.
  assert (Hlk : length ps = length (fst e)) by (clear - F; induction F; cbn [length]; congruence).
  destruct (words_cut (show (snd e)) Sv (fst e) (fits_solid ps _ F) _ q' (eq_sym Hl) Hq') as (v' & v'' & E1 & E2 & E3); [rewrite HL, Hlk; reflexivity|].
  rewrite E3 in HX. destruct (float v') as [x|] eqn:Hf.
  - assert (HX' : Ok (fst e, x) = Ok kx) by (rewrite <- HX; symmetry; exact (record_ok float ps (fst e) v' x F Hf)). inversion HX'. subst kx. cbn [fst snd] in HR. rewrite dict_set_absent in HR.
    + inversion HR. exists e, x, v', v''. repeat split; auto.
    + intros C. assert (HD : d = firstn k d ++ e :: skipn (S k) d) by (rewrite <- (firstn_skipn k d) at 1; f_equal; clear - He; revert d He; induction k as [|k IH]; intros [|y d] He; try discriminate; cbn in *; [inversion He; reflexivity|apply IH; exact He]).
      rewrite HD, map_app in HN. cbn [map] in HN. apply NoDup_remove_2 in HN. apply HN. apply in_app_iff. left. exact C.
  - exfalso. clear - HX Hf F. revert kx HX. induction F as [|p s ps k [H1 H2] F IH]; intros kx HX; cbn [map app record] in HX.
    + rewrite Hf in HX. discriminate.
    + destruct (allowed p (str (chars s))); [|discriminate]. cbv iota in HX. apply bind_inv in HX. destruct HX as (ky & Hy & _). exact (IH _ Hy).
Qed.
End Txt.

(** ** The dictionary of a chain cut short *)
Lemma in_fst (d : list (key * num)) k v : In (k, v) d -> In k (map fst d).
Proof. intros H. apply in_map_iff. exists (k, v). auto. Qed.
Lemma diagonal_keys d d' : map fst d = map fst d' -> diagonal d = diagonal d'.
Proof.
  revert d'. induction d as [|[k v] d IH]; intros [|[k' v'] d'] H; try discriminate; [reflexivity|]. cbn [map fst] in H. injection H as -> H. unfold diagonal. cbn [flat_map fst]. f_equal. exact (IH d' H).
Qed.
Lemma fill_known states d : forall p q, fill_mc states d p = Ok q -> forall a b v, In ([a; b], v) d -> In a states /\ In b states.
Proof.
  induction d as [|[k v0] d IH]; intros p q H a b v Hi; [destruct Hi|]. cbn [fill_mc] in H. destruct k as [|x [|y [|z k]]]; try discriminate. apply bind_inv in H. destruct H as (i & Hx & H). apply bind_inv in H. destruct H as (j & Hy & H).
  destruct Hi as [E|Hi]; [|apply (IH _ _ H a b v Hi)]. inversion E. subst. apply pos_ok in Hx, Hy. destruct Hx as [Hx <-], Hy as [Hy <-]. split; apply nth_In; assumption.
Qed.
Lemma chain_of_dict_ok d o : chain_of_dict d = Ok o -> 2 <= length (diagonal d) /\ exists p, fill_mc (diagonal d) d (nzeros (length (diagonal d)) (length (diagonal d))) = Ok p /\ rows_sum_to_one p = true /\ o = mkrobj p (diagonal d).
Proof.
  unfold chain_of_dict. intros H. destruct (Nat.leb_spec 2 (length (diagonal d))) as [L|L]; [|discriminate]. cbv iota in H. apply bind_inv in H. destruct H as (p & Hp & H). destruct (rows_sum_to_one p) eqn:E; [|discriminate]. cbv iota in H. inversion H. split; [exact L|]. exists p. auto.
Qed.
Lemma seq_last n : 0 < n -> seq 0 n = seq 0 (n - 1) ++ [n - 1].
Proof. intros H. replace n with (S (n - 1)) at 1 by lia. rewrite seq_S. reflexivity. Qed.
Lemma flat_last {A} n (Hn : 0 < n) (f : nat -> list A) : flat_map f (seq 0 n) = flat_map f (seq 0 (n - 1)) ++ f (n - 1).
Proof. rewrite (seq_last n Hn), flat_map_app. cbn [flat_map]. rewrite app_nil_r. reflexivity. Qed.
Lemma map_last {A} n (Hn : 0 < n) (f : nat -> A) : map f (seq 0 n) = map f (seq 0 (n - 1)) ++ [f (n - 1)].
Proof. rewrite (seq_last n Hn), map_app. reflexivity. Qed.
Definition entries_init (c : chain) : list (key * num) :=
  let s i := nth i (ch_states c) EmptyString in let n := length (ch_states c) in
  flat_map (fun i => map (fun j => ([s i; s j], Fin (mget (ch_p c) i j))) (seq 0 n)) (seq 0 (n - 1)) ++ map (fun j => ([s (n - 1); s j], Fin (mget (ch_p c) (n - 1) j))) (seq 0 (n - 1)).
Definition last_key (c : chain) : key := let s := nth (length (ch_states c) - 1) (ch_states c) EmptyString in [s; s].
Lemma entries_split c : ch_states c <> [] -> mc_entries c = entries_init c ++ [(last_key c, Fin (mget (ch_p c) (length (ch_states c) - 1) (length (ch_states c) - 1)))].
Proof.
  intros H. assert (Hn : 0 < length (ch_states c)) by (destruct (ch_states c); [contradiction|cbn; lia]). unfold mc_entries, entries_init. cbv zeta. rewrite (flat_last _ Hn), <- app_assoc. f_equal. rewrite (map_last _ Hn). reflexivity.
Qed.
Lemma entries_row0 c : ch_states c <> [] -> exists rest, mc_entries c = map (fun j => ([nth 0 (ch_states c) EmptyString; nth j (ch_states c) EmptyString], Fin (mget (ch_p c) 0 j))) (seq 0 (length (ch_states c))) ++ rest.
Proof. intros H. destruct (ch_states c) as [|s l] eqn:E; [contradiction|]. unfold mc_entries. rewrite E. cbn [length]. change (seq 0 (S (length l))) with (0 :: seq 1 (length l)) at 2. cbn [flat_map]. eexists. reflexivity. Qed.
Lemma accepted_ne n c : accepted_chain n c -> ch_states c <> [].
Proof. intros (Hn & _ & _ & _ & (HL & _)) E. rewrite E in HL. cbn in HL. lia. Qed.
Lemma short_dict n c d' k : accepted_chain n c -> map fst d' = map fst (firstn k (mc_entries c)) -> k <= length (entries_init c) -> exists e, chain_of_dict d' = Err e.
Proof.
  intros HA HK Hk. destruct (chain_of_dict d') as [o|e] eqn:E; [|exists e; reflexivity]. exfalso. apply chain_of_dict_ok in E. destruct E as (L & p & Hf & _ & _).
  pose proof (accepted_ne n c HA) as Hne. pose proof HA as (Hn & _ & _ & _ & (HL & HN & _)). pose proof (mc_entries_nodup c HN) as HD.
  assert (Hlast : ~ In (last_key c) (map fst d')).
  { rewrite HK. intros C. rewrite (entries_split c Hne), map_app in HD. cbn [map fst] in HD. apply NoDup_remove_2 in HD. apply HD. rewrite app_nil_r. rewrite (entries_split c Hne), firstn_app in C. replace (k - length (entries_init c)) with 0 in C by lia. rewrite app_nil_r in C.
    apply in_map_iff in C. destruct C as (e & <- & C). apply in_map. rewrite <- (firstn_skipn k (entries_init c)). apply in_app_iff. left. exact C. }
  destruct (entries_row0 c Hne) as (rest & ER). set (f0 := fun j => ([nth 0 (ch_states c) EmptyString; nth j (ch_states c) EmptyString], Fin (mget (ch_p c) 0 j))) in ER. rewrite HL in ER.
  destruct (Nat.ltb_spec k n) as [Hkn|Hkn].
  - assert (HK2 : map fst d' = map (fun j => [nth 0 (ch_states c) EmptyString; nth j (ch_states c) EmptyString]) (firstn k (seq 0 n))).
    { rewrite HK, ER, firstn_app, map_length, seq_length. replace (k - n) with 0 by lia. rewrite app_nil_r, firstn_map, map_map. reflexivity. }
    assert (HS : forall s, In s (diagonal d') -> s = nth 0 (ch_states c) EmptyString).
    { intros s Hs. unfold diagonal in Hs. apply in_flat_map in Hs. destruct Hs as ([k' v] & Hi & Hs). cbn [fst] in Hs. apply in_fst in Hi. rewrite HK2 in Hi. apply in_map_iff in Hi. destruct Hi as (j & <- & _). destruct (String.eqb _ _); [destruct Hs as [<-|[]]; reflexivity|destruct Hs]. }
    assert (HDN : NoDup (diagonal d')).
    { assert (HND : NoDup (map fst d')) by (rewrite HK; rewrite <- (firstn_skipn k (mc_entries c)), map_app in HD; apply nodup_left in HD; exact HD).
      clear - HND. induction d' as [|[k v] d IH]; [constructor|]. unfold diagonal. cbn [flat_map fst]. fold (diagonal d). cbn [map fst] in HND. inversion HND as [|? ? H1 H2]. subst. specialize (IH H2). destruct k as [|a [|b [|]]]; cbn [app]; auto. destruct (String.eqb_spec a b) as [->|]; cbn [app]; auto. constructor; [|exact IH].
      intros C. apply H1. unfold diagonal in C. apply in_flat_map in C. destruct C as ([k' v'] & Hi & C). cbn [fst] in C. destruct k' as [|x [|y [|]]]; try (destruct C; fail). destruct (String.eqb_spec x y) as [->|]; [|destruct C]. destruct C as [->|[]]. apply in_map_iff. exists ([b; b], v'). auto. }
    destruct (diagonal d') as [|a [|b l]] eqn:ED; cbn [length] in L; try lia. inversion HDN as [|? ? H1 H2]. apply H1. left. rewrite (HS a), (HS b); [reflexivity|right; left; reflexivity|left; reflexivity].
  - assert (Hin : In ([nth 0 (ch_states c) EmptyString; nth (n - 1) (ch_states c) EmptyString]) (map fst d')).
    { rewrite HK, ER, firstn_app, map_length, seq_length, map_app. apply in_app_iff. left. rewrite firstn_map, map_map, firstn_all2 by (rewrite seq_length; lia). apply in_map_iff. exists (n - 1). split; [reflexivity|]. apply in_seq. lia. }
    apply in_map_iff in Hin. destruct Hin as ([k' v] & E & Hin). cbn [fst] in E. subst k'. destruct (fill_known _ _ _ _ Hf _ _ _ Hin) as [_ Hb].
    apply Hlast. unfold last_key. rewrite HL. unfold diagonal in Hb. apply in_flat_map in Hb. destruct Hb as ([k' v'] & Hi & Hb). cbn [fst] in Hb. destruct k' as [|x [|y [|]]]; try (destruct Hb; fail). destruct (String.eqb_spec x y) as [->|]; [|destruct Hb]. destruct Hb as [<-|[]]. apply in_map_iff. exists ([y; y], v'). auto.
Qed.
Definition is_fin (x : num) : bool := match x with Fin _ => true | _ => false end.
Lemma num_sum_fin_all l : is_fin (num_sum l) = true -> forall x, In x l -> is_fin x = true.
Proof.
  unfold num_sum. assert (G : forall a, is_fin (fold_left num_add l a) = true -> is_fin a = true /\ forall x, In x l -> is_fin x = true).
  { induction l as [|y l IH]; intros a H; [split; [exact H|intros x []]|]. cbn [fold_left] in H. destruct (IH _ H) as [H1 H2]. destruct a, y; try discriminate; (split; [reflexivity|]); intros w [<-|Hw]; auto. }
  intros H. apply (G _ H).
Qed.
Lemma Qcabs_two (a b t : Qc) : (- t <= a - 1 <= t)%Qc -> (- t <= b - 1 <= t)%Qc -> (Qcabs (a - b) <= t + t)%Qc.
Proof. intros [H1 H2] [H3 H4]. apply Qcabs_le. split; qclra. Qed.
Lemma last_dict n c d' x o : accepted_chain n c -> d' = entries_init c ++ [(last_key c, x)] -> chain_of_dict d' = Ok o -> nearly_chain n c o.
Proof.
  intros HA -> H. pose proof (accepted_ne n c HA) as Hne. pose proof HA as (Hn & HW & Hpr & Hst & (HL & HN & HB)). pose proof (mc_entries_nodup c HN) as HD.
  assert (HK : map fst (entries_init c ++ [(last_key c, x)]) = map fst (mc_entries c)) by (rewrite (entries_split c Hne), !map_app; reflexivity).
  assert (HDg : diagonal (entries_init c ++ [(last_key c, x)]) = ch_states c) by (rewrite (diagonal_keys _ _ HK); apply mc_diagonal; exact HN).
  apply chain_of_dict_ok in H. rewrite HDg, HL in H. destruct H as (_ & p & Hf & Hs & ->).
  assert (HPK : pair_keys (ch_states c) (entries_init c ++ [(last_key c, x)])).
  { pose proof (pair_keys_entries c) as Q. intros k v Hi. apply in_fst in Hi. rewrite HK in Hi. apply in_map_iff in Hi. destruct Hi as ([k' v'] & E & Hi). cbn [fst] in E. subst k'. exact (Q _ _ Hi). }
  destruct (fill_ok (ch_states c) _ HN HPK ltac:(rewrite HK; exact HD) (nzeros n n) ltac:(rewrite HL; apply nzeros_shape)) as (q & Hq & Hsh & Hget). rewrite Hf in Hq. inversion Hq. subst q. rewrite HL in *.
  assert (Hx : nget p (n - 1) (n - 1) = x).
  { rewrite Hget by lia. replace (lookup _ _) with (Some x); [reflexivity|]. symmetry. apply lookup_in; [rewrite HK; exact HD|]. apply in_app_iff. right. left. unfold last_key. rewrite HL. reflexivity. }
  assert (HF : exists y, x = Fin y).
  { assert (Hr : In (nth (n - 1) p []) p) by (apply nth_In; destruct Hsh as [E _]; rewrite E; lia). unfold rows_sum_to_one in Hs. rewrite forallb_forall in Hs. specialize (Hs _ Hr).
    assert (HF : is_fin (num_sum (nth (n - 1) p [])) = true) by (destruct (num_sum (nth (n - 1) p [])); [reflexivity|discriminate|discriminate|discriminate]).
    assert (Hxx : is_fin x = true). { apply (num_sum_fin_all _ HF). rewrite <- Hx. unfold nget. apply nth_In. rewrite (proj2 Hsh _ Hr). lia. }
    destruct x as [y| | |]; try discriminate. exists y. reflexivity. }
  destruct HF as (y & ->). clear Hx.
  set (P := mk n n (fun i j => if Nat.eqb i (n - 1) && Nat.eqb j (n - 1) then y else mget (ch_p c) i j)).
  assert (HWP : wf n n P) by apply wf_mk.
  assert (HG : forall i j, i < n -> j < n -> mget P i j = if Nat.eqb i (n - 1) && Nat.eqb j (n - 1) then y else mget (ch_p c) i j) by (intros i j Hi Hj; unfold P; rewrite mget_mk by assumption; reflexivity).
  assert (HE : mc_entries (mkchain P (ch_states c)) = entries_init c ++ [(last_key c, Fin y)]).
  { rewrite entries_split by exact Hne. unfold entries_init, last_key. cbn [ch_states ch_p]. rewrite HL. rewrite (HG (n - 1) (n - 1)) by lia. rewrite Nat.eqb_refl. cbn [andb]. f_equal. f_equal.
    - apply flat_map_ext_in. intros i Hi. apply in_seq in Hi. apply map_ext_in. intros j Hj. apply in_seq in Hj. rewrite HG by lia. destruct (Nat.eqb_spec i (n - 1)); [lia|reflexivity].
    - apply map_ext_in. intros j Hj. apply in_seq in Hj. rewrite HG by lia. destruct (Nat.eqb_spec j (n - 1)); [lia|]. rewrite andb_false_r. reflexivity. }
  assert (Hp : p = map (map Fin) P). { rewrite <- HE in Hf. pose proof (fill_entries n (mkchain P (ch_states c)) HWP HL HN) as Q. cbn [ch_states] in Q. rewrite Q in Hf. inversion Hf. reflexivity. }
  subst p. apply (rows_sum_fin n n P HWP) in Hs. exists P. split; [reflexivity|]. split; [exact HWP|]. split.
  - intros i j Hi Hj Hij. rewrite HG by assumption. destruct (Nat.eqb_spec i (n - 1)) as [->|]; [|reflexivity]. destruct (Nat.eqb_spec j (n - 1)) as [->|]; [contradiction|reflexivity].
  - rewrite HG by lia. rewrite Nat.eqb_refl. cbn [andb].
    assert (HS1 : (sumn n (fun j => mget P (n - 1) j) - sumn n (fun j => mget (ch_p c) (n - 1) j) = y - mget (ch_p c) (n - 1) (n - 1))%Qc).
    { assert (SL : forall f, sumn n f = (sumn (n - 1) f + f (n - 1)%nat)%Qc) by (intros f; replace n with (S (n - 1)) at 1 by lia; reflexivity).
      rewrite !SL. rewrite (HG (n - 1) (n - 1)) by lia. rewrite Nat.eqb_refl. cbn [andb].
      rewrite (sumn_ext (n - 1) (fun j => mget P (n - 1) j) (fun j => mget (ch_p c) (n - 1) j)); [ring|]. intros j Hj. rewrite HG by lia. destruct (Nat.eqb_spec j (n - 1)); [lia|]. rewrite andb_false_r. reflexivity. }
    rewrite <- HS1. apply Qcabs_two; [apply (Hs (n - 1)); lia|apply (Hst (n - 1)); lia].
Qed.
