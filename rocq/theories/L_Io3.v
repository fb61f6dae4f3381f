(** L_Io3: text and CSV files. *)
From Verif Require Import S_Io L_Gen1 L_Io1.
Open Scope nat_scope.
Open Scope res_scope.

(** ** TXT *)
Lemma universal_id t : ~ In cr t -> universal t = t.
Proof.
  induction t as [|c t IH]; intros H; [reflexivity|]. cbn [universal]. destruct (Ascii.eqb_spec c cr) as [->|Hc]; [exfalso; apply H; left; reflexivity|].
  rewrite IH; [reflexivity|]. intros C. apply H. right. exact C.
Qed.
Lemma lines_line l r : ~ In lf l -> forall acc, lines acc (l ++ lf :: r) = (rev acc ++ l) :: lines [] r.
Proof.
  induction l as [|c l IH]; intros H acc.
  - cbn [app lines]. rewrite Ascii.eqb_refl, app_nil_r. reflexivity.
  - cbn [app lines]. destruct (Ascii.eqb_spec c lf) as [->|Hc]; [exfalso; apply H; left; reflexivity|]. rewrite IH; [|intros C; apply H; right; exact C]. cbn [rev]. rewrite <- app_assoc. reflexivity.
Qed.
Definition solid (w : text) : Prop := w <> [] /\ forall c, In c w -> is_space c = false.
Lemma words_run w : (forall c, In c w -> is_space c = false) -> forall acc r, words acc (w ++ r) = words (rev w ++ acc) r.
Proof.
  induction w as [|c w IH]; intros H acc r; [reflexivity|]. cbn [app words]. rewrite (H c (or_introl eq_refl)). rewrite IH by (intros d Hd; apply H; right; exact Hd). cbn [rev]. rewrite <- app_assoc. reflexivity.
Qed.
Lemma words_word w r : solid w -> words [] (w ++ sp :: r) = w :: words [] r.
Proof.
  intros [Hne H]. rewrite words_run by exact H. rewrite app_nil_r. cbn [words]. change (is_space sp) with true. cbv iota. destruct (rev w) as [|c u] eqn:E.
  - exfalso. apply Hne. rewrite <- (rev_involutive w), E. reflexivity.
  - rewrite <- E, rev_involutive. reflexivity.
Qed.
Lemma words_last w : solid w -> words [] w = [w].
Proof.
  intros [Hne H]. rewrite <- (app_nil_r w) at 1. rewrite words_run by exact H. rewrite app_nil_r. cbn [words]. destruct (rev w) as [|c u] eqn:E.
  - exfalso. apply Hne. rewrite <- (rev_involutive w), E. reflexivity.
  - rewrite <- E, rev_involutive. reflexivity.
Qed.
Lemma solid_no w c : solid w -> is_space c = true -> ~ In c w.
Proof. intros [_ H] Hc C. rewrite (H c C) in Hc. discriminate. Qed.

Section Txt.
Variable show : num -> text.
Variable float : text -> option num.
(** keys that fit the parameters: as many fields, admissible values, no white space *)
Definition fits (ps : list (string * list string)) (k : key) : Prop :=
  Forall2 (fun p s => allowed p s = true /\ solid (chars s)) ps k.
Definition good_entry (ps : list (string * list string)) (e : key * num) : Prop :=
  fits ps (fst e) /\ float (show (snd e)) = Some (snd e) /\ solid (show (snd e)).

Lemma words_record k v : Forall (fun s => solid (chars s)) k -> solid v -> words [] (concat (map (fun a => chars a ++ [sp]) k) ++ v) = map chars k ++ [v].
Proof.
  induction 1 as [|s k Hs Hk IH]; intros Hv; cbn [map concat app]; [apply words_last; exact Hv|]. rewrite <- !app_assoc. cbn [app]. rewrite words_word by exact Hs. rewrite IH by exact Hv. reflexivity.
Qed.
Lemma record_ok ps k v x : fits ps k -> float v = Some x -> record float ps (map chars k ++ [v]) = Ok (k, x).
Proof.
  intros H Hv. induction H as [|p s ps k [H1 H2] H IH]; cbn [map app record]; [rewrite Hv; reflexivity|].
  rewrite str_chars, H1. cbv iota. rewrite IH. reflexivity.
Qed.
Lemma line_nl k v c : Forall (fun s => solid (chars s)) k -> solid v -> is_space c = true -> c <> sp -> ~ In c (concat (map (fun a => chars a ++ [sp]) k) ++ v).
Proof.
  intros Hk Hv Hc Hsp. rewrite in_app_iff. intros [C|C]; [|exact (solid_no _ _ Hv Hc C)]. apply in_concat in C. destruct C as (w & Hw & C). apply in_map_iff in Hw. destruct Hw as (s & <- & Hs).
  rewrite Forall_forall in Hk. apply in_app_iff in C. destruct C as [C|[C|[]]]; [exact (solid_no _ _ (Hk s Hs) Hc C)|congruence].
Qed.
Lemma fits_solid ps k : fits ps k -> Forall (fun s => solid (chars s)) k.
Proof. induction 1 as [|p s ps k [H1 H2] H IH]; constructor; assumption. Qed.

Lemma txt_rows ps d : (forall e, In e d -> good_entry ps e) ->
  map (words []) (lines [] (write_txt show d)) = map (fun e => map chars (fst e) ++ [show (snd e)]) d.
Proof.
  induction d as [|e d IH]; intros H; [reflexivity|]. destruct (H e (or_introl eq_refl)) as (F & _ & Sv). unfold write_txt. cbn [map concat]. rewrite app_assoc, <- app_assoc. cbn [app].
  rewrite lines_line by (apply line_nl; [apply fits_solid with ps; exact F|exact Sv|reflexivity|discriminate]). cbn [rev app map]. fold (write_txt show d). f_equal.
  - apply words_record; [apply fits_solid with ps; exact F|exact Sv].
  - apply IH. intros e' He'. apply H. right. exact He'.
Qed.
Lemma records_ok ps d : (forall e, In e d -> good_entry ps e) -> forall d0, NoDup (map fst (d0 ++ d)) ->
  records float ps (map (fun e => map chars (fst e) ++ [show (snd e)]) d) d0 = Ok (d0 ++ d).
Proof.
  induction d as [|[k v] d IH]; intros H d0 HN; [rewrite app_nil_r; reflexivity|]. destruct (H _ (or_introl eq_refl)) as (F & Hv & _). cbn [map records fst snd] in *.
  rewrite (record_ok ps k (show v) v F Hv). cbn [bind fst snd]. rewrite map_app in HN. cbn in HN. rewrite dict_set_absent; [|intros C; apply NoDup_remove_2 in HN; apply HN; rewrite in_app_iff; left; exact C].
  rewrite IH; [rewrite <- app_assoc; reflexivity|intros e He; apply H; right; exact He|]. rewrite <- app_assoc, map_app. exact HN.
Qed.
Lemma txt_read_back ps d : (forall e, In e d -> good_entry ps e) -> NoDup (map fst d) -> read_txt float ps (write_txt show d) = Ok d.
Proof.
  intros H HN. unfold read_txt. rewrite universal_id.
  - rewrite (txt_rows ps) by exact H. apply (records_ok ps d H []). exact HN.
  - unfold write_txt. intros C. apply in_concat in C. destruct C as (w & Hw & C). apply in_map_iff in Hw. destruct Hw as (e & <- & He). destruct (H e He) as (F & _ & Sv).
    rewrite app_assoc in C. apply in_app_iff in C. destruct C as [C|[C|[]]]; [|discriminate]. revert C. apply line_nl; [apply fits_solid with ps; exact F|exact Sv|reflexivity|discriminate].
Qed.
End Txt.

(** ** CSV *)
Section CsvProofs.
Variable limit : nat.
Variable nul_ok : bool.
Notation csv_lines := (csv_lines limit nul_ok).
Notation csv_char := (csv_char limit).
Notation csv_chars := (csv_chars limit).

Lemma raw_acc t : t <> [] -> exists l ls, raw_lines [] t = l :: ls /\ forall acc, raw_lines acc t = (rev acc ++ l) :: ls.
Proof.
  induction t as [|c t IH]; intros H; [contradiction|]. cbn [raw_lines].
  destruct (Ascii.eqb_spec c lf) as [->|Hc]; [exists [lf], (raw_lines [] t); split; [reflexivity|]; intros acc; reflexivity|].
  destruct (Ascii.eqb_spec c cr) as [->|Hc'].
  - destruct t as [|c' t']; [exists [cr], []; split; [reflexivity|intros acc; reflexivity]|].
    destruct (Ascii.eqb_spec c' lf) as [->|Hc2]; [exists [cr; lf], (raw_lines [] t'); split; [reflexivity|intros acc; cbn [rev]; rewrite <- app_assoc; reflexivity]|].
    exists [cr], (raw_lines [] (c' :: t')). split; [reflexivity|intros acc; reflexivity].
  - destruct t as [|c' t'].
    + exists [c], []. split; [reflexivity|]. intros acc. cbn [raw_lines]. reflexivity.
    + destruct IH as (l & ls & E1 & E2); [discriminate|]. exists (c :: l), ls. split; [rewrite E2; reflexivity|]. intros acc. rewrite E2. cbn [rev]. rewrite <- app_assoc. reflexivity.
Qed.
Lemma raw_cons c t : t <> [] -> is_nl c = false -> exists l ls, raw_lines [] t = l :: ls /\ raw_lines [] (c :: t) = (c :: l) :: ls.
Proof.
  intros Ht Hc. unfold is_nl in Hc. apply orb_false_iff in Hc. destruct Hc as [H1 H2]. destruct (raw_acc t Ht) as (l & ls & E1 & E2). exists l, ls. split; [exact E1|]. cbn [raw_lines]. rewrite H1, H2. rewrite E2. reflexivity.
Qed.

(** one character at a time *)
Definition nul_free (t : text) : Prop := nul_ok = true \/ ~ In "000"%char t.
Lemma raw_in t : forall acc l c, In l (raw_lines acc t) -> In c l -> In c (rev acc ++ t).
Proof.
  assert (G : forall n t, length t <= n -> forall acc l c, In l (raw_lines acc t) -> In c l -> In c (rev acc ++ t)).
  { induction n as [|n IH]; intros u Hu acc l c Hl Hc.
    - destruct u; [|cbn in Hu; lia]. cbn in Hl. destruct acc; [contradiction|]. destruct Hl as [<-|[]]. rewrite app_nil_r. exact Hc.
    - destruct u as [|d u]; [cbn in Hl; destruct acc; [contradiction|]; destruct Hl as [<-|[]]; rewrite app_nil_r; exact Hc|]. cbn in Hu. cbn [raw_lines] in Hl.
      destruct (Ascii.eqb_spec d lf) as [->|Hd]; [destruct Hl as [<-|Hl]|].
      + cbn [rev] in Hc. apply in_app_iff in Hc. apply in_app_iff. destruct Hc as [Hc|[<-|[]]]; [left; exact Hc|right; left; reflexivity].
      + apply in_app_iff. right. right. exact (IH u ltac:(lia) [] l c Hl Hc).
      + destruct (Ascii.eqb_spec d cr) as [->|Hd'].
        * destruct u as [|d' u].
          -- destruct Hl as [<-|[]]. cbn [rev] in Hc. exact Hc.
          -- destruct (Ascii.eqb_spec d' lf) as [->|Hd2]; (destruct Hl as [<-|Hl]; [cbn [rev] in Hc|]).
             ++ rewrite <- app_assoc in Hc. apply in_app_iff in Hc. apply in_app_iff. destruct Hc as [Hc|[<-|[<-|[]]]]; [left; exact Hc|right; left; reflexivity|right; right; left; reflexivity].
             ++ apply in_app_iff. right. right. right. cbn in Hu. exact (IH u ltac:(lia) [] l c Hl Hc).
             ++ apply in_app_iff in Hc. apply in_app_iff. destruct Hc as [Hc|[<-|[]]]; [left; exact Hc|right; left; reflexivity].
             ++ apply in_app_iff. right. right. exact (IH (d' :: u) ltac:(lia) [] l c Hl Hc).
        * specialize (IH u ltac:(lia) (d :: acc) l c Hl Hc). cbn [rev] in IH. rewrite <- app_assoc in IH. exact IH. }
  intros acc l c. apply (G (length t) t (le_n _)).
Qed.
Lemma guard_line t l ls : nul_free t -> raw_lines [] t = l :: ls -> nul_ok || negb (existsb (Ascii.eqb "000") l) = true.
Proof.
  intros [->|H] E; [reflexivity|]. apply orb_true_iff. right. apply negb_true_iff. destruct (existsb _ l) eqn:EX; [|reflexivity]. exfalso. apply H. apply existsb_exists in EX. destruct EX as (c & Hc & Ec). apply Ascii.eqb_eq in Ec. subst c.
  apply (raw_in t [] l); [rewrite E; left; reflexivity|exact Hc].
Qed.
Lemma nul_tail c t : nul_free (c :: t) -> nul_free t.
Proof. intros [H|H]; [left; exact H|right; intros C; apply H; right; exact C]. Qed.

Lemma step_plain m c t : t <> [] -> nul_free (c :: t) -> is_nl c = false ->
  csv_lines m (raw_lines [] (c :: t)) = (m' <- csv_char m c ;; csv_lines m' (raw_lines [] t)).
Proof.
  intros Ht HN Hc. destruct (raw_cons c t Ht Hc) as (l & ls & E1 & E2). rewrite E1, E2. cbn [M_Io.csv_lines M_Io.csv_chars].
  rewrite (guard_line (c :: t) _ ls HN E2). destruct (csv_char m c) as [m'|] eqn:EC; cbn [bind]; [|reflexivity]. rewrite (guard_line t l ls (nul_tail _ _ HN) E1). reflexivity.
Qed.
Lemma step_quoted m c t m' : t <> [] -> nul_free (c :: t) -> csv_char m c = Ok m' -> c_st m' = InQuoted ->
  csv_lines m (raw_lines [] (c :: t)) = csv_lines m' (raw_lines [] t).
Proof.
  intros Ht HN EC ES. destruct (is_nl c) eqn:Enl; [|rewrite step_plain by assumption; rewrite EC; reflexivity].
  assert (Heol : csv_eol m' = m') by (unfold csv_eol; rewrite ES; reflexivity).
  assert (Hone : csv_lines m ([c] :: raw_lines [] t) = csv_lines m' (raw_lines [] t)).
  { cbn [M_Io.csv_lines M_Io.csv_chars]. replace (nul_ok || negb (existsb (Ascii.eqb "000") [c])) with true.
    - rewrite EC. cbn [bind]. rewrite Heol, ES. reflexivity.
    - symmetry. destruct HN as [->|HN]; [reflexivity|]. apply orb_true_iff. right. cbn [existsb]. destruct (Ascii.eqb_spec "000" c) as [<-|]; [exfalso; apply HN; left; reflexivity|reflexivity]. }
  unfold is_nl in Enl. cbn [raw_lines]. destruct (Ascii.eqb c lf) eqn:E1; [exact Hone|]. cbn [orb] in Enl. rewrite Enl. destruct t as [|c' t']; [contradiction|].
  destruct (Ascii.eqb c' lf) eqn:E2; [|exact Hone]. cbn [rev app raw_lines]. rewrite E2. cbn [M_Io.csv_lines M_Io.csv_chars]. cbn [rev app M_Io.csv_chars].
  assert (G : forall l, (forall d, In d l -> In d (c :: c' :: t')) -> nul_ok || negb (existsb (Ascii.eqb "000") l) = true).
  { intros l Hl. destruct HN as [->|HN]; [reflexivity|]. apply orb_true_iff. right. apply negb_true_iff. destruct (existsb _ l) eqn:EX; [|reflexivity]. exfalso. apply HN. apply existsb_exists in EX. destruct EX as (d & Hd & Ed). apply Ascii.eqb_eq in Ed. subst d. apply Hl. exact Hd. }
  rewrite (G [c; c']) by (intros d [<-|[<-|[]]]; cbn; auto). rewrite (G [c']) by (intros d [<-|[]]; cbn; auto). rewrite EC. cbn [bind]. reflexivity.
Qed.

(** one field *)
Definition at_start (m : creader) : Prop := (c_st m = StartRecord \/ c_st m = StartField) /\ c_field m = [].
Definition after (fs : list text) (w : text) (m : creader) : Prop := (c_st m = InField \/ c_st m = QuoteInQuoted) /\ c_field m = rev w /\ c_fields m = fs.

Lemma add_ok st m c : length (c_field m) < limit -> add_char limit st m c = Ok (mkcr st (c :: c_field m) (c_fields m)).
Proof. intros H. unfold add_char. apply Nat.ltb_lt in H. rewrite H. reflexivity. Qed.
Lemma not_special c : special c = false -> is_nl c = false /\ Ascii.eqb c quote = false /\ Ascii.eqb c comma = false.
Proof. unfold special, is_nl. rewrite !orb_false_iff. intros (((H1 & H2) & H3) & H4). rewrite H3, H4. auto. Qed.
Lemma in_field w : existsb special w = false -> forall u fs r, r <> [] -> nul_free (w ++ r) -> length u + length w <= limit ->
  csv_lines (mkcr InField u fs) (raw_lines [] (w ++ r)) = csv_lines (mkcr InField (rev w ++ u) fs) (raw_lines [] r).
Proof.
  induction w as [|c w IH]; intros HS u fs r Hr HN HL; [reflexivity|]. cbn [existsb] in HS. apply orb_false_iff in HS. destruct HS as [Hc HS]. destruct (not_special c Hc) as (N1 & N2 & N3). cbn [app length] in *.
  rewrite step_plain; [|destruct w; [exact Hr|discriminate]|exact HN|exact N1]. unfold M_Io.csv_char. cbn [c_st]. rewrite N1, N3. rewrite add_ok by (cbn; lia). cbn [bind c_field c_fields].
  rewrite IH; [cbn [rev]; rewrite <- app_assoc; reflexivity|exact HS|exact Hr|exact (nul_tail _ _ HN)|cbn [length]; lia].
Qed.
Lemma in_quoted w : forall u fs r, r <> [] -> nul_free (double_quotes w ++ r) -> length u + length w <= limit ->
  csv_lines (mkcr InQuoted u fs) (raw_lines [] (double_quotes w ++ r)) = csv_lines (mkcr InQuoted (rev w ++ u) fs) (raw_lines [] r).
Proof.
  induction w as [|c w IH]; intros u fs r Hr HN HL; [reflexivity|]. cbn [double_quotes flat_map] in *. fold (double_quotes w) in *. cbn [length] in HL.
  assert (Hne : double_quotes w ++ r <> []) by (destruct (double_quotes w); [exact Hr|discriminate]).
  destruct (Ascii.eqb_spec c quote) as [->|Hc].
  - cbn [app] in *. rewrite step_plain; [|discriminate|exact HN|reflexivity]. unfold M_Io.csv_char at 1. cbn [c_st c_field c_fields]. rewrite Ascii.eqb_refl. cbn [bind].
    rewrite (step_quoted _ _ _ (mkcr InQuoted (quote :: u) fs)); [|exact Hne|exact (nul_tail _ _ HN)| |reflexivity].
    + rewrite IH; [cbn [rev]; rewrite <- app_assoc; reflexivity|exact Hr|exact (nul_tail _ _ (nul_tail _ _ HN))|cbn [length]; lia].
    + unfold M_Io.csv_char. cbn [c_st c_field c_fields]. rewrite Ascii.eqb_refl. apply (add_ok InQuoted (mkcr QuoteInQuoted u fs)). cbn. lia.
  - cbn [app] in *. rewrite (step_quoted _ _ _ (mkcr InQuoted (c :: u) fs)); [|exact Hne|exact HN| |reflexivity].
    + rewrite IH; [cbn [rev]; rewrite <- app_assoc; reflexivity|exact Hr|exact (nul_tail _ _ HN)|cbn [length]; lia].
    + unfold M_Io.csv_char. cbn [c_st]. destruct (Ascii.eqb_spec c quote) as [|]; [contradiction|]. apply (add_ok InQuoted (mkcr InQuoted u fs)). cbn. lia.
Qed.
Lemma nul_app t u : nul_free (t ++ u) -> nul_free u.
Proof. intros [H|H]; [left; exact H|right; intros C; apply H; apply in_app_iff; right; exact C]. Qed.
Lemma read_field w m r : w <> [] -> length w <= limit -> at_start m -> r <> [] -> nul_free (csv_field w ++ r) ->
  exists m', csv_lines m (raw_lines [] (csv_field w ++ r)) = csv_lines m' (raw_lines [] r) /\ after (c_fields m) w m'.
Proof.
  intros Hw HL [Hst Hf] Hr HN. destruct m as [st f fs]. cbn [c_st c_field c_fields] in *. subst f. unfold csv_field in *. destruct (existsb special w) eqn:ES.
  - exists (mkcr QuoteInQuoted (rev w) fs). split; [|split; [right; reflexivity|split; reflexivity]]. cbn [app] in *. rewrite <- app_assoc in *. cbn [app] in *.
    rewrite step_plain; [|destruct (double_quotes w); discriminate|exact HN|reflexivity].
    assert (E : csv_char (mkcr st [] fs) quote = Ok (mkcr InQuoted [] fs)) by (destruct Hst as [->| ->]; reflexivity). rewrite E. cbn [bind].
    rewrite in_quoted; [|discriminate|exact (nul_tail _ _ HN)|cbn; lia]. rewrite app_nil_r. rewrite step_plain; [|exact Hr|exact (nul_app _ _ (nul_tail _ _ HN))|reflexivity]. reflexivity.
  - destruct w as [|c w]; [contradiction|]. cbn [existsb] in ES. apply orb_false_iff in ES. destruct ES as [Hc ES]. destruct (not_special c Hc) as (N1 & N2 & N3). cbn [app length] in *.
    exists (mkcr InField (rev (c :: w)) fs). split; [|split; [left; reflexivity|split; reflexivity]].
    rewrite step_plain; [|destruct w; [exact Hr|discriminate]|exact HN|exact N1].
    assert (E : csv_char (mkcr st [] fs) c = Ok (mkcr InField [c] fs)).
    { unfold M_Io.csv_char. cbn [c_st]. rewrite N1, N2, N3. destruct Hst as [->| ->]; apply (add_ok InField (mkcr _ [] fs)); cbn; lia. }
    rewrite E. cbn [bind]. rewrite in_field; [cbn [rev]; reflexivity|exact ES|exact Hr|exact (nul_tail _ _ HN)|cbn [length]; lia].
Qed.
Lemma read_row ws : (forall w, In w ws -> w <> [] /\ length w <= limit) -> ws <> [] -> forall m r, at_start m -> nul_free (join comma (map csv_field ws) ++ cr :: lf :: r) ->
  csv_lines m (raw_lines [] (join comma (map csv_field ws) ++ cr :: lf :: r)) = (rows <- csv_lines fresh (raw_lines [] r) ;; Ok ((rev (c_fields m) ++ ws) :: rows)).
Proof.
  induction ws as [|w ws IH]; intros H Hne m r Hm HN; [contradiction|]. destruct (H w (or_introl eq_refl)) as [Hw HL]. destruct ws as [|w' ws].
  - cbn [map join] in *. destruct (read_field w m (cr :: lf :: r) Hw HL Hm ltac:(discriminate) HN) as (m' & E & (Hs & Hf & Hfs)). rewrite E.
    change (raw_lines [] (cr :: lf :: r)) with ([cr; lf] :: raw_lines [] r). cbn [M_Io.csv_lines M_Io.csv_chars].
    replace (nul_ok || negb (existsb (Ascii.eqb "000") [cr; lf])) with true by (destruct nul_ok; reflexivity).
    destruct m' as [st f fs]. cbn [c_st c_field c_fields] in *. subst f fs.
    assert (E1 : csv_char (mkcr st (rev w) (c_fields m)) cr = Ok (mkcr EatCrnl [] (w :: c_fields m))) by (destruct Hs as [->| ->]; unfold M_Io.csv_char, save_field; cbn; rewrite rev_involutive; reflexivity).
    rewrite E1. cbn [bind]. change (csv_char (mkcr EatCrnl [] (w :: c_fields m)) lf) with (@Ok creader (mkcr EatCrnl [] (w :: c_fields m))). cbn [bind csv_eol c_st c_field c_fields rev]. reflexivity.
  - change (join comma (map csv_field (w :: w' :: ws))) with (csv_field w ++ comma :: join comma (map csv_field (w' :: ws))) in *. rewrite <- app_assoc in *. cbn [app] in *.
    destruct (read_field w m (comma :: join comma (map csv_field (w' :: ws)) ++ cr :: lf :: r) Hw HL Hm ltac:(discriminate) HN) as (m' & E & (Hs & Hf & Hfs)). rewrite E.
    rewrite step_plain; [|destruct (join comma (map csv_field (w' :: ws))); discriminate|exact (nul_app _ _ HN)|reflexivity]. destruct m' as [st f fs]. cbn [c_st c_field c_fields] in *. subst f fs.
    assert (E1 : csv_char (mkcr st (rev w) (c_fields m)) comma = Ok (mkcr StartField [] (w :: c_fields m))) by (destruct Hs as [->| ->]; unfold M_Io.csv_char, save_field; cbn; rewrite rev_involutive; reflexivity).
    rewrite E1. cbn [bind]. rewrite IH; [|intros x Hx; apply H; right; exact Hx|discriminate|split; [right; reflexivity|reflexivity]|exact (nul_tail _ _ (nul_app _ _ HN))].
    cbn [c_fields rev]. rewrite <- app_assoc. reflexivity.
Qed.
Definition csv_ok (w : text) : Prop := w <> [] /\ length w <= limit /\ nul_free w.
Lemma csv_row_plain ws : (forall w, In w ws -> csv_ok w) -> csv_row ws = join comma (map csv_field ws) ++ [cr; lf].
Proof. intros H. unfold csv_row. destruct ws as [|[|c w] [|w' ws]]; try reflexivity. destruct (H [] (or_introl eq_refl)) as (C & _). contradiction. Qed.
Lemma join_in l c : In c (join comma l) -> c = comma \/ exists w, In w l /\ In c w.
Proof.
  induction l as [|w l IH]; intros H; [contradiction|]. destruct l as [|w' l]; [right; exists w; split; [left; reflexivity|exact H]|].
  change (join comma (w :: w' :: l)) with (w ++ comma :: join comma (w' :: l)) in H. apply in_app_iff in H. destruct H as [H|[H|H]]; [right; exists w; split; [left; reflexivity|exact H]|left; auto|].
  destruct (IH H) as [H1|(x & Hx & H1)]; [left; exact H1|right; exists x; split; [right; exact Hx|exact H1]].
Qed.
Lemma field_in w c : In c (csv_field w) -> c = quote \/ In c w.
Proof.
  unfold csv_field. destruct (existsb special w); [|auto]. intros [H|H]; [left; auto|]. apply in_app_iff in H. destruct H as [H|[H|[]]]; [|left; auto]. right. unfold double_quotes in H. apply in_flat_map in H.
  destruct H as (d & Hd & H). destruct (Ascii.eqb_spec d quote) as [->|]; [destruct H as [<-|[<-|[]]]; exact Hd|destruct H as [<-|[]]; exact Hd].
Qed.
Lemma csv_write_in rows c : (forall ws, In ws rows -> forall w, In w ws -> csv_ok w) -> In c (csv_write rows) -> c = comma \/ c = quote \/ c = cr \/ c = lf \/ exists ws w, In ws rows /\ In w ws /\ In c w.
Proof.
  intros HO H. unfold csv_write in H. apply in_concat in H. destruct H as (t & Ht & H). apply in_map_iff in Ht. destruct Ht as (ws & <- & Hws). rewrite csv_row_plain in H by (apply HO; exact Hws).
  apply in_app_iff in H. destruct H as [H|[H|[H|[]]]]; auto. apply join_in in H. destruct H as [H|(x & Hx & H)]; [auto|]. apply in_map_iff in Hx. destruct Hx as (w & <- & Hw). apply field_in in H. destruct H as [H|H]; [auto|]. right; right; right; right. eauto.
Qed.
Lemma csv_read_back rows : (forall ws, In ws rows -> ws <> [] /\ forall w, In w ws -> csv_ok w) -> csv_read limit nul_ok (csv_write rows) = Ok rows.
Proof.
  intros H. assert (HN : nul_free (csv_write rows)).
  { unfold nul_free. destruct nul_ok eqn:EN; [left; reflexivity|right]. intros C. apply csv_write_in in C; [|intros ws Hws; apply H; exact Hws]. destruct C as [C|[C|[C|[C|(ws & w & Hws & Hw & C)]]]]; try discriminate.
    destruct (H ws Hws) as [_ HO]. destruct (HO w Hw) as (_ & _ & [C'|C']); [congruence|contradiction]. }
  unfold csv_read. revert HN. induction rows as [|ws rows IH]; intros HN; [reflexivity|]. destruct (H ws (or_introl eq_refl)) as [Hne HO]. unfold csv_write in *. cbn [map concat] in *. rewrite csv_row_plain in * by exact HO. rewrite <- app_assoc in *. cbn [app] in *.
  rewrite read_row; [|intros w Hw; destruct (HO w Hw) as (A & B & _); auto|exact Hne|split; [left; reflexivity|reflexivity]|exact HN]. rewrite IH.
  - reflexivity.
  - intros ws' Hws'. apply H. right. exact Hws'.
  - exact (nul_tail _ _ (nul_tail _ _ (nul_app _ _ HN))).
Qed.
End CsvProofs.
