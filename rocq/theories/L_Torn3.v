(** L_Torn3: tables of comma-separated values cut short. *)
From Verif Require Import S_Disk L_Gen1 L_Valid2 L_Io1 L_Io3 L_Io4 L_Json L_Xml L_Files L_Torn L_Torn2.
Open Scope nat_scope.
Open Scope res_scope.

(** ** Lines of a text that grows *)
Lemma raw_split t : t <> [] -> forall acc, raw_lines acc t = [rev acc ++ t] \/
  exists l t2, t2 <> [] /\ length t2 < length t /\ forall q, raw_lines acc (t ++ q) = l :: raw_lines [] (t2 ++ q).
Proof.
  induction t as [|c t IH]; intros Ht acc; [contradiction|]. cbn [raw_lines app].
  destruct (Ascii.eqb_spec c lf) as [->|Hc].
  - destruct t as [|d t]; [left; reflexivity|]. right. exists (rev (lf :: acc)), (d :: t). split; [discriminate|]. split; [cbn; lia|]. intros q. reflexivity.
  - destruct (Ascii.eqb_spec c cr) as [->|Hc'].
    + destruct t as [|d t]; [left; reflexivity|]. cbn [app]. destruct (Ascii.eqb_spec d lf) as [->|Hd].
      * destruct t as [|d t]; [left; cbn [rev raw_lines]; rewrite <- app_assoc; reflexivity|]. right. exists (rev (lf :: cr :: acc)), (d :: t). split; [discriminate|]. split; [cbn; lia|]. intros q. reflexivity.
      * right. exists (rev (cr :: acc)), (d :: t). split; [discriminate|]. split; [cbn; lia|]. intros q. reflexivity.
    + destruct t as [|d t]; [left; cbn [raw_lines rev]; reflexivity|]. destruct (IH ltac:(discriminate) (c :: acc)) as [E|(l & t2 & H2 & Hl & E)].
      * left. rewrite E. cbn [rev]. rewrite <- app_assoc. reflexivity.
      * right. exists l, t2. split; [exact H2|]. split; [cbn [length] in *; lia|]. exact E.
Qed.
Section Cut.
Variable limit : nat.
Variable nul_ok : bool.
Notation csv_lines := (csv_lines limit nul_ok).
Notation csv_char := (csv_char limit).
Notation csv_chars := (csv_chars limit).
Lemma eol_state m : c_st (csv_eol m) = StartRecord \/ c_st (csv_eol m) = InQuoted.
Proof. unfold csv_eol. destruct (c_st m) eqn:E; cbn; auto. Qed.
Lemma lines_some ls : ls <> [] -> forall m R, csv_lines m ls = Ok R -> R <> [].
Proof.
  induction ls as [|l ls IH]; intros Hne m R H; [contradiction|]. cbn [M_Io.csv_lines] in H. destruct (nul_ok || _); [|discriminate]. apply bind_inv in H. destruct H as (m' & _ & H). cbv zeta in H.
  destruct (eol_state m') as [E|E]; rewrite E in H.
  - apply bind_inv in H. destruct H as (R1 & _ & H). injection H as <-. discriminate.
  - destruct ls as [|l2 ls]; [cbn [M_Io.csv_lines] in H; rewrite E in H; injection H as <-; discriminate|]. apply (IH ltac:(discriminate) _ _ H).
Qed.
Lemma raw_ne t acc : t <> [] -> raw_lines acc t <> [].
Proof. intros Ht. destruct (raw_split t Ht acc) as [E|(l & t2 & _ & _ & E)]; [rewrite E; discriminate|]. specialize (E []). rewrite app_nil_r in E. rewrite E. discriminate. Qed.
Lemma two_rows p : forall m R, csv_lines m (raw_lines [] p) = Ok R -> 2 <= length R -> forall q R2, csv_lines m (raw_lines [] (p ++ q)) = Ok R2 -> 2 <= length R2.
Proof.
  assert (G : forall k p, length p <= k -> forall m R, csv_lines m (raw_lines [] p) = Ok R -> 2 <= length R -> forall q R2, csv_lines m (raw_lines [] (p ++ q)) = Ok R2 -> 2 <= length R2); [|apply (G (length p) p (le_n _))]. clear p.
  assert (Nil : forall m R, csv_lines m [] = Ok R -> length R <= 1).
  { intros m R H. cbn [M_Io.csv_lines] in H. destruct (c_st m); [injection H as <-; cbn; lia| | |injection H as <-; cbn; lia| |]; (destruct (c_field m); injection H as <-; cbn; lia). }
  induction k as [|k IH]; intros p Hp m R H HR q R2 H2.
  - destruct p; [|cbn in Hp; lia]. exfalso. apply Nil in H. lia.
  - destruct p as [|c p]; [exfalso; apply Nil in H; lia|]. destruct (raw_split (c :: p) ltac:(discriminate) []) as [E|(l & t2 & Ht2 & Hl & E)].
    + exfalso. rewrite E in H. cbn [rev app M_Io.csv_lines] in H. destruct (nul_ok || _); [|discriminate]. apply bind_inv in H. destruct H as (m' & _ & H). cbv zeta in H.
      destruct (eol_state m') as [E2|E2]; rewrite E2 in H.
      * injection H as <-. cbn in HR. lia.
      * injection H as <-. cbn in HR. lia.
    + pose proof (E []) as E0. rewrite app_nil_r in E0. rewrite E0 in H. rewrite E in H2. rewrite app_nil_r in H. cbn [M_Io.csv_lines] in H, H2. destruct (nul_ok || _); [|discriminate].
      destruct (csv_chars m l) as [m'|]; [|discriminate]. cbn [bind] in H, H2. cbv zeta in H, H2. destruct (eol_state m') as [E2|E2]; rewrite E2 in H, H2.
      * apply bind_inv in H2. destruct H2 as (R3 & H3 & H2). injection H2 as <-. apply lines_some in H3; [|apply raw_ne; destruct t2; [contradiction|discriminate]]. destruct R3; [contradiction|]. cbn [length]. lia.
      * apply (IH t2 ltac:(cbn in Hp, Hl; lia) _ _ H HR _ _ H2).
Qed.
Definition row_fits (ws : list text) : Prop := ws <> [] /\ forall w, In w ws -> csv_ok limit nul_ok w.
Lemma cut_row ws p q R : row_fits ws -> p ++ q = csv_row ws -> csv_lines fresh (raw_lines [] p) = Ok R -> length R <= 1.
Proof.
  intros [Hne HO] E H. destruct (Nat.leb_spec (length R) 1) as [L|L]; [exact L|]. exfalso. pose proof (csv_read_back limit nul_ok [ws]) as B. unfold csv_read, csv_write in B. cbn [map concat] in B. rewrite app_nil_r, <- E in B.
  assert (B' : csv_lines fresh (raw_lines [] (p ++ q)) = Ok [ws]) by (apply B; intros x [<-|[]]; split; assumption). pose proof (two_rows p _ _ H L q _ B') as C. cbn in C. lia.
Qed.
Lemma read_rows R1 : (forall ws, In ws R1 -> row_fits ws) -> forall r, nul_free nul_ok r -> csv_lines fresh (raw_lines [] (csv_write R1 ++ r)) = (rows <- csv_lines fresh (raw_lines [] r) ;; Ok (R1 ++ rows)).
Proof.
  intros H r Hr. induction R1 as [|ws R1 IH]; [cbn [csv_write map concat app]; destruct (csv_lines fresh (raw_lines [] r)); reflexivity|].
  assert (HN : nul_free nul_ok (csv_write (ws :: R1) ++ r)).
  { unfold nul_free in *. destruct nul_ok eqn:EN; [left; reflexivity|right]. intros C. apply in_app_iff in C. destruct C as [C|C]; [|destruct Hr as [Hr|Hr]; [discriminate|contradiction]].
    apply (csv_write_in limit nul_ok) in C; [|intros x Hx; apply H; exact Hx]. destruct C as [C|[C|[C|[C|(x & w & Hx & Hw & C)]]]]; try discriminate. destruct (proj2 (H x Hx) w Hw) as (_ & _ & [D|D]); [congruence|contradiction]. }
  destruct (H ws (or_introl eq_refl)) as [Hne HO]. unfold csv_write in *. cbn [map concat] in *. rewrite (csv_row_plain limit nul_ok) in * by exact HO. rewrite <- !app_assoc in *. cbn [app] in *.
  rewrite read_row; [|intros w Hw; destruct (HO w Hw) as (A & B & _); auto|exact Hne|split; [left; reflexivity|reflexivity]|exact HN]. rewrite IH by (intros x Hx; apply H; right; exact Hx). cbn [fresh c_fields rev app].
  destruct (csv_lines fresh (raw_lines [] r)); reflexivity.
Qed.

(** ** A row of numbers cut short *)
Definition plain (w : text) : Prop := w <> [] /\ length w <= limit /\ existsb special w = false.
Lemma chars_app m a b : csv_chars m (a ++ b) = bind (csv_chars m a) (fun m' => csv_chars m' b).
Proof. revert m. induction a as [|x a IH]; intros m; [reflexivity|]. cbn [app M_Io.csv_chars]. destruct (csv_char m x); [apply IH|reflexivity]. Qed.
Lemma chars_in w : existsb special w = false -> forall u fs, length u + length w <= limit -> csv_chars (mkcr InField u fs) w = Ok (mkcr InField (rev w ++ u) fs).
Proof.
  induction w as [|x w IH]; intros HS u fs HL; [reflexivity|]. cbn [existsb] in HS. apply orb_false_iff in HS. destruct HS as [Hx HS]. destruct (not_special x Hx) as (N1 & N2 & N3). cbn [M_Io.csv_chars length] in *.
  unfold M_Io.csv_char. cbn [c_st]. rewrite N1, N3. rewrite add_ok by (cbn; lia). cbn [bind c_field c_fields]. rewrite IH; [cbn [rev]; rewrite <- app_assoc; reflexivity|exact HS|cbn [length]; lia].
Qed.
Lemma chars_field w m : existsb special w = false -> length w <= limit -> w <> [] -> at_start m -> csv_chars m w = Ok (mkcr InField (rev w) (c_fields m)).
Proof.
  intros HS HL Hne [Hst Hf]. destruct w as [|x w]; [contradiction|]. cbn [existsb] in HS. apply orb_false_iff in HS. destruct HS as [Hx HS]. destruct (not_special x Hx) as (N1 & N2 & N3). destruct m as [st f fs]. cbn [c_st c_field c_fields length] in *. subst f.
  cbn [M_Io.csv_chars]. assert (E : csv_char (mkcr st [] fs) x = Ok (mkcr InField [x] fs)).
  { unfold M_Io.csv_char. cbn [c_st]. rewrite N1, N2, N3. destruct Hst as [->| ->]; apply (add_ok limit InField (mkcr _ [] fs)); cbn; lia. }
  rewrite E. cbn [bind]. rewrite chars_in; [reflexivity|exact HS|cbn [length]; lia].
Qed.
Lemma special_app a b : existsb special (a ++ b) = false -> existsb special a = false.
Proof. rewrite existsb_app. intros H. apply orb_false_iff in H. apply H. Qed.
Lemma row_chars ws : ws <> [] -> (forall w, In w ws -> plain w) -> forall m p q, at_start m -> (p <> [] \/ c_st m = StartField) -> p ++ q = join comma ws ->
  exists j w' w'' m', j < length ws /\ nth j ws [] = w' ++ w'' /\ csv_chars m p = Ok m' /\ (c_st m' = InField \/ c_st m' = StartField) /\ rev (rev (c_field m') :: c_fields m') = rev (c_fields m) ++ firstn j ws ++ [w'].
Proof.
  induction ws as [|w ws IH]; intros Hne HP m p q Hm Hp E; [contradiction|]. destruct (HP w (or_introl eq_refl)) as (P1 & P2 & P3).
  assert (Short : forall r, w = p ++ r -> exists j w' w'' m', j < length (w :: ws) /\ nth j (w :: ws) [] = w' ++ w'' /\ csv_chars m p = Ok m' /\ (c_st m' = InField \/ c_st m' = StartField) /\ rev (rev (c_field m') :: c_fields m') = rev (c_fields m) ++ firstn j (w :: ws) ++ [w']).
  { intros r Er. exists 0, p, r. destruct p as [|x p].
    - destruct Hp as [C|Hp]; [contradiction|]. exists m. split; [cbn; lia|]. split; [exact Er|]. split; [reflexivity|]. split; [right; exact Hp|]. destruct Hm as [_ Hf]. rewrite Hf. reflexivity.
    - exists (mkcr InField (rev (x :: p)) (c_fields m)). split; [cbn; lia|]. split; [exact Er|]. split; [|split; [left; reflexivity|]].
      + apply chars_field; [rewrite Er in P3; exact (special_app _ _ P3)|rewrite Er, app_length in P2; lia|discriminate|exact Hm].
      + cbn [c_field c_fields]. rewrite rev_involutive. reflexivity. }
  destruct ws as [|w2 ws].
  - cbn [join] in E. apply (Short q). symmetry. exact E.
  - change (join comma (w :: w2 :: ws)) with (w ++ comma :: join comma (w2 :: ws)) in E. destruct (Nat.leb_spec (length p) (length w)) as [L|L].
    + destruct (prefix_app _ _ _ _ E L) as (r & Er & _). exact (Short r Er).
    + change (w ++ comma :: join comma (w2 :: ws)) with (w ++ [comma] ++ join comma (w2 :: ws)) in E. rewrite app_assoc in E. symmetry in E. destruct (prefix_app (w ++ [comma]) _ p q E) as (p2 & -> & E2); [rewrite app_length; cbn [length]; lia|]. symmetry in E2.
      rewrite <- app_assoc. rewrite chars_app, (chars_field w m P3 P2 P1 Hm). cbn [bind app M_Io.csv_chars].
      assert (EC : csv_char (mkcr InField (rev w) (c_fields m)) comma = Ok (mkcr StartField [] (w :: c_fields m))) by (unfold M_Io.csv_char, save_field; cbn; rewrite rev_involutive; reflexivity). rewrite EC. cbn [bind].
      destruct (IH ltac:(discriminate) ltac:(intros x Hx; apply HP; right; exact Hx) (mkcr StartField [] (w :: c_fields m)) p2 q ltac:(split; [right; reflexivity|reflexivity]) ltac:(right; reflexivity) E2) as (j & w' & w'' & m' & H1 & H2 & H3 & H4 & H5).
      exists (S j), w', w'', m'. split; [cbn [length] in *; lia|]. split; [exact H2|]. split; [exact H3|]. split; [exact H4|]. rewrite H5. cbn [c_fields rev firstn]. rewrite <- app_assoc. reflexivity.
Qed.
Lemma plain_field w : plain w -> csv_field w = w.
Proof. intros (_ & _ & H). unfold csv_field. rewrite H. reflexivity. Qed.
Lemma raw_one p : (forall c, In c p -> is_nl c = false) -> forall acc, raw_lines acc p = match rev acc ++ p with [] => [] | l => [l] end.
Proof.
  induction p as [|x p IH]; intros H acc; cbn [raw_lines].
  - rewrite app_nil_r. destruct acc as [|y acc]; [reflexivity|]. destruct (rev (y :: acc)) eqn:E; [apply (f_equal (@length ascii)) in E; rewrite rev_length in E; discriminate|reflexivity].
  - assert (Hx : is_nl x = false) by (apply H; left; reflexivity). unfold is_nl in Hx. apply orb_false_iff in Hx. destruct Hx as [-> ->]. rewrite IH by (intros c Hc; apply H; right; exact Hc). cbn [rev]. rewrite <- app_assoc. reflexivity.
Qed.
Lemma raw_one_cr p : (forall c, In c p -> is_nl c = false) -> forall acc, raw_lines acc (p ++ [cr]) = [rev acc ++ p ++ [cr]].
Proof.
  induction p as [|x p IH]; intros H acc; cbn [raw_lines app]; [reflexivity|].
  assert (Hx : is_nl x = false) by (apply H; left; reflexivity). unfold is_nl in Hx. apply orb_false_iff in Hx. destruct Hx as [-> ->]. rewrite IH by (intros c Hc; apply H; right; exact Hc). cbn [rev]. rewrite <- app_assoc. reflexivity.
Qed.
Lemma cut_plain ws p q R : ws <> [] -> (forall w, In w ws -> plain w) -> p <> [] -> q <> [] -> p ++ q = csv_row ws -> csv_lines fresh (raw_lines [] p) = Ok R ->
  exists j w' w'', j < length ws /\ nth j ws [] = w' ++ w'' /\ R = [firstn j ws ++ [w']].
Proof.
  intros Hne HP Hp Hq E H.
  assert (E1 : p ++ q = join comma ws ++ [cr; lf]).
  { rewrite E. unfold csv_row. assert (EM : map csv_field ws = ws) by (rewrite <- (map_id ws) at 2; apply map_ext_in; intros w Hw; apply plain_field; apply HP; exact Hw). rewrite EM.
    destruct ws as [|[|x w] [|w2 ws]]; try reflexivity. destruct (HP [] (or_introl eq_refl)) as (C & _). contradiction. }
  assert (NL : forall c, In c (join comma ws) -> is_nl c = false).
  { intros c Hc. apply join_in in Hc. destruct Hc as [->|(w & Hw & Hc)]; [reflexivity|]. destruct (HP w Hw) as (_ & _ & HS). assert (Hs : special c = false) by (destruct (special c) eqn:ES; [|reflexivity]; rewrite <- HS; symmetry; apply existsb_exists; exists c; auto). apply (not_special c Hs). }
  assert (Hstart : at_start fresh) by (split; [left; reflexivity|reflexivity]).
  destruct (Nat.leb_spec (length p) (length (join comma ws))) as [L|L].
  - destruct (prefix_app _ _ _ _ E1 L) as (r & Er & _). destruct (row_chars ws Hne HP fresh p r Hstart (or_introl Hp) (eq_sym Er)) as (j & w' & w'' & m' & H1 & H2 & H3 & H4 & H5).
    exists j, w', w''. split; [exact H1|]. split; [exact H2|]. rewrite raw_one in H by (intros c Hc; apply NL; rewrite Er; apply in_app_iff; left; exact Hc). cbn [rev app] in H. destruct p as [|x p]; [contradiction|]. cbn [M_Io.csv_lines] in H.
    destruct (nul_ok || _); [|discriminate]. rewrite H3 in H. cbn [bind] in H. cbv zeta in H. assert (E3 : csv_eol m' = save_field StartRecord m') by (unfold csv_eol; destruct H4 as [->| ->]; reflexivity). rewrite E3 in H. cbn [save_field c_st c_fields fresh bind M_Io.csv_lines] in H. injection H as <-. f_equal. exact H5.
  - assert (Ep : p = join comma ws ++ [cr]).
    { change (join comma ws ++ [cr; lf]) with (join comma ws ++ [cr] ++ [lf]) in E1. rewrite app_assoc in E1. symmetry in E1. destruct (prefix_app (join comma ws ++ [cr]) [lf] p q E1) as (r & -> & E2); [rewrite app_length; cbn [length]; lia|].
      destruct r as [|x r]; [rewrite app_nil_r; reflexivity|]. cbn [app] in E2. injection E2 as _ E2. symmetry in E2. apply app_eq_nil in E2. destruct E2; contradiction. }
    subst p. assert (HJ : join comma ws <> []) by (destruct ws as [|w ws]; [contradiction|]; destruct (HP w (or_introl eq_refl)) as (Hw & _); destruct ws; cbn [join]; [exact Hw|]; destruct w; [contradiction|discriminate]).
    destruct (row_chars ws Hne HP fresh (join comma ws) [] Hstart (or_introl HJ) (app_nil_r _)) as (j & w' & w'' & m' & H1 & H2 & H3 & H4 & H5).
    exists j, w', w''. split; [exact H1|]. split; [exact H2|]. rewrite raw_one_cr in H by exact NL. cbn [rev app] in H. cbn [M_Io.csv_lines] in H. destruct (nul_ok || _); [|discriminate]. rewrite chars_app, H3 in H. cbn [bind M_Io.csv_chars] in H.
    assert (EC : csv_char m' cr = Ok (save_field EatCrnl m')) by (unfold M_Io.csv_char; destruct H4 as [->| ->]; reflexivity). rewrite EC in H. cbn [bind] in H. cbv zeta in H. cbn [csv_eol save_field c_st c_field c_fields fresh bind M_Io.csv_lines] in H. injection H as <-. f_equal. exact H5.
Qed.

(** ** A table cut short *)
Lemma in_firstn {A} (x : A) k : forall l, In x (firstn k l) -> In x l.
Proof. intros l H. rewrite <- (firstn_skipn k l). apply in_app_iff. left. exact H. Qed.
Lemma nth_last {A} (d : A) (l : list A) : nth (length l - 1) l d = last l d.
Proof. induction l as [|x l IH]; [reflexivity|]. destruct l as [|y l]; [reflexivity|]. cbn [length Nat.sub last] in *. rewrite Nat.sub_0_r in IH. exact IH. Qed.
Lemma removelast_sub {A} (l : list A) : removelast l = firstn (length l - 1) l.
Proof. rewrite removelast_firstn_len. f_equal. lia. Qed.
Lemma nul_prefix a b : nul_free nul_ok (a ++ b) -> nul_free nul_ok a.
Proof. intros [H|H]; [left; exact H|right; intros C; apply H; apply in_app_iff; left; exact C]. Qed.
Lemma csv_cut header data p R : row_fits header -> data <> [] -> (forall ws, In ws data -> row_fits ws /\ forall w, In w ws -> plain w) ->
  cut_short p (csv_write (header :: data)) -> csv_read limit nul_ok p = Ok R ->
  length R <= 1 \/ exists rows, R = header :: rows /\ (length rows < length data \/
    exists j w' w'', j < length (last data []) /\ nth j (last data []) [] = w' ++ w'' /\ rows = removelast data ++ [firstn j (last data []) ++ [w']]).
Proof.
  intros HH Hne HD (q & Hq & E) H. unfold csv_write in E. symmetry in E. destruct (prefix_concat _ p q E Hq) as (k & p' & q' & Hk & Ep & Erow & Hq'). rewrite map_length in Hk. rewrite firstn_map in Ep.
  assert (HF : forall ws, In ws (header :: data) -> row_fits ws) by (intros ws [<-|Hws]; [exact HH|apply HD; exact Hws]).
  assert (Ek : nth k (map csv_row (header :: data)) [] = csv_row (nth k (header :: data) [])) by (rewrite (nth_indep _ [] (csv_row [])) by (rewrite map_length; exact Hk); apply map_nth). rewrite Ek in Erow. symmetry in Erow.
  assert (Hin : In (nth k (header :: data) []) (header :: data)) by (apply nth_In; exact Hk).
  assert (HN : nul_free nul_ok p').
  { apply (nul_prefix p' q'). rewrite Erow. unfold nul_free. destruct nul_ok eqn:EN; [left; reflexivity|right]. intros C.
    assert (C' : In "000"%char (csv_write [nth k (header :: data) []])) by (unfold csv_write; cbn [map concat]; rewrite app_nil_r; exact C).
    apply (csv_write_in limit nul_ok) in C'; [|intros x [<-|[]]; apply HF; exact Hin]. destruct C' as [D|[D|[D|[D|(x & w & [<-|[]] & Hw & D)]]]]; try discriminate. destruct (proj2 (HF _ Hin) w Hw) as (_ & _ & [F|F]); [congruence|contradiction]. }
  unfold csv_read in H. rewrite Ep in H. fold (csv_write (firstn k (header :: data))) in H. rewrite read_rows in H; [|intros ws Hws; apply HF; apply (in_firstn _ k); exact Hws|exact HN].
  apply bind_inv in H. destruct H as (tl & Ht & H). injection H as <-. pose proof (cut_row _ p' q' tl (HF _ Hin) Erow Ht) as HL.
  destruct k as [|k]; [left; exact HL|]. right. cbn [firstn nth length] in *. exists (firstn k data ++ tl). split; [reflexivity|]. assert (Hk' : k < length data) by lia.
  destruct (Nat.ltb_spec (length (firstn k data ++ tl)) (length data)) as [L|L]; [left; exact L|right]. rewrite app_length, firstn_length_le in L by lia.
  assert (Hl1 : length tl = 1) by lia. assert (Hk2 : k = length data - 1) by lia.
  assert (Elast : nth k data [] = last data []) by (rewrite Hk2; apply nth_last).
  assert (Hp' : p' <> []) by (intros ->; cbn in Ht; injection Ht as <-; discriminate).
  destruct Hin as [Hin|Hin]. 2: destruct (HD _ Hin) as [[Hn _] Hpl].
  2: { destruct (cut_plain (nth k data []) p' q' tl Hn Hpl Hp' Hq' Erow Ht) as (j & w' & w'' & H1 & H2 & H3). exists j, w', w''. rewrite <- Elast. split; [exact H1|]. split; [exact H2|]. rewrite H3. f_equal. rewrite Hk2. symmetry. apply removelast_sub. }
  assert (Hin2 : In (nth k data []) data) by (apply nth_In; exact Hk'). destruct (HD _ Hin2) as [[Hn _] Hpl].
  destruct (cut_plain (nth k data []) p' q' tl Hn Hpl Hp' Hq' Erow Ht) as (j & w' & w'' & H1 & H2 & H3). exists j, w', w''. rewrite <- Elast. split; [exact H1|]. split; [exact H2|]. rewrite H3. f_equal. rewrite Hk2. symmetry. apply removelast_sub.
Qed.
End Cut.

Section Body.
Variable show : num -> text.
Variable float : text -> option num.
Lemma cells_app K W : length K = length W -> forall d K2 W2, csv_cells float (K ++ K2) (W ++ W2) d = bind (csv_cells float K W d) (csv_cells float K2 W2).
Proof. revert W. induction K as [|k K IH]; intros [|w W] HL d K2 W2; try discriminate; [reflexivity|]. cbn [app csv_cells]. destruct (float w); [|reflexivity]. apply IH. cbn in HL. lia. Qed.
Lemma body_app keys S1 R1 : length S1 = length R1 -> forall d S2 R2, csv_body float keys (S1 ++ S2) (R1 ++ R2) d = bind (csv_body float keys S1 R1 d) (csv_body float keys S2 R2).
Proof. revert R1. induction S1 as [|s S1 IH]; intros [|r R1] HL d S2 R2; try discriminate; [reflexivity|]. cbn [app csv_body]. destruct (_ && _); [|reflexivity]. destruct (csv_cells float (keys s) r d); [|reflexivity]. cbn [bind]. apply IH. cbn in HL. lia. Qed.
Lemma body_cut keys S1 s V1 r1 (v : num) j w' d : length S1 = length V1 -> (forall s' r, In (s', r) (combine S1 V1) -> length r = length (keys s')) -> length (keys s) = S (length r1) ->
  (forall r x, In r (V1 ++ [r1 ++ [v]]) -> In x r -> float (show x) = Some x /\ show x <> []) -> NoDup (map fst (table keys (S1 ++ [s]) (V1 ++ [r1 ++ [v]]))) ->
  j < length (r1 ++ [v]) ->
  csv_body float keys (S1 ++ [s]) (map (map show) V1 ++ [firstn j (map show (r1 ++ [v])) ++ [w']]) [] = Ok d ->
  exists init k x, table keys (S1 ++ [s]) (V1 ++ [r1 ++ [v]]) = init ++ [(k, v)] /\ d = init ++ [(k, x)] /\ float w' = Some x /\ w' <> [].
Proof.
  intros HL HR HK HV HN Hj H. rewrite app_length in Hj. cbn [length] in Hj. set (T := table keys (S1 ++ [s]) (V1 ++ [r1 ++ [v]])) in *.
  destruct (@exists_last _ (keys s)) as (K & k & EK); [intros C; rewrite C in HK; discriminate|]. rewrite EK, app_length in HK. cbn [length] in HK. assert (HKl : length K = length r1) by lia.
  assert (ET : T = table keys S1 V1 ++ combine K r1 ++ [(k, v)]).
  { unfold T, table. rewrite combine_app by exact HL. rewrite flat_map_app. cbn [combine flat_map fst snd app]. rewrite app_nil_r, EK. rewrite combine_app by exact HKl. reflexivity. }
  rewrite ET in HN. rewrite body_app in H by (rewrite map_length; exact HL). apply bind_inv in H. destruct H as (d1 & H1 & H).
  rewrite (csv_body_ok show float) in H1; [|exact HL|exact HR|intros r x Hr Hx; apply (HV r x); [apply in_app_iff; left; exact Hr|exact Hx]|cbn [app]; rewrite map_app in HN; exact (nodup_left _ _ HN)].
  cbn [app] in H1. injection H1 as <-. cbn [csv_body] in H. destruct (_ && _) eqn:EG; [|discriminate]. apply andb_true_iff in EG. destruct EG as [G1 G2]. apply Nat.eqb_eq in G1. rewrite app_length, firstn_length_le in G1 by (rewrite map_length, app_length; cbn [length]; lia). rewrite EK, app_length in G1. cbn [length] in G1.
  assert (Ej : j = length r1) by lia. rewrite forallb_app in G2. apply andb_true_iff in G2. destruct G2 as [_ G2]. cbn [forallb] in G2. rewrite andb_true_r in G2.
  assert (Ef : firstn j (map show (r1 ++ [v])) = map show r1) by (rewrite map_app, Ej, <- (map_length show r1), firstn_app, Nat.sub_diag, firstn_all; cbn [firstn]; apply app_nil_r).
  rewrite Ef, EK in H. rewrite cells_app in H by (rewrite map_length; exact HKl). apply bind_inv in H. destruct H as (d2 & H2 & H). injection H as <-. apply bind_inv in H2. destruct H2 as (d3 & H3 & H2).
  rewrite (csv_cells_ok show float) in H3; [|exact HKl|intros x Hx; apply (HV (r1 ++ [v]) x); [apply in_app_iff; right; left; reflexivity|apply in_app_iff; left; exact Hx]|rewrite app_assoc, map_app in HN; exact (nodup_left _ _ HN)].
  injection H3 as <-. cbn [csv_cells] in H2. destruct (float w') as [x|] eqn:EX; [|discriminate]. exists (table keys S1 V1 ++ combine K r1), k, x. rewrite <- app_assoc. split; [exact ET|]. split; [|split; [reflexivity|destruct w'; [discriminate G2|discriminate]]].
  injection H2 as <-. rewrite dict_set_absent; [rewrite <- app_assoc; reflexivity|]. rewrite app_assoc, map_app in HN. cbn [map fst] in HN. apply NoDup_remove_2 in HN. rewrite app_nil_r in HN. exact HN.
Qed.
End Body.
