(** L_Xml: reading XML files back. *)
From Verif Require Import S_Io L_Io1 L_Io3 M_Xml L_Json.
Open Scope nat_scope.
Open Scope res_scope.

(** ** The replacements *)
Lemma repl_miss old new c r : strip_prefix old (c :: r) = None -> replace old new (c :: r) = c :: replace old new r.
Proof. intros H. unfold replace. cbn [replace_from]. rewrite H. reflexivity. Qed.
Lemma repl_drop old new w r : replace_from (length w) old new (w ++ r) = replace old new r.
Proof. induction w as [|c w IH]; [reflexivity|]. cbn [length app replace_from]. exact IH. Qed.
Lemma strip_prefix_app p r : strip_prefix p (p ++ r) = Some r.
Proof. induction p as [|c p IH]; [reflexivity|]. cbn. rewrite Ascii.eqb_refl. exact IH. Qed.
Lemma repl_hit h os new r : replace (h :: os) new ((h :: os) ++ r) = new ++ replace (h :: os) new r.
Proof.
  unfold replace at 1. cbn [app replace_from]. change (h :: os ++ r) with ((h :: os) ++ r). rewrite strip_prefix_app. cbn [length]. rewrite Nat.sub_0_r || rewrite Nat.sub_succ, Nat.sub_0_r. f_equal. apply repl_drop.
Qed.
Lemma no_head h os new w r : ~ In h w -> replace (h :: os) new (w ++ r) = w ++ replace (h :: os) new r.
Proof.
  induction w as [|c w IH]; intros H; [reflexivity|]. cbn [app]. rewrite repl_miss; [rewrite IH by (intros C; apply H; right; exact C); reflexivity|]. cbn. destruct (Ascii.eqb_spec h c) as [->|]; [exfalso; apply H; left; reflexivity|reflexivity].
Qed.
Lemma no_head_all h os new w : ~ In h w -> replace (h :: os) new w = w.
Proof. intros H. rewrite <- (app_nil_r w) at 1. rewrite no_head by exact H. cbn. apply app_nil_r. Qed.

Definition tame (k : text) : Prop := k <> [] /\ forall c, In c k -> In c (chars "abcdefghijklmnopqrstuvwxyz_").
Lemma tame_not k c : tame k -> ~ In c (chars "abcdefghijklmnopqrstuvwxyz_") -> ~ In c k.
Proof. intros [_ H] HN C. apply HN. apply H. exact C. Qed.
Lemma escape_in v c : In c (flat_map xml_escape v) -> c <> "<"%char /\ c <> ">"%char /\ c <> quote.
Proof.
  intros H. apply in_flat_map in H. destruct H as (x & _ & H).
  assert (E : forallb (fun c => negb (Ascii.eqb c "<" || Ascii.eqb c ">" || Ascii.eqb c quote)) (xml_escape x) = true) by (destruct x as [[] [] [] [] [] [] [] []]; vm_compute; reflexivity).
  rewrite forallb_forall in E. specialize (E c H). apply negb_true_iff in E. apply orb_false_iff in E. destruct E as [E E3]. apply orb_false_iff in E. destruct E as [E1 E2]. apply Ascii.eqb_neq in E1, E2, E3. auto.
Qed.
Definition old1 : text := chars "?>".
(** '?>' does not occur where no '>' follows *)
Lemma pass1 new w r : ~ In ">"%char w -> (match r with c :: _ => c <> ">"%char | [] => True end) -> replace old1 new (w ++ r) = w ++ replace old1 new r.
Proof.
  intros H HR. induction w as [|c w IH]; [reflexivity|]. cbn [app]. rewrite repl_miss; [rewrite IH by (intros C; apply H; right; exact C); reflexivity|].
  change old1 with ["?"%char; ">"%char]. cbn [strip_prefix]. destruct (Ascii.eqb_spec "?" c); [|reflexivity]. destruct w as [|c' w]; cbn [app].
  - destruct r as [|c' r]; [reflexivity|]. destruct (Ascii.eqb_spec ">" c'); [subst; contradiction|reflexivity].
  - destruct (Ascii.eqb_spec ">" c'); [|reflexivity]. subst. exfalso. apply H. right. left. reflexivity.
Qed.
Lemma not_in_app (c : ascii) t u : ~ In c t -> ~ In c u -> ~ In c (t ++ u).
Proof. rewrite in_app_iff. tauto. Qed.
Lemma not_in_cons (c x : ascii) t : x <> c -> ~ In c t -> ~ In c (x :: t).
Proof. cbn. tauto. Qed.
Ltac nin := repeat first [apply not_in_app | apply not_in_cons; [discriminate|] | (intros []; fail) | (intros C; exact C) ].
Lemma nil_not (c : ascii) : ~ In c [].
Proof. intros []. Qed.
Definition attr_open (kv : text * text) : text := " "%char :: fst kv ++ "="%char :: [quote].
Lemma xml_attr_split kv : xml_attr kv = attr_open kv ++ flat_map xml_escape (snd kv) ++ [quote].
Proof. unfold xml_attr, attr_open. cbn [app]. f_equal. rewrite <- app_assoc. reflexivity. Qed.
Lemma attr_no_gt kv : tame (fst kv) -> ~ In ">"%char (xml_attr kv) /\ ~ In "<"%char (xml_attr kv).
Proof.
  intros HT. rewrite xml_attr_split. unfold attr_open. split; (apply not_in_app; [apply not_in_cons; [discriminate|]; apply not_in_app; [apply tame_not; [exact HT|cbn; intuition discriminate]|apply not_in_cons; [discriminate|apply not_in_cons; [discriminate|apply nil_not]]]|apply not_in_app; [intros C; apply escape_in in C; tauto|apply not_in_cons; [discriminate|apply nil_not]]]).
Qed.
Definition attrs_ok (a : list (text * text)) : Prop := a <> [] /\ forall kv, In kv a -> tame (fst kv).
Lemma attrs_no_gt a : attrs_ok a -> ~ In ">"%char (flat_map xml_attr a) /\ ~ In "<"%char (flat_map xml_attr a).
Proof. intros [_ H]. split; intros C; apply in_flat_map in C; destruct C as (kv & Hkv & C); destruct (attr_no_gt kv (H kv Hkv)); contradiction. Qed.
Definition item1 (a : list (text * text)) : text := "009"%char :: chars "<Item" ++ flat_map xml_attr a ++ chars " />".
Definition item2 (a : list (text * text)) : text := "009"%char :: chars "<Item" ++ flat_map xml_attr a ++ chars "/>" ++ [lf].
Definition xml_end (root : text) : text := chars "</" ++ root ++ [">"%char].
Lemma item_app a r : xml_item a ++ r = chars "<Item" ++ flat_map xml_attr a ++ chars " />" ++ r.
Proof. unfold xml_item. rewrite <- !app_assoc. reflexivity. Qed.
Lemma item1_app a r : item1 a ++ r = "009"%char :: chars "<Item" ++ flat_map xml_attr a ++ chars " />" ++ r.
Proof. unfold item1. cbn [app]. rewrite <- !app_assoc. reflexivity. Qed.
Lemma item2_app a r : item2 a ++ r = "009"%char :: chars "<Item" ++ flat_map xml_attr a ++ chars "/>" ++ lf :: r.
Proof. unfold item2. cbn [app]. rewrite <- !app_assoc. reflexivity. Qed.
Lemma items1 new items r : (forall a, In a items -> attrs_ok a) -> (match r with c :: _ => c <> ">"%char | [] => True end) ->
  replace old1 new (concat (map xml_item items) ++ r) = concat (map xml_item items) ++ replace old1 new r.
Proof.
  intros H HR. induction items as [|a items IH]; [reflexivity|]. cbn [map concat]. rewrite <- !app_assoc. rewrite !item_app.
  set (rest := concat (map xml_item items) ++ r) in *.
  rewrite (pass1 new (chars "<Item")); [|cbn; intuition discriminate|destruct (H a (or_introl eq_refl)) as [Hne _]; destruct a as [|kv a]; [contradiction|]; cbn; discriminate]. f_equal.
  rewrite pass1; [|apply attrs_no_gt; apply H; left; reflexivity|cbn; discriminate]. f_equal.
  change (chars " />" ++ rest) with (" "%char :: "/"%char :: ">"%char :: rest). rewrite !repl_miss by reflexivity.
  rewrite IH by (intros x Hx; apply H; right; exact Hx). reflexivity.
Qed.
Lemma items2 os new items r : (forall a, In a items -> attrs_ok a) -> (forall t, strip_prefix os (chars "Item " ++ t) = None) ->
  replace ("<"%char :: os) new (concat (map xml_item items) ++ r) = concat (map xml_item items) ++ replace ("<"%char :: os) new r.
Proof.
  intros H HO. induction items as [|a items IH]; [reflexivity|]. cbn [map concat]. rewrite <- !app_assoc. rewrite !item_app. destruct (H a (or_introl eq_refl)) as [Hne HT].
  assert (HA : exists t, flat_map xml_attr a = " "%char :: t) by (destruct a as [|kv a]; [contradiction|]; cbn [flat_map]; unfold xml_attr at 1; cbn [app]; eexists; reflexivity).
  destruct HA as (u & HA). set (rest := concat (map xml_item items) ++ r) in *.
  change (chars "<Item") with ("<"%char :: chars "Item"). cbn [app].
  rewrite repl_miss; [|cbn [strip_prefix]; change (Ascii.eqb "<" "<") with true; cbv iota; rewrite HA; cbn [app]; exact (HO (u ++ chars " />" ++ rest))]. f_equal.
  rewrite no_head by (cbn; intuition discriminate). f_equal. rewrite no_head by (apply attrs_no_gt; split; assumption). f_equal. change (chars " />" ++ rest) with ([" "; "/"; ">"]%char ++ rest). rewrite no_head by (cbn; intuition discriminate). f_equal. apply IH. intros x Hx. apply H. right. exact Hx.
Qed.
Definition old3 : text := chars "<Item".
Lemma items3 items r : (forall a, In a items -> attrs_ok a) ->
  replace old3 ("009"%char :: old3) (concat (map xml_item items) ++ r) = concat (map item1 items) ++ replace old3 ("009"%char :: old3) r.
Proof.
  intros H. induction items as [|a items IH]; [reflexivity|]. cbn [map concat]. rewrite <- !app_assoc. rewrite item_app, item1_app.
  set (rest := concat (map xml_item items) ++ r) in *. change (chars "<Item") with old3.
  assert (E : forall t, replace old3 ("009"%char :: old3) (old3 ++ t) = ("009"%char :: old3) ++ replace old3 ("009"%char :: old3) t) by (intros t; apply (repl_hit "<"%char (chars "Item"))).
  rewrite E. cbn [app]. f_equal. f_equal.
  assert (E2 : forall w t, ~ In "<"%char w -> replace old3 ("009"%char :: old3) (w ++ t) = w ++ replace old3 ("009"%char :: old3) t) by (intros w t Hw; apply (no_head "<"%char (chars "Item")); exact Hw).
  rewrite E2 by (apply attrs_no_gt; apply H; left; reflexivity). f_equal. rewrite E2 by (cbn; intuition discriminate). f_equal. apply IH. intros x Hx. apply H. right. exact Hx.
Qed.
Definition old4 : text := quote :: chars " />".
Definition new4 : text := quote :: chars "/>" ++ [lf].
Lemma attrs4 a r : attrs_ok a -> replace old4 new4 (flat_map xml_attr a ++ chars " />" ++ r) = flat_map xml_attr a ++ chars "/>" ++ lf :: replace old4 new4 r.
Proof.
  intros [Hne HT]. induction a as [|kv a IH]; [contradiction|]. clear Hne. cbn [flat_map]. rewrite <- !app_assoc. rewrite xml_attr_split. unfold attr_open. rewrite <- !app_assoc. cbn [app].
  pose proof (HT kv (or_introl eq_refl)) as Hk.
  unfold old4 at 1. rewrite repl_miss by reflexivity. f_equal. rewrite <- !app_assoc. rewrite no_head by (apply tame_not; [exact Hk|cbn; intuition discriminate]). f_equal. cbn [app]. rewrite repl_miss by reflexivity. f_equal.
  set (rest := flat_map xml_attr a ++ chars " />" ++ r).
  assert (Hq : strip_prefix old4 (quote :: flat_map xml_escape (snd kv) ++ quote :: rest) = None).
  { unfold old4. cbn [strip_prefix chars list_ascii_of_string]. change (Ascii.eqb quote quote) with true. cbv iota.
    assert (HE : forall c, In c (flat_map xml_escape (snd kv)) -> c <> ">"%char) by (intros c Hc; apply escape_in in Hc; tauto).
    destruct (flat_map xml_escape (snd kv)) as [|c1 [|c2 [|c3 w]]]; cbn [app strip_prefix].
    - reflexivity.
    - destruct (Ascii.eqb " " c1); reflexivity.
    - destruct (Ascii.eqb " " c1); [|reflexivity]. destruct (Ascii.eqb "/" c2); reflexivity.
    - destruct (Ascii.eqb " " c1); [|reflexivity]. destruct (Ascii.eqb "/" c2); [|reflexivity]. destruct (Ascii.eqb_spec ">" c3); [|reflexivity]. exfalso. apply (HE c3); [right; right; left; reflexivity|auto]. }
  rewrite repl_miss by exact Hq. f_equal. rewrite no_head by (intros C; apply escape_in in C; tauto). f_equal. 
  destruct a as [|kv' a].
  - unfold rest. cbn [flat_map app]. exact (repl_hit quote (chars " />") new4 r).
  - assert (Hs : strip_prefix old4 (quote :: rest) = None).
    { unfold rest, old4. cbn [flat_map]. unfold xml_attr at 1. cbn [app strip_prefix chars list_ascii_of_string]. change (Ascii.eqb quote quote) with true. change (Ascii.eqb " " " ") with true. cbv iota. rewrite <- !app_assoc. pose proof (HT kv' (or_intror (or_introl eq_refl))) as [Hn' Hk']. destruct (fst kv') as [|c k]; [contradiction|]. cbn [app]. destruct (Ascii.eqb_spec "/" c); [|reflexivity]. subst. exfalso. specialize (Hk' "/"%char (or_introl eq_refl)). cbn in Hk'. intuition discriminate. }
    rewrite repl_miss by exact Hs. f_equal. unfold rest. apply IH; [discriminate|]. intros x Hx. apply HT. right. exact Hx.
Qed.
Lemma no4 w r : ~ In quote w -> replace old4 new4 (w ++ r) = w ++ replace old4 new4 r.
Proof. apply (no_head quote (chars " />")). Qed.
Lemma items4 items r : (forall a, In a items -> attrs_ok a) -> replace old4 new4 (concat (map item1 items) ++ r) = concat (map item2 items) ++ replace old4 new4 r.
Proof.
  intros H. induction items as [|a items IH]; [reflexivity|]. cbn [map concat]. rewrite <- !app_assoc. rewrite item1_app, item2_app.
  change ("009"%char :: chars "<Item" ++ flat_map xml_attr a ++ chars " />" ++ concat (map item1 items) ++ r) with (("009"%char :: chars "<Item") ++ flat_map xml_attr a ++ chars " />" ++ concat (map item1 items) ++ r).
  rewrite no4 by (cbn; intuition discriminate). cbn [app]. f_equal. f_equal. rewrite attrs4 by (apply H; left; reflexivity). rewrite IH by (intros x Hx; apply H; right; exact Hx). reflexivity.
Qed.
Definition xml_head : text := chars "<?xml version='1.0' encoding='utf-8' standalone='yes' ?>" ++ [lf].
Definition known (root : text) : Prop := root = root_mc \/ root = root_hmm.
Lemma layout root items : known root -> items <> [] -> (forall a, In a items -> attrs_ok a) ->
  xml_layout root (xml_document root items) = xml_head ++ "<"%char :: root ++ ">"%char :: lf :: concat (map item2 items) ++ xml_end root.
Proof.
  intros HR Hne H. unfold xml_document. destruct items as [|a0 items0] eqn:EI; [contradiction|]. rewrite <- EI in *. clear Hne EI a0 items0.
  change (chars "</" ++ root ++ [">"%char]) with (xml_end root). set (X := concat (map xml_item items) ++ xml_end root). unfold xml_layout.
  set (new1 := chars " standalone='yes' ?>").
  assert (E1 : replace (chars "?>") new1 (xml_decl ++ "<"%char :: root ++ ">"%char :: X) = xml_head ++ "<"%char :: root ++ ">"%char :: X).
  { change (chars "?>") with old1. transitivity (xml_head ++ ("<"%char :: root ++ [">"%char]) ++ replace old1 new1 X).
    - destruct HR as [->| ->]; reflexivity.
    - cbn [app]. rewrite <- app_assoc. cbn [app]. unfold X. rewrite items1; [|exact H|cbn; discriminate]. replace (replace old1 new1 (xml_end root)) with (xml_end root); [reflexivity|]. destruct HR as [->| ->]; reflexivity. }
  rewrite E1. set (old2 := "<"%char :: root ++ [">"%char]). set (new2 := "<"%char :: root ++ [">"%char; lf]).
  assert (E2 : replace old2 new2 (xml_head ++ "<"%char :: root ++ ">"%char :: X) = xml_head ++ new2 ++ X).
  { transitivity (xml_head ++ new2 ++ replace old2 new2 X).
    - unfold old2, new2. destruct HR as [->| ->]; reflexivity.
    - f_equal. f_equal. unfold X, old2. rewrite items2; [|exact H|intros t; destruct HR as [->| ->]; reflexivity]. f_equal. destruct HR as [->| ->]; reflexivity. }
  rewrite E2. change (chars "<Item") with old3.
  assert (E3 : replace old3 ("009"%char :: old3) (xml_head ++ new2 ++ X) = xml_head ++ new2 ++ concat (map item1 items) ++ xml_end root).
  { transitivity (xml_head ++ new2 ++ replace old3 ("009"%char :: old3) X).
    - unfold new2. destruct HR as [->| ->]; reflexivity.
    - f_equal. f_equal. unfold X. rewrite items3 by exact H. f_equal. destruct HR as [->| ->]; reflexivity. }
  rewrite E3. change (replace (quote :: chars " />") (quote :: chars "/>" ++ [lf])) with (replace old4 new4).
  transitivity (xml_head ++ new2 ++ replace old4 new4 (concat (map item1 items) ++ xml_end root)).
  - unfold new2. destruct HR as [->| ->]; reflexivity.
  - rewrite items4 by exact H. replace (replace old4 new4 (xml_end root)) with (xml_end root) by (destruct HR as [->| ->]; reflexivity). unfold new2. cbn [app]. rewrite <- app_assoc. reflexivity.
Qed.

(** ** Parsing *)
Lemma scan_escape c acc r : scan_attr quote None acc (xml_escape c ++ r) = scan_attr quote None (c :: acc) r.
Proof. destruct c as [[] [] [] [] [] [] [] []]; reflexivity. Qed.
Lemma scan_value v : forall acc r, scan_attr quote None acc (flat_map xml_escape v ++ quote :: r) = Ok (rev acc ++ v, r).
Proof.
  induction v as [|c v IH]; intros acc r; [cbn; rewrite app_nil_r; reflexivity|]. cbn [flat_map]. rewrite <- app_assoc, scan_escape, IH. cbn [rev]. rewrite <- app_assoc. reflexivity.
Qed.
Lemma tame_char c : In c (chars "abcdefghijklmnopqrstuvwxyz_") -> name_char c = true /\ is_ws c = false /\ Ascii.eqb c ">" = false /\ Ascii.eqb c "/" = false.
Proof. cbn. intros H. repeat (destruct H as [<-|H]; [repeat split; reflexivity|]). destruct H. Qed.
Lemma span_ok_name k r : (forall c, In c k -> name_char c = true) -> (match r with c :: _ => name_char c = false | [] => True end) -> span_name (k ++ r) = (k, r).
Proof.
  intros H HR. induction k as [|c k IH].
  - destruct r as [|c r]; [reflexivity|]. cbn [app span_name]. rewrite HR. reflexivity.
  - cbn [app span_name]. rewrite (H c) by (left; reflexivity). rewrite IH by (intros x Hx; apply H; right; exact Hx). reflexivity.
Qed.
Lemma xml_name_ok k r : k <> [] -> (forall c, In c k -> name_char c = true) -> (match r with c :: _ => name_char c = false | [] => True end) -> xml_name (k ++ r) = Ok (k, r).
Proof. intros Hne H HR. unfold xml_name. rewrite span_ok_name by assumption. destruct k; [contradiction|reflexivity]. Qed.
Lemma attr_app kv r : xml_attr kv ++ r = " "%char :: fst kv ++ "="%char :: quote :: flat_map xml_escape (snd kv) ++ quote :: r.
Proof. unfold xml_attr. cbn [app]. rewrite <- !app_assoc. cbn [app]. rewrite <- app_assoc. reflexivity. Qed.
Lemma parse_attrs_ok a : (forall kv, In kv a -> tame (fst kv)) -> forall f acc r, length a < f -> NoDup (map fst (acc ++ a)) ->
  parse_attrs f acc (flat_map xml_attr a ++ chars "/>" ++ r) = Ok (acc ++ a, true, r).
Proof.
  induction a as [|kv a IH]; intros HT f acc r Hf HN; (destruct f as [|f]; [cbn in Hf; lia|]).
  - rewrite app_nil_r. reflexivity.
  - cbn [flat_map]. rewrite <- app_assoc, attr_app. set (rest := flat_map xml_attr a ++ chars "/>" ++ r).
    destruct (HT kv (or_introl eq_refl)) as [Hne Hk]. destruct (fst kv) as [|c k] eqn:EK; [contradiction|]. 
    pose proof (tame_char c (Hk c (or_introl eq_refl))) as (Hc1 & Hc2 & Hc3 & Hc4).
    cbn [app]. cbn [parse_attrs]. change (skip_ws (" "%char :: c :: k ++ "="%char :: quote :: flat_map xml_escape (snd kv) ++ quote :: rest)) with (skip_ws (c :: k ++ "="%char :: quote :: flat_map xml_escape (snd kv) ++ quote :: rest)).
    rewrite skip_ws_head by exact Hc2. rewrite Hc3, Hc4. 
    replace (negb (Nat.eqb _ _)) with true by (symmetry; apply negb_true_iff; apply Nat.eqb_neq; cbn [length]; lia).
    change (c :: k ++ "="%char :: quote :: flat_map xml_escape (snd kv) ++ quote :: rest) with ((c :: k) ++ "="%char :: quote :: flat_map xml_escape (snd kv) ++ quote :: rest).
    rewrite xml_name_ok; [|discriminate|intros x Hx; apply tame_char; apply Hk; exact Hx|reflexivity]. cbn [bind fst snd].
    rewrite skip_ws_head by reflexivity. change (Ascii.eqb "=" "=") with true. cbv iota. rewrite skip_ws_head by reflexivity. change (Ascii.eqb quote quote || Ascii.eqb quote "'") with true. cbv iota.
    rewrite scan_value. cbn [bind fst snd rev app].
    assert (HN2 : ~ In (c :: k) (map fst acc)).
    { rewrite map_app in HN. cbn [map] in HN. rewrite EK in HN. apply NoDup_remove_2 in HN. intros C. apply HN. apply in_app_iff. left. exact C. }
    replace (existsb (text_eqb (c :: k)) (map fst acc)) with false.
    2: { symmetry. destruct (existsb _ _) eqn:E; [|reflexivity]. apply existsb_exists in E. destruct E as (x & Hx & E). apply text_eqb_eq in E. subst. contradiction. }
    cbn [negb].
    assert (Hkv : @pair text text (c :: k) (snd kv) = kv) by (rewrite <- EK; destruct kv; reflexivity). change (@pair (list ascii) text (c :: k) (snd kv)) with (@pair text text (c :: k) (snd kv)). rewrite Hkv. unfold rest. rewrite IH; [rewrite <- app_assoc; reflexivity|intros x Hx; apply HT; right; exact Hx|cbn in Hf; lia|rewrite <- app_assoc; exact HN].
Qed.
Definition item_tag : text := chars "Item".
Lemma attrs_length a : length a <= length (flat_map xml_attr a).
Proof. induction a as [|kv a IH]; [cbn; lia|]. cbn [flat_map]. rewrite app_length. unfold xml_attr at 1. cbn [length]. lia. Qed.
Lemma parse_item f a r : attrs_ok a -> NoDup (map fst a) -> 0 < f -> parse_element f (item_tag ++ flat_map xml_attr a ++ chars "/>" ++ r) = Ok (XEl item_tag a [], r).
Proof.
  intros [Hne HT] HN Hf. destruct f as [|f]; [lia|].
  assert (HA : exists t, flat_map xml_attr a = " "%char :: t) by (destruct a as [|kv a]; [contradiction|]; cbn [flat_map]; unfold xml_attr at 1; cbn [app]; eexists; reflexivity).
  change (parse_element (S f) (item_tag ++ flat_map xml_attr a ++ chars "/>" ++ r)) with
    (nr <- xml_name (item_tag ++ flat_map xml_attr a ++ chars "/>" ++ r) ;;
     ar <- parse_attrs (S (length (snd nr))) [] (snd nr) ;;
     if snd (fst ar) then Ok (XEl (fst nr) (fst (fst ar)) [], snd ar)
     else cr <- parse_content f (fst nr) [] (snd ar) ;; Ok (XEl (fst nr) (fst (fst ar)) (fst cr), snd cr)).
  rewrite xml_name_ok; [|discriminate|intros c Hc; cbn in Hc; repeat (destruct Hc as [<-|Hc]; [reflexivity|]); destruct Hc|destruct HA as (t & ->); reflexivity]. cbn [bind fst snd].
  rewrite parse_attrs_ok; [reflexivity|exact HT|rewrite app_length; pose proof (attrs_length a); lia|exact HN].
Qed.
Lemma parse_content_ok root items : known root -> (forall a, In a items -> attrs_ok a /\ NoDup (map fst a)) -> forall f acc, length items + 1 < f ->
  parse_content f root acc (lf :: concat (map item2 items) ++ xml_end root) = Ok (acc ++ map (fun a => XEl item_tag a []) items, []).
Proof.
  intros HR H. induction items as [|a items IH]; intros f acc Hf; (destruct f as [|f]; [lia|]).
  - rewrite app_nil_r. destruct HR as [->| ->]; reflexivity.
  - cbn [map concat]. rewrite <- app_assoc, item2_app. set (rest := lf :: concat (map item2 items) ++ xml_end root).
    change (parse_content (S f) root acc (lf :: "009"%char :: chars "<Item" ++ flat_map xml_attr a ++ chars "/>" ++ rest)) with
      (er <- parse_element f (item_tag ++ flat_map xml_attr a ++ chars "/>" ++ rest) ;; parse_content f root (acc ++ [fst er]) (snd er)).
    rewrite parse_item; [|apply H; left; reflexivity|apply H; left; reflexivity|cbn in Hf; lia]. cbn [bind fst snd]. unfold rest. rewrite IH; [rewrite <- app_assoc; reflexivity|intros x Hx; apply H; right; exact Hx|cbn in Hf; lia].
Qed.
Definition legal (t : text) : Prop := forall c, In c t -> xml_char c = true.
Lemma legal_app t u : legal t -> legal u -> legal (t ++ u).
Proof. intros H1 H2 c H. apply in_app_iff in H. destruct H; auto. Qed.
Lemma legal_cons c t : xml_char c = true -> legal t -> legal (c :: t).
Proof. intros H1 H2 x [<-|H]; auto. Qed.
Lemma legal_lit t : forallb xml_char t = true -> legal t.
Proof. intros H c Hc. rewrite forallb_forall in H. auto. Qed.
Lemma legal_escape v : legal v -> legal (flat_map xml_escape v).
Proof.
  intros H c Hc. apply in_flat_map in Hc. destruct Hc as (x & Hx & Hc). apply H in Hx.
  assert (E : implb (xml_char x) (forallb xml_char (xml_escape x)) = true) by (destruct x as [[] [] [] [] [] [] [] []]; vm_compute; reflexivity).
  rewrite Hx in E. cbn in E. rewrite forallb_forall in E. auto.
Qed.
Lemma tame_legal k : tame k -> legal k.
Proof. intros [_ H] c Hc. apply H in Hc. cbn in Hc. repeat (destruct Hc as [<-|Hc]; [reflexivity|]). destruct Hc. Qed.
Lemma legal_attr kv : tame (fst kv) -> legal (snd kv) -> legal (xml_attr kv).
Proof.
  intros HT HL. unfold xml_attr. apply legal_cons; [reflexivity|]. apply legal_app; [apply tame_legal; exact HT|]. apply legal_cons; [reflexivity|]. apply legal_cons; [reflexivity|]. apply legal_app; [apply legal_escape; exact HL|]. apply legal_lit. reflexivity.
Qed.
Definition no_cr (t : text) : Prop := ~ In cr t.
Lemma escape_cr v : no_cr (flat_map xml_escape v).
Proof.
  intros C. apply in_flat_map in C. destruct C as (x & _ & C).
  assert (E : existsb (Ascii.eqb cr) (xml_escape x) = false) by (destruct x as [[] [] [] [] [] [] [] []]; vm_compute; reflexivity).
  assert (E2 : existsb (Ascii.eqb cr) (xml_escape x) = true) by (apply existsb_exists; exists cr; split; [exact C|reflexivity]). congruence.
Qed.
Lemma attr_cr kv : tame (fst kv) -> no_cr (xml_attr kv).
Proof.
  intros HT. unfold no_cr. rewrite xml_attr_split. unfold attr_open. apply not_in_app; [apply not_in_cons; [discriminate|]; apply not_in_app; [apply tame_not; [exact HT|cbn; intuition discriminate]|cbn; intuition discriminate]|]. apply not_in_app; [apply escape_cr|cbn; intuition discriminate].
Qed.
Lemma items_prop (P : ascii -> Prop) items : (forall a kv c, In a items -> In kv a -> In c (xml_attr kv) -> P c) -> (forall c, In c ("009"%char :: chars "<Item" ++ chars "/>" ++ [lf]) -> P c) ->
  forall c, In c (concat (map item2 items)) -> P c.
Proof.
  intros H1 H2 c Hc. apply in_concat in Hc. destruct Hc as (t & Ht & Hc). apply in_map_iff in Ht. destruct Ht as (a & <- & Ha). unfold item2 in Hc. cbn [In] in Hc. destruct Hc as [Hc|Hc]; [apply H2; left; exact Hc|].
  apply in_app_iff in Hc. destruct Hc as [Hc|Hc]; [apply H2; right; apply in_app_iff; left; exact Hc|]. apply in_app_iff in Hc. destruct Hc as [Hc|Hc]; [|apply H2; right; apply in_app_iff; right; exact Hc].
  apply in_flat_map in Hc. destruct Hc as (kv & Hkv & Hc). exact (H1 a kv c Ha Hkv Hc).
Qed.
Lemma load_steps doc u v : forallb xml_char doc = true -> universal doc = doc -> strip_prefix (chars "<?xml") doc = Some u -> after (chars "?>") u = Some (lf :: "<"%char :: v) ->
  xml_load doc = (er <- parse_element (S (2 * length doc)) v ;; match skip_ws (snd er) with [] => Ok (fst er) | _ => Err ValueErr end).
Proof. intros H1 H2 H3 H4. unfold xml_load. rewrite H1. cbv zeta. rewrite H2, H3, H4. reflexivity. Qed.
Lemma head_strip t : strip_prefix (chars "<?xml") (xml_head ++ t) = Some (skipn 5 xml_head ++ t).
Proof. reflexivity. Qed.
Lemma head_after t : after (chars "?>") (skipn 5 xml_head ++ t) = Some (lf :: t).
Proof. reflexivity. Qed.
Lemma root_open f root body : known root -> parse_element (S f) (root ++ ">"%char :: body) = (cr <- parse_content f root [] body ;; Ok (XEl root [] (fst cr), snd cr)).
Proof. intros [->| ->]; reflexivity. Qed.
Lemma load_ok root items : known root -> (forall a, In a items -> attrs_ok a /\ NoDup (map fst a) /\ forall kv, In kv a -> legal (snd kv)) ->
  xml_load (xml_head ++ "<"%char :: root ++ ">"%char :: lf :: concat (map item2 items) ++ xml_end root) = Ok (XEl root [] (map (fun a => XEl item_tag a []) items)).
Proof.
  intros HR H. set (body := concat (map item2 items) ++ xml_end root). set (doc := xml_head ++ "<"%char :: root ++ ">"%char :: lf :: body).
  assert (HB1 : legal body).
  { unfold body. apply legal_app; [|destruct HR as [->| ->]; apply legal_lit; reflexivity]. intros c Hc. revert c Hc. apply items_prop.
    - intros a kv c Ha Hkv. destruct (H a Ha) as ((_ & HT) & _ & HL). apply legal_attr; auto.
    - apply legal_lit. reflexivity. }
  assert (HB2 : ~ In cr body).
  { unfold body. apply not_in_app; [|destruct HR as [->| ->]; cbn; intuition discriminate]. intros C. revert C. pose proof (items_prop (fun c => c <> cr) items) as HP. intros C. apply HP in C; [congruence| |].
    - intros a kv c Ha Hkv Hc ->. destruct (H a Ha) as ((_ & HT) & _ & HL). exact (attr_cr kv (HT kv Hkv) Hc).
    - intros c Hc. cbn in Hc. intros ->. intuition discriminate. }
  rewrite (load_steps doc (skipn 5 xml_head ++ "<"%char :: root ++ ">"%char :: lf :: body) (root ++ ">"%char :: lf :: body)).
  - rewrite root_open by exact HR. unfold body at 1. rewrite parse_content_ok; [reflexivity|exact HR|intros a Ha; split; apply H; exact Ha|].
    unfold doc, body. rewrite app_length. cbn [length]. rewrite app_length. cbn [length]. rewrite app_length. 
    assert (length items <= length (concat (map item2 items))) by (clear; induction items as [|a items IH]; [cbn; lia|]; cbn [map concat]; rewrite app_length; unfold item2 at 1; cbn [length]; lia). lia.
  - apply forallb_forall. intros c Hc. unfold doc in Hc. revert c Hc. apply legal_app; [apply legal_lit; reflexivity|]. change ("<"%char :: root ++ ">"%char :: lf :: body) with (("<"%char :: root) ++ [">"%char; lf] ++ body). apply legal_app; [destruct HR as [->| ->]; apply legal_lit; reflexivity|]. apply legal_app; [apply legal_lit; reflexivity|exact HB1].
  - apply universal_id. unfold doc. apply not_in_app; [cbn; intuition discriminate|]. apply not_in_cons; [discriminate|]. apply not_in_app; [destruct HR as [->| ->]; cbn; intuition discriminate|]. apply not_in_cons; [discriminate|]. apply not_in_cons; [discriminate|exact HB2].
  - apply head_strip.
  - apply head_after.
Qed.

(** ** The files *)
Lemma get_attr_nodup (l : list (text * text)) k v : NoDup (map fst l) -> In (k, v) l -> get_attr l k = Some v.
Proof.
  induction l as [|[k' v'] l IH]; intros HN H; [destruct H|]. cbn in *. inversion HN as [|? ? H1 H2]; subst. destruct H as [H|H].
  - inversion H; subst. replace (text_eqb k k) with true by (symmetry; apply text_eqb_eq; reflexivity). reflexivity.
  - destruct (text_eqb k' k) eqn:E; [|auto]. apply text_eqb_eq in E. subst. exfalso. apply H1. apply in_map_iff. exists (k, v). auto.
Qed.
Lemma lstrip_id t : (forall c r, t = c :: r -> is_space c = false) -> lstrip t = t.
Proof. destruct t as [|c r]; intros H; [reflexivity|]. cbn. rewrite (H c r eq_refl). reflexivity. Qed.
Lemma strip_id t : (forall c r, t = c :: r \/ t = r ++ [c] -> is_space c = false) -> strip t = t.
Proof.
  intros H. unfold strip. rewrite (lstrip_id t) by (intros c r E; apply (H c r); left; exact E). rewrite (lstrip_id (rev t)); [apply rev_involutive|]. intros c r E. apply (H c (rev r)). right. rewrite <- (rev_involutive t), E. reflexivity.
Qed.
Lemma digit_char c : In c (chars "0123456789") -> is_space c = false /\ xml_char c = true /\ c <> ","%char /\ c <> """"%char /\ c <> "000"%char.
Proof. cbn. intros H. repeat (destruct H as [<-|H]; [repeat split; try reflexivity; discriminate|]). destruct H. Qed.
Lemma decimal_chars w c : decimal w -> In c w -> is_space c = false /\ xml_char c = true /\ c <> ","%char /\ c <> """"%char /\ c <> "000"%char.
Proof.
  intros (i & f & e & -> & Hi & Hf & He) Hc. apply in_app_iff in Hc. destruct Hc as [Hc|Hc]; [|apply in_app_iff in Hc; destruct Hc as [Hc|Hc]].
  - apply digit_char. destruct Hi as [->|(c0 & ds & -> & Hc0 & HD)]; [destruct Hc as [<-|[]]; cbn; tauto|]. destruct Hc as [<-|Hc]; [cbn in *; tauto|apply HD; exact Hc].
  - destruct Hf as [->|(ds & -> & _ & HD)]; [destruct Hc|]. destruct Hc as [<-|Hc]; [repeat split; try reflexivity; discriminate|apply digit_char; apply HD; exact Hc].
  - destruct He as [->|(s & ds & -> & Hs & _ & HD)]; [destruct Hc|]. destruct Hc as [<-|Hc]; [repeat split; try reflexivity; discriminate|]. apply in_app_iff in Hc. destruct Hc as [Hc|Hc]; [|apply digit_char; apply HD; exact Hc].
    destruct Hs as [->|[->| ->]]; [destruct Hc| |]; (destruct Hc as [<-|[]]; repeat split; try reflexivity; discriminate).
Qed.
Lemma decimal_ne w : decimal w -> w <> [].
Proof. intros H. destruct (decimal_first w H) as (c & r & -> & _). discriminate. Qed.
Section RTX.
Variable show : num -> text.
Variable float : text -> option num.
Definition xml_entry (ps : list (string * list string)) (e : key * num) : Prop :=
  length (fst e) = length ps /\ Forall2 (fun p s => s <> EmptyString /\ trimmed s /\ xml_text s /\ allowed p s = true) ps (fst e) /\ decimal (show (snd e)) /\ survives show float (snd e).
Definition tame_params (ps : list (string * list string)) : Prop := forall p, In p ps -> tame (chars (fst p)).
Lemma params_mc_tame : tame_params params_mc.
Proof. intros p [<-|[<-|[]]]; (split; [discriminate|]); intros c Hc; cbn in Hc |- *; intuition. Qed.
Lemma params_hmm_tame : tame_params params_hmm.
Proof. intros p [<-|[<-|[<-|[]]]]; (split; [discriminate|]); intros c Hc; cbn in Hc |- *; intuition. Qed.
Lemma probability_tame : tame (chars "probability").
Proof. split; [discriminate|]. intros c Hc; cbn in Hc |- *; intuition. Qed.
Lemma xml_keys ps e : length (fst e) = length ps -> map fst (xml_attrs show ps e) = map (fun p => chars (fst p)) ps ++ [chars "probability"].
Proof. intros H. unfold xml_attrs. rewrite map_app. cbn [map fst]. f_equal. apply combine_fst. rewrite !map_length. exact H. Qed.
Lemma forall2_in {A B} (R : A -> B -> Prop) l m b : Forall2 R l m -> In b m -> exists a, In a l /\ R a b.
Proof. intros H. induction H; intros Hb; [destruct Hb|]. destruct Hb as [<-|Hb]; [exists x; split; [left; reflexivity|assumption]|]. destruct (IHForall2 Hb) as (a & Ha & HR). exists a. split; [right|]; assumption. Qed.
Lemma xml_values ps e kv : xml_entry ps e -> In kv (xml_attrs show ps e) -> legal (snd kv) /\ strip (snd kv) = snd kv /\ snd kv <> [].
Proof.
  intros (HL & HF & HD & HS) H. unfold xml_attrs in H. apply in_app_iff in H. destruct H as [H|[<-|[]]].
  - destruct kv as [k v]. apply in_combine_r in H. apply in_map_iff in H. destruct H as (s & <- & Hs). cbn [snd]. destruct (forall2_in _ _ _ s HF Hs) as (p & _ & Hne & HT & HX & _). split; [|split].
    + intros c Hc. unfold xml_char, code. destruct (HX c Hc) as [Hl|[->|[->| ->]]]; [|reflexivity|reflexivity|reflexivity]. replace (Nat.leb 32 (nat_of_ascii c)) with true by (symmetry; apply Nat.leb_le; exact Hl). reflexivity.
    + apply strip_id. exact HT.
    + destruct s; [contradiction|discriminate].
  - cbn [snd]. split; [|split].
    + intros c Hc. apply (decimal_chars _ c HD Hc).
    + apply strip_id. intros c r [E|E]; apply (decimal_chars _ c HD); rewrite E; [left; reflexivity|apply in_app_iff; right; left; reflexivity].
    + apply decimal_ne. exact HD.
Qed.
Lemma xml_attrs_good ps e : tame_params ps -> json_params ps -> xml_entry ps e -> attrs_ok (xml_attrs show ps e) /\ NoDup (map fst (xml_attrs show ps e)) /\ forall kv, In kv (xml_attrs show ps e) -> legal (snd kv).
Proof.
  intros HT HP HE. pose proof HE as (HL & _). split; [split|split].
  - unfold xml_attrs. intros C. apply app_eq_nil in C. destruct C; discriminate.
  - intros kv H. unfold xml_attrs in H. apply in_app_iff in H. destruct H as [H|[<-|[]]]; [|apply probability_tame]. destruct kv as [k v]. apply in_combine_l in H. apply in_map_iff in H. destruct H as (p & <- & Hp). apply HT. exact Hp.
  - rewrite xml_keys by exact HL. exact HP.
  - intros kv H. apply (xml_values ps e kv HE H).
Qed.
Lemma xml_fields_ok attrs ps k : Forall2 (fun p s => s <> EmptyString /\ trimmed s /\ xml_text s /\ allowed p s = true) ps k ->
  (forall p s, In (p, s) (combine ps k) -> get_attr attrs (chars (fst p)) = Some (chars s)) -> xml_fields ps attrs = Ok k.
Proof.
  intros HF. induction HF as [|p s ps k (_ & _ & _ & Ha) HF IH]; intros H; [reflexivity|]. cbn [xml_fields]. rewrite (H p s) by (left; reflexivity). rewrite str_chars, Ha. rewrite IH by (intros p' s' H'; apply H; right; exact H'). reflexivity.
Qed.
Lemma in_combine_map {A B C D} (f : A -> C) (g : B -> D) l m x y : In (x, y) (combine l m) -> In (f x, g y) (combine (map f l) (map g m)).
Proof. revert m; induction l as [|a l IH]; intros [|b m] H; try destruct H. - inversion H; subst. left. reflexivity. - right. apply IH. exact H. Qed.
Lemma xml_records_ok root ps d : known root -> tame_params ps -> json_params ps -> (forall e, In e d -> xml_entry ps e) -> forall d0, NoDup (map fst (d0 ++ d)) ->
  xml_records float root ps (flat_map xml_iter (map (fun a => XEl item_tag a []) (map (xml_attrs show ps) d))) d0 = Ok (d0 ++ d).
Proof.
  intros HR HTm HP. induction d as [|e d IH]; intros HE d0 HN; [rewrite app_nil_r; reflexivity|]. pose proof (HE e (or_introl eq_refl)) as Hx. pose proof Hx as (HL & HF & HD & HS). cbn [map flat_map xml_iter app xml_records].
  replace (text_eqb item_tag root) with false by (destruct HR as [->| ->]; reflexivity). change (text_eqb item_tag (chars "Item")) with true. cbv iota.
  pose proof (xml_keys ps e HL) as EK. rewrite EK. cbv zeta.
  assert (Hlen : length (xml_attrs show ps e) = length (map (fun p : string * list string => chars (fst p)) ps ++ [chars "probability"])) by (rewrite <- EK, map_length; reflexivity). rewrite Hlen, Nat.eqb_refl.
  set (wanted := map (fun p : string * list string => chars (fst p)) ps ++ [chars "probability"]) in *.
  replace (forallb (fun k => existsb (text_eqb k) wanted) wanted) with true by (symmetry; apply forallb_forall; intros x Hxx; apply existsb_exists; exists x; split; [exact Hxx|apply text_eqb_eq; reflexivity]). cbn [andb].
  assert (HSt : map (fun kv : text * text => (fst kv, strip (snd kv))) (xml_attrs show ps e) = xml_attrs show ps e).
  { rewrite <- (map_id (xml_attrs show ps e)) at 2. apply map_ext_in. intros kv Hkv. destruct (xml_values ps e kv Hx Hkv) as (_ & E & _). rewrite E. destruct kv; reflexivity. }
  rewrite HSt. replace (forallb (fun kv : text * text => nonempty (snd kv)) (xml_attrs show ps e)) with true.
  2: { symmetry. apply forallb_forall. intros kv Hkv. destruct (xml_values ps e kv Hx Hkv) as (_ & _ & Hne). unfold nonempty. destruct (snd kv); [contradiction|reflexivity]. }
  assert (HN' : NoDup (map fst (xml_attrs show ps e))) by (rewrite EK; exact HP).
  rewrite (xml_fields_ok _ ps (fst e) HF).
  2: { intros p s H. apply get_attr_nodup; [exact HN'|]. unfold xml_attrs. apply in_app_iff. left. apply (in_combine_map (fun p : string * list string => chars (fst p)) chars). exact H. }
  cbn [bind]. rewrite (get_attr_nodup _ (chars "probability") (show (snd e))); [|exact HN'|unfold xml_attrs; apply in_app_iff; right; left; reflexivity].
  cbn [xml_number]. rewrite HS. cbn [bind]. rewrite map_app in HN. cbn [map] in HN. rewrite dict_set_absent by (apply NoDup_remove_2 in HN; intros C; apply HN; apply in_app_iff; left; exact C).
  rewrite IH; [rewrite <- app_assoc; destruct e; reflexivity|intros x Hxx; apply HE; right; exact Hxx|]. rewrite <- app_assoc, map_app. destruct e. exact HN.
Qed.
Lemma xml_read_back root ps d : known root -> tame_params ps -> json_params ps -> d <> [] -> (forall e, In e d -> xml_entry ps e) -> NoDup (map fst d) ->
  read_xml float root ps (write_xml show root ps d) = Ok d.
Proof.
  intros HR HT HP Hne HE HN. unfold read_xml, write_xml.
  assert (HA : forall a, In a (map (xml_attrs show ps) d) -> attrs_ok a /\ NoDup (map fst a) /\ forall kv, In kv a -> legal (snd kv)).
  { intros a Ha. apply in_map_iff in Ha. destruct Ha as (e & <- & He). apply xml_attrs_good; auto. }
  rewrite layout; [|exact HR|intros C; apply map_eq_nil in C; contradiction|intros a Ha; apply HA; exact Ha]. rewrite load_ok by assumption.
  replace (text_eqb root root) with true by (symmetry; apply text_eqb_eq; reflexivity). cbn [xml_iter xml_records]. replace (text_eqb root root) with true by (symmetry; apply text_eqb_eq; reflexivity).
  apply (xml_records_ok root ps d HR HT HP HE []). exact HN.
Qed.
End RTX.
