(** L_Torn: a JSON or XML text cut short is not read. *)
From Verif Require Import S_Files L_Io1 L_Io3 L_Json L_Xml.
Open Scope nat_scope.
Open Scope res_scope.

Lemma bind_inv {A B} (x : res A) (f : A -> res B) y : bind x f = Ok y -> exists a, x = Ok a /\ f a = Ok y.
Proof. destruct x as [a|e]; cbn; intros H; [exists a; auto|discriminate]. Qed.

Lemma skip_ws_mono t c r q : skip_ws t = c :: r -> skip_ws (t ++ q) = c :: r ++ q.
Proof.
  induction t as [|x t IH]; cbn [skip_ws app]; intros H; [discriminate|]. destruct (is_ws x); [apply IH; exact H|]. inversion H. subst. reflexivity.
Qed.
Lemma skip_ws_nil t c : skip_ws t = [] -> In c t -> is_ws c = true.
Proof.
  induction t as [|x t IH]; intros H Hi; [destruct Hi|]. cbn [skip_ws] in H. destruct (is_ws x) eqn:Ex; [|discriminate]. destruct Hi as [->|Hi]; [exact Ex|apply IH; assumption].
Qed.
Lemma skip_ws_all t : (forall c, In c t -> is_ws c = true) -> skip_ws t = [].
Proof. induction t as [|x t IH]; intros H; [reflexivity|]. cbn [skip_ws]. rewrite (H x (or_introl eq_refl)). apply IH. intros c Hc. apply H. right. exact Hc. Qed.

(** ** JSON *)
Lemma scan_string_mono k : forall t, length t <= k -> forall acc s r q, scan_string acc t = Ok (s, r) -> scan_string acc (t ++ q) = Ok (s, r ++ q).
Proof.
  induction k as [|k IH]; intros [|c t] Hl acc s r q H; cbn [length] in Hl; try lia; try discriminate. cbn [scan_string app] in *.
  destruct (Ascii.eqb c quote); [inversion H; subst; reflexivity|]. destruct (Ascii.eqb c bs).
  - destruct t as [|e t]; [discriminate|]. cbn [length app] in *. destruct (Ascii.eqb e "u").
    + destruct t as [|h1 [|h2 [|h3 [|h4 t]]]]; try discriminate. cbn [length app] in *. destruct (hex_val h1); [|discriminate]. destruct (hex_val h2); [|discriminate]. destruct (hex_val h3); [|discriminate]. destruct (hex_val h4); [|discriminate].
      destruct (Nat.eqb n 0 && Nat.eqb n0 0); [|discriminate]. cbv iota in *. apply IH; [lia|exact H].
    + repeat match goal with |- context [if ?b then _ else _] => destruct b end; try discriminate; (apply IH; [lia|exact H]).
  - destruct (Nat.ltb (code c) 32); [discriminate|]. apply IH; [lia|exact H].
Qed.
Lemma span_digits_mono t ds c r q : span_digits t = (ds, c :: r) -> span_digits (t ++ q) = (ds, c :: r ++ q).
Proof.
  revert ds. induction t as [|x t IH]; intros ds H; cbn [span_digits app] in *; [discriminate|]. destruct (is_digit x).
  - destruct (span_digits t) as [d u] eqn:E. cbn [fst snd] in H. inversion H. subst. rewrite (IH d eq_refl). reflexivity.
  - inversion H. subst. reflexivity.
Qed.
Lemma span_digits_snd t : exists ds, t = ds ++ snd (span_digits t) /\ fst (span_digits t) = ds.
Proof. induction t as [|x t IH]; cbn [span_digits]; [exists []; auto|]. destruct (is_digit x); [|exists []; auto]. destruct IH as (ds & E1 & E2). exists (x :: ds). cbn [fst snd app]. rewrite E2, <- E1. auto. Qed.
(** a character that ends a number for good *)
Definition ends (c : ascii) : Prop := is_digit c = false /\ c <> "."%char /\ c <> "e"%char /\ c <> "E"%char.
Lemma num_exp_mono t e c r q : ends c -> num_exp t = (e, c :: r) -> num_exp (t ++ q) = (e, c :: r ++ q).
Proof.
  intros (D & Nd & Ne & NE) H. unfold num_exp in *. destruct t as [|x t]; [discriminate|]. cbn [app]. destruct (Ascii.eqb x "e" || Ascii.eqb x "E") eqn:Ex; [|inversion H; subst; reflexivity].
  assert (Hx : x = "e"%char \/ x = "E"%char) by (apply orb_true_iff in Ex; destruct Ex as [E|E]; apply Ascii.eqb_eq in E; auto).
  assert (K : forall w, (([] : text), x :: w) <> (e, c :: r)) by (intros w C; inversion C; subst; destruct Hx; contradiction).
  destruct t as [|s t].
  - cbn [span_digits fst snd] in H. exfalso. exact (K _ H).
  - cbn [app]. destruct (Ascii.eqb s "-" || Ascii.eqb s "+").
    + destruct (span_digits t) as [ds u] eqn:E. cbn [fst snd] in H. destruct ds as [|d ds]; [exfalso; exact (K _ H)|]. inversion H. subst u. rewrite (span_digits_mono _ _ _ _ q E). reflexivity.
    + destruct (span_digits (s :: t)) as [ds u] eqn:E. change (s :: t ++ q) with ((s :: t) ++ q). cbn [fst snd] in H. destruct ds as [|d ds]; [exfalso; exact (K _ H)|]. inversion H. subst u. rewrite (span_digits_mono _ _ _ _ q E). reflexivity.
Qed.
Lemma num_frac_mono t f c r q : (ends c \/ c = "e"%char \/ c = "E"%char) -> num_frac t = (f, c :: r) -> num_frac (t ++ q) = (f, c :: r ++ q).
Proof.
  intros Hc H. assert (Nd : c <> "."%char) by (destruct Hc as [(_ & N & _)|[->| ->]]; [exact N|discriminate|discriminate]).
  unfold num_frac in *. destruct t as [|x t]; [discriminate|]. cbn [app]. destruct (Ascii.eqb_spec x ".") as [->|Hx]; [|inversion H; subst; reflexivity].
  destruct (span_digits t) as [ds u] eqn:E. cbn [fst snd] in H. destruct ds as [|d ds]; [inversion H; subst; contradiction|]. inversion H. subst u. rewrite (span_digits_mono _ _ _ _ q E). reflexivity.
Qed.
Lemma num_int_mono t i c r q : num_int t = Some (i, c :: r) -> num_int (t ++ q) = Some (i, c :: r ++ q).
Proof.
  intros H. unfold num_int in *. destruct t as [|x t]; [discriminate|]. cbn [app].
  assert (G : forall sign w, match w with c0 :: r0 => if Ascii.eqb c0 "0" then Some (sign ++ [c0], r0) else if is_digit c0 then Some (sign ++ c0 :: fst (span_digits r0), snd (span_digits r0)) else None | [] => None end = Some (i, c :: r) ->
     match w ++ q with c0 :: r0 => if Ascii.eqb c0 "0" then Some (sign ++ [c0], r0) else if is_digit c0 then Some (sign ++ c0 :: fst (span_digits r0), snd (span_digits r0)) else None | [] => None end = Some (i, c :: r ++ q)).
  { intros sign [|y w] G; [discriminate|]. cbn [app]. destruct (Ascii.eqb y "0"); [inversion G; subst; reflexivity|]. destruct (is_digit y); [|discriminate]. destruct (span_digits w) as [ds u] eqn:E. cbn [fst snd] in *. inversion G. subst. rewrite (span_digits_mono _ _ _ _ q E). reflexivity. }
  destruct (Ascii.eqb x "-"); [exact (G _ _ H)|exact (G [] (x :: t) H)].
Qed.
Lemma scan_number_mono t w c r q : ends c -> scan_number t = Some (w, c :: r) -> scan_number (t ++ q) = Some (w, c :: r ++ q).
Proof.
  intros Hc H. unfold scan_number in *. destruct (num_int t) as [[i t1]|] eqn:E1; [|discriminate]. destruct (num_frac t1) as [f t2] eqn:E2. destruct (num_exp t2) as [e t3] eqn:E3. inversion H. subst t3.
  destruct t2 as [|c2 t2]; [discriminate|]. assert (H2 : ends c2 \/ c2 = "e"%char \/ c2 = "E"%char).
  { cbn [num_exp] in E3. destruct (Ascii.eqb_spec c2 "e") as [->|]; [auto|]. destruct (Ascii.eqb_spec c2 "E") as [->|]; [auto|]. cbn [orb] in E3. inversion E3. subst. left. exact Hc. }
  destruct t1 as [|c1 t1]; [discriminate|]. rewrite (num_int_mono _ _ _ _ q E1). change (c1 :: t1 ++ q) with ((c1 :: t1) ++ q). rewrite (num_frac_mono _ _ _ _ q H2 E2).
  change (c2 :: t2 ++ q) with ((c2 :: t2) ++ q). rewrite (num_exp_mono _ _ _ _ q Hc E3). subst. reflexivity.
Qed.
Lemma scan_literal_inv l t v r : scan_literal l t = Some (v, r) -> exists w, In (w, v) l /\ t = chars w ++ r.
Proof.
  assert (S : forall p t u, strip_prefix p t = Some u -> t = p ++ u).
  { induction p as [|a p IH]; intros [|x t0] u H; cbn in H; try discriminate; try (inversion H; reflexivity). destruct (Ascii.eqb_spec a x) as [->|]; [|discriminate]. cbn. f_equal. apply IH. exact H. }
  induction l as [|[w v'] l IH]; cbn [scan_literal]; intros H; [discriminate|]. destruct (strip_prefix (chars w) t) as [t'|] eqn:E.
  - inversion H. subst. exists w. split; [left; reflexivity|apply S; exact E].
  - destruct (IH H) as (w' & Hi & Et). exists w'. split; [right; exact Hi|exact Et].
Qed.
(** what follows a value, when the value itself does not show where it ends *)
Definition closed (t r : text) : Prop :=
  (exists c u, t = c :: u /\ (c = quote \/ c = "{"%char \/ c = "["%char)) \/ (exists c u, r = c :: u /\ ends c).
Lemma ws_ends c : is_ws c = true -> ends c.
Proof. unfold is_ws. rewrite !orb_true_iff, !Ascii.eqb_eq. intros [[[->| ->]| ->]| ->]; repeat split; discriminate. Qed.
Lemma skip_ends t c r : skip_ws t = c :: r -> ends c -> exists c' u, t = c' :: u /\ ends c'.
Proof.
  destruct t as [|x t]; [discriminate|]. cbn [skip_ws]. destruct (is_ws x) eqn:E; intros H Hc; exists x, t; (split; [reflexivity|]); [apply ws_ends; exact E|]. inversion H. subst. exact Hc.
Qed.
Lemma json_mono f :
  (forall t v r, parse_value f t = Ok (v, r) -> closed t r -> forall f' q, f <= f' -> parse_value f' (t ++ q) = Ok (v, r ++ q)) /\
  (forall acc t v r, parse_members f acc t = Ok (v, r) -> forall f' q, f <= f' -> parse_members f' acc (t ++ q) = Ok (v, r ++ q)) /\
  (forall acc t v r, parse_elements f acc t = Ok (v, r) -> forall f' q, f <= f' -> parse_elements f' acc (t ++ q) = Ok (v, r ++ q)).
Proof.
  assert (EC : ends "," /\ ends "}" /\ ends "]") by (repeat split; discriminate). destruct EC as (Ec & Eb & Ek).
  induction f as [|f (IHv & IHm & IHe)]; [repeat split; intros; discriminate|]. repeat split.
  - intros t v r H Hcl [|f'] q Hf; [lia|]. cbn [parse_value] in *. destruct t as [|c t]; [discriminate|]. cbn [app].
    destruct (Ascii.eqb c quote) eqn:E1.
    { apply bind_inv in H. destruct H as ([s u] & Hs & H). cbn [fst snd] in H. inversion H. subst. rewrite (scan_string_mono (length t) t (le_n _) _ _ _ q Hs). reflexivity. }
    destruct (Ascii.eqb c "{") eqn:E2.
    { destruct (skip_ws t) as [|c' r'] eqn:E; [discriminate|]. rewrite (skip_ws_mono _ _ _ q E). destruct (Ascii.eqb c' "}"); [inversion H; reflexivity|]. change (c' :: r' ++ q) with ((c' :: r') ++ q). apply IHm; [exact H|lia]. }
    destruct (Ascii.eqb c "[") eqn:E3.
    { destruct (skip_ws t) as [|c' r'] eqn:E; [discriminate|]. rewrite (skip_ws_mono _ _ _ q E). destruct (Ascii.eqb c' "]"); [inversion H; reflexivity|]. change (c' :: r' ++ q) with ((c' :: r') ++ q). apply IHe; [exact H|lia]. }
    assert (HE : exists c' u, r = c' :: u /\ ends c').
    { destruct Hcl as [(c' & u & E & [->|[->| ->]])|HE]; [| | |exact HE]; inversion E; subst; discriminate. }
    destruct HE as (ce & u & -> & HE).
    destruct (scan_literal (firstn 3 literals) (c :: t)) as [[v' r']|] eqn:L1.
    { inversion H. subst. apply scan_literal_inv in L1. destruct L1 as (w & Hw & Et). change (c :: t ++ q) with ((c :: t) ++ q). rewrite Et, <- app_assoc.
      destruct Hw as [E|[E|[E|[]]]]; inversion E; subst; reflexivity. }
    destruct (scan_number (c :: t)) as [[w r']|] eqn:N.
    { inversion H. subst. change (c :: t ++ q) with ((c :: t) ++ q). rewrite (scan_number_mono _ _ _ _ q HE N).
      replace (scan_literal (firstn 3 literals) ((c :: t) ++ q)) with (@None (json * text)); [reflexivity|]. symmetry.
      destruct (scan_literal (firstn 3 literals) ((c :: t) ++ q)) as [[v' r'']|] eqn:L2; [|reflexivity]. exfalso. apply scan_literal_inv in L2. destruct L2 as (w' & Hw & Et).
      destruct Hw as [E|[E|[E|[]]]]; inversion E; subst; cbn [chars list_ascii_of_string app] in Et; inversion Et; subst c; cbn in N; discriminate. }
    destruct (scan_literal (skipn 3 literals) (c :: t)) as [[v' r']|] eqn:L3; [|discriminate]. inversion H. subst. apply scan_literal_inv in L3. destruct L3 as (w & Hw & Et). change (c :: t ++ q) with ((c :: t) ++ q). rewrite Et, <- app_assoc.
    destruct Hw as [E|[E|[E|[]]]]; inversion E; subst; reflexivity.
  - intros acc t v r H [|f'] q Hf; [lia|]. cbn [parse_members] in *. destruct t as [|c t]; [discriminate|]. cbn [app]. destruct (Ascii.eqb c quote); [|discriminate]. cbv iota in *.
    apply bind_inv in H. destruct H as ([s u] & Hs & H). rewrite (scan_string_mono (length t) t (le_n _) _ _ _ q Hs). cbn [bind fst snd] in *.
    destruct (skip_ws u) as [|c2 r2] eqn:E; [discriminate|]. rewrite (skip_ws_mono _ _ _ q E). destruct (Ascii.eqb c2 ":"); [|discriminate]. cbv iota in *.
    apply bind_inv in H. destruct H as ([v' u'] & Hv & H). cbn [fst snd] in H. destruct (skip_ws u') as [|c3 r3] eqn:E3; [discriminate|].
    assert (HE : ends c3) by (destruct (Ascii.eqb_spec c3 "}") as [->|]; [exact Eb|]; destruct (Ascii.eqb_spec c3 ",") as [->|]; [exact Ec|discriminate]).
    assert (Hw : parse_value f' (skip_ws (r2 ++ q)) = Ok (v', u' ++ q)).
    { destruct (skip_ws r2) as [|x y] eqn:Er; [destruct f; discriminate|]. rewrite (skip_ws_mono _ _ _ q Er). change (x :: y ++ q) with ((x :: y) ++ q). apply IHv; [exact Hv| |lia]. right. destruct (skip_ends _ _ _ E3 HE) as (c' & w & -> & Hc'). exists c', w. auto. }
    rewrite Hw. cbn [bind fst snd]. rewrite (skip_ws_mono _ _ _ q E3). destruct (Ascii.eqb c3 "}"); [inversion H; reflexivity|]. destruct (Ascii.eqb c3 ","); [|discriminate].
    destruct (skip_ws r3) as [|x y] eqn:Er; [destruct f; discriminate|]. rewrite (skip_ws_mono _ _ _ q Er). change (x :: y ++ q) with ((x :: y) ++ q). apply IHm; [exact H|lia].
  - intros acc t v r H [|f'] q Hf; [lia|]. cbn [parse_elements] in *. apply bind_inv in H. destruct H as ([v' u'] & Hv & H). cbn [fst snd] in H. destruct (skip_ws u') as [|c3 r3] eqn:E3; [discriminate|].
    assert (HE : ends c3) by (destruct (Ascii.eqb_spec c3 "]") as [->|]; [exact Ek|]; destruct (Ascii.eqb_spec c3 ",") as [->|]; [exact Ec|discriminate]).
    rewrite (IHv _ _ _ Hv) with (f' := f') (q := q); [|right; destruct (skip_ends _ _ _ E3 HE) as (c' & w & -> & Hc'); exists c', w; auto|lia].
    cbn [bind fst snd]. rewrite (skip_ws_mono _ _ _ q E3). destruct (Ascii.eqb c3 "]"); [inversion H; reflexivity|]. destruct (Ascii.eqb c3 ","); [|discriminate].
    destruct (skip_ws r3) as [|x y] eqn:Er; [destruct f as [|[|f]]; discriminate|]. rewrite (skip_ws_mono _ _ _ q Er). change (x :: y ++ q) with ((x :: y) ++ q). apply IHe; [exact H|lia].
Qed.
Lemma json_cut p q v : (exists u, p ++ q = "["%char :: u) -> json_load (p ++ q) = Ok v -> q <> [] -> is_ws (last q " "%char) = false -> exists e, json_load p = Err e.
Proof.
  intros [u Hu] HL Hq Hl. destruct (json_load p) as [v'|e] eqn:HP; [|exists e; reflexivity]. exfalso.
  unfold json_load in *. destruct p as [|c p]; [discriminate|]. cbn [app] in Hu. assert (c = "["%char) by congruence. subst c. clear Hu u.
  apply bind_inv in HP. destruct HP as ([w r] & H1 & H2). cbn [fst snd] in H2. destruct (skip_ws r) eqn:Er; [|discriminate].
  apply bind_inv in HL. destruct HL as ([w' r'] & H3 & H4). cbn [fst snd] in H4. destruct (skip_ws r') eqn:Er'; [|discriminate].
  change (skip_ws (("["%char :: p) ++ q)) with (("["%char :: p) ++ q) in H3. change (skip_ws ("["%char :: p)) with ("["%char :: p) in H1.
  destruct (json_mono (S (2 * length ("["%char :: p)))) as (M & _ & _).
  rewrite (M _ _ _ H1) in H3; [|left; exists "["%char, p; auto|rewrite app_length; lia]. inversion H3. subst.
  assert (In (last q " "%char) (r ++ q)). { apply in_app_iff. right. destruct (exists_last Hq) as (q' & x & ->). rewrite last_last. apply in_app_iff. right. left. reflexivity. }
  rewrite (skip_ws_nil _ _ Er' H) in Hl. discriminate.
Qed.

(** ** XML *)
Lemma scan_attr_mono q0 t : forall ent acc s r q, scan_attr q0 ent acc t = Ok (s, r) -> scan_attr q0 ent acc (t ++ q) = Ok (s, r ++ q).
Proof.
  induction t as [|c t IH]; intros ent acc s r q H; cbn [scan_attr app] in *; [discriminate|]. destruct ent as [e|].
  - destruct (Ascii.eqb c ";"); [|apply IH; exact H]. apply bind_inv in H. destruct H as (x & Hx & H). rewrite Hx. cbn [bind]. apply IH. exact H.
  - destruct (Ascii.eqb c q0); [inversion H; reflexivity|]. destruct (Ascii.eqb c "<"); [discriminate|]. destruct (Ascii.eqb c "&"); [apply IH; exact H|]. destruct (is_ws c); apply IH; exact H.
Qed.
Lemma span_name_mono t n c r q : span_name t = (n, c :: r) -> span_name (t ++ q) = (n, c :: r ++ q).
Proof.
  revert n. induction t as [|x t IH]; intros n H; cbn [span_name app] in *; [discriminate|]. destruct (name_char x).
  - destruct (span_name t) as [d u] eqn:E. cbn [fst snd] in H. inversion H. subst. rewrite (IH d eq_refl). reflexivity.
  - inversion H. subst. reflexivity.
Qed.
Lemma xml_name_mono t n c r q : xml_name t = Ok (n, c :: r) -> xml_name (t ++ q) = Ok (n, c :: r ++ q).
Proof.
  unfold xml_name. destruct (span_name t) as [m u] eqn:E. cbn [fst snd]. destruct m as [|x m]; [discriminate|]. intros H. inversion H. subst. rewrite (span_name_mono _ _ _ _ q E). reflexivity.
Qed.
Lemma skip_ws_length t : length (skip_ws t) <= length t.
Proof. induction t as [|x t IH]; cbn [skip_ws]; [lia|]. destruct (is_ws x); cbn [length] in *; lia. Qed.
Lemma parse_attrs_mono f : forall acc t a b r, parse_attrs f acc t = Ok (a, b, r) -> forall f' q, f <= f' -> parse_attrs f' acc (t ++ q) = Ok (a, b, r ++ q).
Proof.
  induction f as [|f IH]; intros acc t a b r H [|f'] q Hf; try discriminate; try lia. cbn [parse_attrs] in *.
  destruct (skip_ws t) as [|c u] eqn:E; [discriminate|]. rewrite (skip_ws_mono _ _ _ q E). destruct (Ascii.eqb c ">"); [inversion H; reflexivity|]. destruct (Ascii.eqb c "/").
  { destruct u as [|c' u]; [discriminate|]. cbn [app]. destruct (Ascii.eqb c' ">"); [|discriminate]. cbv iota in *. inversion H. reflexivity. }
  replace (Nat.eqb (length (c :: u ++ q)) (length (t ++ q))) with (Nat.eqb (length (c :: u)) (length t)).
  2: { change (c :: u ++ q) with ((c :: u) ++ q). rewrite !app_length. destruct (Nat.eqb_spec (length (c :: u)) (length t)), (Nat.eqb_spec (length (c :: u) + length q) (length t + length q)); congruence || lia. }
  destruct (Nat.eqb (length (c :: u)) (length t)); [discriminate|]. cbn [negb] in *. cbv iota in *.
  apply bind_inv in H. destruct H as ([n w] & Hn & H). cbn [fst snd] in H. destruct (skip_ws w) as [|e r1] eqn:Ew; [discriminate|].
  assert (Hw : w <> []) by (intros ->; discriminate). destruct w as [|w0 w]; [contradiction|].
  change (c :: u ++ q) with ((c :: u) ++ q). rewrite (xml_name_mono _ _ _ _ q Hn). cbn [bind fst snd]. change (w0 :: w ++ q) with ((w0 :: w) ++ q). rewrite (skip_ws_mono _ _ _ q Ew).
  destruct (Ascii.eqb e "="); [|discriminate]. cbv iota in *. destruct (skip_ws r1) as [|q0 r2] eqn:E2; [discriminate|]. rewrite (skip_ws_mono _ _ _ q E2).
  destruct (Ascii.eqb q0 quote || Ascii.eqb q0 "'"); [|discriminate]. cbv iota in *. apply bind_inv in H. destruct H as ([s z] & Hs & H). rewrite (scan_attr_mono _ _ _ _ _ _ q Hs). cbn [bind fst snd] in *.
  destruct (existsb (text_eqb n) (map fst acc)); [discriminate|]. cbn [negb] in *. cbv iota in *. apply IH; [exact H|lia].
Qed.
Lemma to_tag_mono t c r q : to_tag t = c :: r -> to_tag (t ++ q) = c :: r ++ q.
Proof. induction t as [|x t IH]; cbn [to_tag app]; intros H; [discriminate|]. destruct (Ascii.eqb x "<"); [inversion H; reflexivity|apply IH; exact H]. Qed.
Lemma strip_mono p t u q : strip_prefix p t = Some u -> strip_prefix p (t ++ q) = Some (u ++ q).
Proof. revert t. induction p as [|a p IH]; intros [|x t] H; cbn [strip_prefix app] in *; try discriminate; try (inversion H; reflexivity). destruct (Ascii.eqb a x); [apply IH; exact H|discriminate]. Qed.
Lemma xml_mono f :
  (forall t v r, parse_element f t = Ok (v, r) -> forall f' q, f <= f' -> parse_element f' (t ++ q) = Ok (v, r ++ q)) /\
  (forall tag acc t v r, parse_content f tag acc t = Ok (v, r) -> forall f' q, f <= f' -> parse_content f' tag acc (t ++ q) = Ok (v, r ++ q)).
Proof.
  induction f as [|f (IHe & IHc)]; [split; intros; discriminate|]. split.
  - intros t v r H [|f'] q Hf; [lia|]. cbn [parse_element] in *. destruct t as [|c t]; [discriminate|]. cbn [app]. destruct (Ascii.eqb c "!" || Ascii.eqb c "?"); [discriminate|].
    apply bind_inv in H. destruct H as ([n w] & Hn & H). apply bind_inv in H. destruct H as ([[a b] u] & Ha & H). cbn [fst snd] in *.
    assert (Hw : w <> []) by (intros ->; discriminate). destruct w as [|w0 w]; [contradiction|].
    change (c :: t ++ q) with ((c :: t) ++ q). rewrite (xml_name_mono _ _ _ _ q Hn). cbn [bind fst snd]. change (w0 :: w ++ q) with ((w0 :: w) ++ q).
    rewrite (parse_attrs_mono _ _ _ _ _ _ Ha); [|rewrite app_length; lia]. cbn [bind fst snd]. destruct b; [inversion H; reflexivity|].
    apply bind_inv in H. destruct H as ([cs z] & Hc & H). rewrite (IHc _ _ _ _ _ Hc) by lia. cbn [bind fst snd] in *. inversion H. reflexivity.
  - intros tag acc t v r H [|f'] q Hf; [lia|]. cbn [parse_content] in *. destruct (to_tag t) as [|b [|c u]] eqn:E; try discriminate. rewrite (to_tag_mono _ _ _ q E). cbn [app].
    destruct (Ascii.eqb c "/").
    + destruct (strip_prefix tag u) as [r'|] eqn:Es; [|discriminate]. rewrite (strip_mono _ _ _ q Es). destruct (skip_ws r') as [|g r''] eqn:Er; [discriminate|]. rewrite (skip_ws_mono _ _ _ q Er). destruct (Ascii.eqb g ">"); [|discriminate]. cbv iota in *. inversion H. reflexivity.
    + apply bind_inv in H. destruct H as ([x z] & Hx & H). change (c :: u ++ q) with ((c :: u) ++ q). rewrite (IHe _ _ _ Hx) by lia. cbn [bind fst snd] in *. apply IHc; [exact H|lia].
Qed.
Lemma strip_inv p t u : strip_prefix p t = Some u -> t = p ++ u.
Proof. revert t. induction p as [|a p IH]; intros [|x t0] H; cbn in H; try discriminate; try (inversion H; reflexivity). destruct (Ascii.eqb_spec a x) as [->|]; [|discriminate]. cbn. f_equal. apply IH. exact H. Qed.
(** the written documents *)
Lemma xml_cut root body p q v : known root -> ~ In cr (xml_head ++ "<"%char :: root ++ ">"%char :: body) -> p ++ q = xml_head ++ "<"%char :: root ++ ">"%char :: body ->
  xml_load (p ++ q) = Ok v -> q <> [] -> is_ws (last q " "%char) = false -> exists e, xml_load p = Err e.
Proof.
  intros HR Hcr Epq HL Hq Hl. destruct (xml_load p) as [v'|e] eqn:HP; [|exists e; reflexivity]. exfalso.
  assert (Hin : In (last q " "%char) q). { destruct (exists_last Hq) as (q' & x & ->). rewrite last_last. apply in_app_iff. right. left. reflexivity. }
  assert (U1 : universal p = p) by (apply universal_id; intros C; apply Hcr; rewrite <- Epq; apply in_app_iff; left; exact C).
  assert (U2 : universal (p ++ q) = p ++ q) by (apply universal_id; rewrite Epq; exact Hcr).
  unfold xml_load in HL, HP. rewrite U1 in HP. rewrite U2 in HL.
  destruct (forallb xml_char p); [|discriminate]. destruct (forallb xml_char (p ++ q)); [|discriminate]. cbv iota in HL, HP.
  (* the head is complete *)
  destruct (Nat.leb_spec (length xml_head) (length p)) as [Hlen|Hlen].
  2: { assert (Ep : p = firstn (length p) xml_head). { apply (f_equal (firstn (length p))) in Epq. rewrite firstn_app, Nat.sub_diag, firstn_all, app_nil_r in Epq. rewrite firstn_app in Epq. replace (length p - length xml_head) with 0 in Epq by lia. rewrite app_nil_r in Epq. exact Epq. }
    assert (A : forall k, k < length xml_head -> (match (match strip_prefix (chars "<?xml") (firstn k xml_head) with Some r => M_Xml.after (chars "?>") r | None => Some (firstn k xml_head) end) with
       | None => true | Some t1 => match skip_ws t1 with c :: r => match r with c' :: _ => Ascii.eqb c' "?" | [] => true end | [] => true end end) = true).
    { intros k Hk. assert (Q : forallb (fun k => match (match strip_prefix (chars "<?xml") (firstn k xml_head) with Some r => M_Xml.after (chars "?>") r | None => Some (firstn k xml_head) end) with
       | None => true | Some t1 => match skip_ws t1 with c :: r => match r with c' :: _ => Ascii.eqb c' "?" | [] => true end | [] => true end end) (seq 0 (length xml_head)) = true) by (vm_compute; reflexivity).
      rewrite forallb_forall in Q. apply Q. apply in_seq. lia. }
    specialize (A _ Hlen). rewrite <- Ep in A.
    assert (G : forall t1, match skip_ws t1 with c :: r => match r with c' :: _ => Ascii.eqb c' "?" | [] => true end | [] => true end = true ->
      match skip_ws t1 with [] => Err ValueErr | c :: r => guard Ascii.eqb c "<" else ValueErr ;; er <- parse_element (S (2 * length p)) r ;; match skip_ws (snd er) with [] => Ok (fst er) | _ => Err ValueErr end end <> Ok v').
    { intros t1 G. destruct (skip_ws t1) as [|c r]; [discriminate|]. destruct (Ascii.eqb c "<"); [|discriminate]. cbv iota. destruct r as [|c' r]; [discriminate|]. apply Ascii.eqb_eq in G. subst c'. discriminate. }
    destruct (strip_prefix (chars "<?xml") p) as [r|]; [destruct (M_Xml.after (chars "?>") r) as [t1|]; [|discriminate]|]; exact (G _ A HP). }
  assert (Ep : exists p', p = xml_head ++ p' /\ p' ++ q = "<"%char :: root ++ ">"%char :: body).
  { exists (skipn (length xml_head) p). assert (E1 : firstn (length xml_head) p = xml_head).
    { pose proof (f_equal (firstn (length xml_head)) Epq) as E. rewrite firstn_app in E. replace (length xml_head - length p) with 0 in E by lia. rewrite app_nil_r in E. rewrite firstn_app, firstn_all, Nat.sub_diag, app_nil_r in E. exact E. }
    split; [rewrite <- E1 at 1; rewrite firstn_skipn; reflexivity|]. rewrite <- (firstn_skipn (length xml_head) p), E1, <- app_assoc in Epq. apply app_inv_head in Epq. exact Epq. }
  destruct Ep as (p' & -> & Ep'). rewrite <- app_assoc in HL. rewrite head_strip, head_after in HP, HL.
  change (skip_ws (lf :: p')) with (skip_ws p') in HP. change (skip_ws (lf :: p' ++ q)) with (skip_ws (p' ++ q)) in HL. rewrite Ep' in HL.
  destruct p' as [|c p']; [discriminate|]. cbn [app] in Ep'. inversion Ep' as [[Hc Ebody]]. subst c. change (skip_ws ("<"%char :: p')) with ("<"%char :: p') in HP. cbn [Ascii.eqb] in HP.
  change (skip_ws ("<"%char :: root ++ ">"%char :: body)) with ("<"%char :: root ++ ">"%char :: body) in HL. rewrite <- Ebody in HL.
  change (Ascii.eqb "<" "<") with true in HP, HL. cbv iota in HP, HL.
  apply bind_inv in HP. destruct HP as ([w r] & H1 & H2). cbn [fst snd] in H2. destruct (skip_ws r) eqn:Er; [|discriminate].
  apply bind_inv in HL. destruct HL as ([w' r'] & H3 & H4). cbn [fst snd] in H4. destruct (skip_ws r') eqn:Er'; [|discriminate].
  destruct (xml_mono (S (2 * length (xml_head ++ "<"%char :: p')))) as (M & _).
  rewrite (M _ _ _ H1) in H3; [|rewrite !app_length; cbn [length]; rewrite app_length; lia]. inversion H3. subst.
  assert (In (last q " "%char) (r ++ q)) by (apply in_app_iff; right; exact Hin).
  rewrite (skip_ws_nil _ _ Er' H) in Hl. discriminate.
Qed.
