(** L_Json: reading JSON files back. *)
From Verif Require Import S_Io L_Io1 L_Io3 M_Json.
Open Scope nat_scope.
Open Scope res_scope.

Lemma scan_char c acc r : scan_string acc (json_char c ++ r) = scan_string (c :: acc) r.
Proof. destruct c as [[] [] [] [] [] [] [] []]; reflexivity. Qed.
Lemma scan_all t : forall acc r, scan_string acc (flat_map json_char t ++ quote :: r) = Ok (rev acc ++ t, r).
Proof.
  induction t as [|c t IH]; intros acc r; [cbn; rewrite app_nil_r; reflexivity|]. cbn [flat_map]. rewrite <- app_assoc, scan_char, IH. cbn [rev]. rewrite <- app_assoc. reflexivity.
Qed.
Lemma scan_json t r : scan_string [] (flat_map json_char t ++ quote :: r) = Ok (t, r).
Proof. apply scan_all. Qed.

Definition stops (r : text) : Prop := match r with [] => True | c :: _ => is_digit c = false /\ c <> "."%char /\ c <> "e"%char /\ c <> "E"%char end.
Lemma digit_in c : In c (chars "0123456789") -> is_digit c = true.
Proof. cbn. intros H. repeat (destruct H as [<-|H]; [reflexivity|]). destruct H. Qed.
Lemma digit_in1 c : In c (chars "123456789") -> is_digit c = true /\ Ascii.eqb c "0" = false /\ Ascii.eqb c "-" = false.
Proof. cbn. intros H. repeat (destruct H as [<-|H]; [repeat split; reflexivity|]). destruct H. Qed.
Lemma span_ok ds r : digits ds -> (match r with [] => True | c :: _ => is_digit c = false end) -> span_digits (ds ++ r) = (ds, r).
Proof.
  intros HD HR. induction ds as [|c ds IH].
  - destruct r as [|c r]; [reflexivity|]. cbn. rewrite HR. reflexivity.
  - cbn [app span_digits]. rewrite (digit_in c) by (apply HD; left; reflexivity). rewrite IH by (intros x Hx; apply HD; right; exact Hx). reflexivity.
Qed.
Lemma stops_digit r : stops r -> match r with [] => True | c :: _ => is_digit c = false end.
Proof. destruct r; cbn; tauto. Qed.
Lemma num_exp_ok e r : stops r -> (e = [] \/ exists s ds, e = "e"%char :: s ++ ds /\ (s = [] \/ s = ["-"%char] \/ s = ["+"%char]) /\ ds <> [] /\ digits ds) -> num_exp (e ++ r) = (e, r).
Proof.
  intros HR [->|(s & ds & -> & Hs & Hne & HD)].
  - destruct r as [|c r]; [reflexivity|]. cbn in HR. destruct HR as (H1 & H2 & H3 & H4). cbn [app num_exp]. destruct (Ascii.eqb_spec c "e"); [contradiction|]. destruct (Ascii.eqb_spec c "E"); [contradiction|]. reflexivity.
  - assert (E : span_digits (ds ++ r) = (ds, r)) by (apply span_ok; [exact HD|apply stops_digit; exact HR]). cbn [app num_exp]. rewrite <- app_assoc. change (Ascii.eqb "e" "e" || Ascii.eqb "e" "E") with true. cbv iota.
    destruct Hs as [->|[->| ->]]; cbn [app].
    + destruct ds as [|c0 ds0]; [contradiction|]. cbn [app]. assert (Hc : Ascii.eqb c0 "-" || Ascii.eqb c0 "+" = false) by (assert (Hin : In c0 (chars "0123456789")) by (apply HD; left; reflexivity); cbn in Hin; repeat (destruct Hin as [<-|Hin]; [reflexivity|]); destruct Hin).
      rewrite Hc. cbn [app] in E. rewrite E. reflexivity.
    + change (Ascii.eqb "-" "-" || Ascii.eqb "-" "+") with true. cbv iota. rewrite E. destruct ds; [contradiction|]. reflexivity.
    + change (Ascii.eqb "+" "-" || Ascii.eqb "+" "+") with true. cbv iota. rewrite E. destruct ds; [contradiction|]. reflexivity.
Qed.
Lemma num_frac_ok f r : (match r with [] => True | c :: _ => is_digit c = false /\ c <> "."%char end) -> (f = [] \/ exists ds, f = "."%char :: ds /\ ds <> [] /\ digits ds) -> num_frac (f ++ r) = (f, r).
Proof.
  intros HR [->|(ds & -> & Hne & HD)].
  - destruct r as [|c r]; [reflexivity|]. cbn [app num_frac]. destruct (Ascii.eqb_spec c "."); [tauto|]. reflexivity.
  - cbn [app num_frac]. change (Ascii.eqb "." ".") with true. cbv iota. rewrite span_ok; [|exact HD|destruct r; [exact I|apply HR]]. destruct ds; [contradiction|]. reflexivity.
Qed.
Lemma scan_number_ok w r : decimal w -> stops r -> scan_number (w ++ r) = Some (w, r).
Proof.
  intros (i & f & e & -> & Hi & Hf & He) HR. unfold scan_number. rewrite <- !app_assoc.
  assert (He' : match e ++ r with [] => True | c :: _ => is_digit c = false /\ c <> "."%char end).
  { destruct He as [->|(s & ds & -> & _)]; [cbn; destruct r; [exact I|]; cbn in HR; tauto|]. cbn. split; [reflexivity|discriminate]. }
  assert (Hf' : match f ++ e ++ r with [] => True | c :: _ => is_digit c = false end).
  { destruct Hf as [->|(ds & -> & _)]; [cbn; destruct (e ++ r); [exact I|apply He']|]. reflexivity. }
  assert (E : num_int (i ++ f ++ e ++ r) = Some (i, f ++ e ++ r)).
  { destruct Hi as [->|(c & ds & -> & Hc & HD)]; [reflexivity|]. apply digit_in1 in Hc. destruct Hc as (H1 & H2 & H3). unfold num_int. cbn [app]. rewrite H3, H2, H1. rewrite span_ok by assumption. reflexivity. }
  rewrite E. rewrite num_frac_ok by assumption. rewrite num_exp_ok by assumption. reflexivity.
Qed.
Lemma decimal_first w : decimal w -> exists c r, w = c :: r /\ is_digit c = true.
Proof.
  intros (i & f & e & -> & [->|(c & ds & -> & Hc & _)] & _); eexists _, _; (split; [reflexivity|]); [reflexivity|]. apply digit_in1 in Hc. tauto.
Qed.
Lemma digit_not c : is_digit c = true -> is_ws c = false /\ Ascii.eqb c quote = false /\ Ascii.eqb c "{" = false /\ Ascii.eqb c "[" = false /\ forall r, scan_literal (firstn 3 literals) (c :: r) = None.
Proof. destruct c as [[] [] [] [] [] [] [] []]; try discriminate; intros _; repeat split; reflexivity. Qed.
Lemma parse_num f w r : decimal w -> stops r -> parse_value (S f) (w ++ r) = Ok (JNum w, r).
Proof.
  intros HD HR. pose proof (scan_number_ok w r HD HR) as E. destruct (decimal_first w HD) as (c & w' & -> & Hc). apply digit_not in Hc. destruct Hc as (H1 & H2 & H3 & H4 & H5).
  cbn [app] in *. cbn [parse_value]. rewrite H2, H3, H4. rewrite H5. rewrite E. reflexivity.
Qed.
Lemma parse_str f t r : parse_value (S f) (json_string t ++ r) = Ok (JStr t, r).
Proof. unfold json_string. cbn [app]. rewrite <- app_assoc. cbn [app parse_value]. change (Ascii.eqb quote quote) with true. cbv iota. rewrite scan_json. reflexivity. Qed.

(** simple members: a string or a number *)
Definition jtext (v : json) : option text := match v with JStr t => Some (json_string t) | JNum w => Some w | _ => None end.
Definition simple (mv : (text * text) * (text * json)) : Prop :=
  fst (fst mv) = fst (snd mv) /\ ((exists t, snd (snd mv) = JStr t /\ snd (fst mv) = json_string t) \/ (exists w, decimal w /\ snd (snd mv) = JNum w /\ snd (fst mv) = w)).
Lemma parse_simple f mv r : 0 < f -> simple mv -> stops r -> parse_value f (snd (fst mv) ++ r) = Ok (snd (snd mv), r).
Proof. intros H0. destruct f as [|f]; [lia|]. intros [_ [(t & -> & ->)|(w & HD & -> & ->)]] HR; [apply parse_str|apply parse_num; assumption]. Qed.
Lemma simple_first mv : simple mv -> exists c r, snd (fst mv) = c :: r /\ is_ws c = false.
Proof.
  intros [_ [(t & _ & ->)|(w & HD & _ & ->)]]; [eexists _, _; split; [reflexivity|reflexivity]|]. destruct (decimal_first w HD) as (c & r & -> & Hc). exists c, r. split; [reflexivity|]. apply digit_not in Hc. tauto.
Qed.
Lemma obj_set_absent l k v : ~ In k (map fst l) -> obj_set l k v = l ++ [(k, v)].
Proof.
  induction l as [|[k' v'] l IH]; intros H; [reflexivity|]. cbn in *. unfold text_eqb. destruct (list_eq_dec ascii_dec k' k) as [->|_]; [tauto|]. rewrite IH by tauto. reflexivity.
Qed.
Definition parsed (mvs : list ((text * text) * (text * json))) : list (text * json) := map snd mvs.
Lemma skip_ws_head c t : is_ws c = false -> skip_ws (c :: t) = c :: t.
Proof. intros H. cbn. rewrite H. reflexivity. Qed.
Lemma member_app m r : json_member m ++ r = quote :: flat_map json_char (fst m) ++ quote :: ":"%char :: " "%char :: snd m ++ r.
Proof. unfold json_member, json_string, colon_sp. cbn [app]. rewrite <- !app_assoc. reflexivity. Qed.
Lemma parse_members_ok mvs : mvs <> [] -> (forall mv, In mv mvs -> simple mv) -> forall f acc r, length mvs < f -> NoDup (map fst (acc ++ parsed mvs)) ->
  parse_members f acc (join2 comma_sp (map json_member (map fst mvs)) ++ "}"%char :: r) = Ok (JObj (acc ++ parsed mvs), r).
Proof.
  induction mvs as [|mv mvs IH]; intros Hne HS f acc r Hf HN; [contradiction|]. destruct f as [|f]; [lia|]. assert (Hf0 : 0 < f) by (cbn in Hf; lia).
  pose proof (HS mv (or_introl eq_refl)) as Hmv. destruct Hmv as [Hk Hv]. 
  assert (Hset : obj_set acc (fst (fst mv)) (snd (snd mv)) = acc ++ [snd mv]).
  { rewrite obj_set_absent; [rewrite Hk; destruct (snd mv); reflexivity|]. rewrite Hk. unfold parsed in HN. cbn [map] in HN. rewrite map_app in HN. cbn [map] in HN. apply NoDup_remove_2 in HN. intros C. apply HN. apply in_app_iff. left. exact C. }
  assert (Hacc : acc ++ parsed (mv :: mvs) = (acc ++ [snd mv]) ++ parsed mvs) by (rewrite <- app_assoc; reflexivity).
  destruct mvs as [|mv' mvs].
  - cbn [map join2]. rewrite member_app. cbn [parse_members]. change (Ascii.eqb quote quote) with true. cbv iota. rewrite scan_json. cbn [bind fst snd].
    rewrite skip_ws_head by reflexivity. change (Ascii.eqb ":" ":") with true. cbv iota. change (skip_ws (" "%char :: snd (fst mv) ++ "}"%char :: r)) with (skip_ws (snd (fst mv) ++ "}"%char :: r)).
    destruct (simple_first mv (conj Hk Hv)) as (c & w & E & Hc). rewrite E. cbn [app]. rewrite skip_ws_head by exact Hc. change (c :: w ++ "}"%char :: r) with ((c :: w) ++ "}"%char :: r). rewrite <- E.
    rewrite parse_simple; [|exact Hf0|exact (conj Hk Hv)|cbn; repeat split; discriminate]. cbn [bind fst snd]. rewrite skip_ws_head by reflexivity. cbn [Ascii.eqb Bool.eqb]. rewrite Hset. reflexivity.
  - cbn [map]. set (rest := join2 comma_sp (json_member (fst mv') :: map json_member (map fst mvs))). change (join2 comma_sp (json_member (fst mv) :: json_member (fst mv') :: map json_member (map fst mvs))) with (json_member (fst mv) ++ comma_sp ++ rest).
    rewrite <- app_assoc, member_app. unfold comma_sp at 1. cbn [app]. cbn [parse_members]. change (Ascii.eqb quote quote) with true. cbv iota. rewrite scan_json. cbn [bind fst snd].
    rewrite skip_ws_head by reflexivity. change (Ascii.eqb ":" ":") with true. cbv iota. set (tail := ","%char :: " "%char :: rest ++ "}"%char :: r). change (skip_ws (" "%char :: snd (fst mv) ++ tail)) with (skip_ws (snd (fst mv) ++ tail)).
    destruct (simple_first mv (conj Hk Hv)) as (c & w & E & Hc). rewrite E. cbn [app]. rewrite skip_ws_head by exact Hc. change (c :: w ++ tail) with ((c :: w) ++ tail). rewrite <- E.
    rewrite parse_simple; [|exact Hf0|exact (conj Hk Hv)|cbn; repeat split; discriminate]. cbn [bind fst snd]. unfold tail. rewrite skip_ws_head by reflexivity. cbn [Ascii.eqb Bool.eqb]. rewrite Hset.
    change (skip_ws (" "%char :: rest ++ "}"%char :: r)) with (skip_ws (rest ++ "}"%char :: r)).
    assert (Hq : exists t, rest ++ "}"%char :: r = quote :: t).
    { unfold rest. destruct mvs; cbn [map join2]; unfold json_member, json_string; cbn [app]; eexists; reflexivity. }
    destruct Hq as (t & Hq). rewrite Hq. rewrite skip_ws_head by reflexivity. rewrite <- Hq. rewrite Hacc. apply IH; [discriminate|intros x Hx; apply HS; right; exact Hx|cbn in *; lia|rewrite <- Hacc; exact HN].
Qed.
Lemma parse_object_ok mvs f r : mvs <> [] -> (forall mv, In mv mvs -> simple mv) -> S (length mvs) < f -> NoDup (map fst (parsed mvs)) ->
  parse_value f (json_object (map fst mvs) ++ r) = Ok (JObj (parsed mvs), r).
Proof.
  destruct f as [|f]; [lia|]. intros Hne HS Hf HN. unfold json_object. cbn [app]. rewrite <- app_assoc. cbn [app parse_value Ascii.eqb Bool.eqb].
  assert (Hq : exists t, join2 comma_sp (map json_member (map fst mvs)) ++ "}"%char :: r = quote :: t).
  { destruct mvs as [|mv [|mv' mvs]]; [contradiction| |]; cbn [map join2]; unfold json_member, json_string; cbn [app]; eexists; reflexivity. }
  destruct Hq as (t & Hq). rewrite Hq. rewrite skip_ws_head by reflexivity. change (Ascii.eqb quote "}") with false. cbv iota. rewrite <- Hq. apply (parse_members_ok mvs Hne HS f [] r ltac:(lia)). exact HN.
Qed.
(** arrays of objects *)
Definition good_obj (mvs : list ((text * text) * (text * json))) : Prop := mvs <> [] /\ (forall mv, In mv mvs -> simple mv) /\ NoDup (map fst (parsed mvs)).
Lemma parse_elements_ok objs : objs <> [] -> (forall o, In o objs -> good_obj o) -> forall f acc r, (forall o, In o objs -> length objs + length o + 1 < f) ->
  parse_elements f acc (join2 comma_sp (map (fun o => json_object (map fst o)) objs) ++ "]"%char :: r) = Ok (JArr (acc ++ map (fun o => JObj (parsed o)) objs), r).
Proof.
  induction objs as [|o objs IH]; intros Hne HG f acc r Hf; [contradiction|]. pose proof (Hf o (or_introl eq_refl)) as Hfo. destruct f as [|f]; [lia|]. cbn [length] in Hfo.
  destruct (HG o (or_introl eq_refl)) as (G1 & G2 & G3). cbn [parse_elements].
  destruct objs as [|o' objs].
  - cbn [map join2]. rewrite parse_object_ok; [|assumption|assumption|cbn in Hfo; lia|assumption]. cbn [bind fst snd]. rewrite skip_ws_head by reflexivity. cbn [Ascii.eqb Bool.eqb]. reflexivity.
  - cbn [map]. set (rest := join2 comma_sp (json_object (map fst o') :: map (fun o => json_object (map fst o)) objs)). change (join2 comma_sp (json_object (map fst o) :: json_object (map fst o') :: map (fun o => json_object (map fst o)) objs)) with (json_object (map fst o) ++ comma_sp ++ rest).
    rewrite <- !app_assoc. rewrite parse_object_ok; [|assumption|assumption|cbn in Hfo; lia|assumption]. cbn [bind fst snd]. unfold comma_sp. cbn [app]. rewrite skip_ws_head by reflexivity. cbn [Ascii.eqb Bool.eqb].
    change (skip_ws (" "%char :: rest ++ "]"%char :: r)) with (skip_ws (rest ++ "]"%char :: r)).
    assert (Hq : exists t, rest ++ "]"%char :: r = "{"%char :: t).
    { unfold rest. destruct objs; cbn [map join2]; unfold json_object; cbn [app]; eexists; reflexivity. }
    destruct Hq as (t & Hq). rewrite Hq. rewrite skip_ws_head by reflexivity. rewrite <- Hq.
    replace (acc ++ JObj (parsed o) :: JObj (parsed o') :: map (fun o0 => JObj (parsed o0)) objs) with ((acc ++ [JObj (parsed o)]) ++ map (fun o0 => JObj (parsed o0)) (o' :: objs)) by (rewrite <- app_assoc; reflexivity).
    apply IH; [discriminate|intros x Hx; apply HG; right; exact Hx|]. intros x Hx. pose proof (Hf x (or_intror Hx)) as H. cbn in *. lia.
Qed.
Lemma join2_length sep l x : In x l -> length x <= length (join2 sep l).
Proof.
  induction l as [|y l IH]; intros H; [destruct H|]. destruct l as [|z l].
  - destruct H as [->|[]]. cbn. lia.
  - change (join2 sep (y :: z :: l)) with (y ++ sep ++ join2 sep (z :: l)). rewrite !app_length. destruct H as [->|H]; [lia|]. apply IH in H. lia.
Qed.
Lemma join2_count l (k : nat) : (forall x, In x l -> 1 <= length x) -> length l <= length (join2 comma_sp l).
Proof.
  induction l as [|y l IH]; intros H; [cbn; lia|]. destruct l as [|z l].
  - cbn. pose proof (H y (or_introl eq_refl)). lia.
  - change (join2 comma_sp (y :: z :: l)) with (y ++ comma_sp ++ join2 comma_sp (z :: l)). rewrite !app_length. cbn [length comma_sp]. cbn [length] in IH. assert (S (length l) <= length (join2 comma_sp (z :: l))) by (apply IH; intros x Hx; apply H; right; exact Hx). lia.
Qed.
Lemma parse_array_ok objs : objs <> [] -> (forall o, In o objs -> good_obj o) -> 
  json_load (json_array (map (fun o => json_object (map fst o)) objs)) = Ok (JArr (map (fun o => JObj (parsed o)) objs)).
Proof.
  intros Hne HG. unfold json_load. set (t := json_array _). unfold t, json_array at 2. rewrite skip_ws_head by reflexivity. cbn [parse_value].  cbn [Ascii.eqb Bool.eqb].
  assert (Hq : exists u, join2 comma_sp (map (fun o => json_object (map fst o)) objs) ++ ["]"%char] = "{"%char :: u).
  { destruct objs as [|o [|o' objs]]; [contradiction| |]; cbn [map join2]; unfold json_object; cbn [app]; eexists; reflexivity. }
  destruct Hq as (u & Hq). rewrite Hq. rewrite skip_ws_head by reflexivity. cbn [Ascii.eqb Bool.eqb]. rewrite <- Hq. rewrite (parse_elements_ok objs Hne HG _ [] []).
  - reflexivity.
  - intros o Ho. unfold t, json_array. cbn [length]. rewrite app_length. cbn [length].
    assert (H1 : length objs <= length (join2 comma_sp (map (fun o => json_object (map fst o)) objs))).
    { rewrite <- (map_length (fun o => json_object (map fst o))) at 1. apply join2_count; [exact 0|]. intros x Hx. apply in_map_iff in Hx. destruct Hx as (z & <- & _). unfold json_object. cbn. lia. }
    assert (H2 : length (json_object (map fst o)) <= length (join2 comma_sp (map (fun o => json_object (map fst o)) objs))) by (apply join2_length; apply in_map_iff; exists o; auto).
    assert (H3 : length o <= length (json_object (map fst o))).
    { unfold json_object. cbn [length]. rewrite app_length. cbn [length]. assert (length (map json_member (map fst o)) <= length (join2 comma_sp (map json_member (map fst o)))).
      { apply join2_count; [exact 0|]. intros x Hx. apply in_map_iff in Hx. destruct Hx as (z & <- & _). unfold json_member, json_string. cbn. lia. } rewrite !map_length in H. lia. }
    lia.
Qed.

(** ** The files *)
Definition printable (t : text) : Prop := forall c, In c t -> 32 <= code c.
Lemma printable_app t u : printable t -> printable u -> printable (t ++ u).
Proof. intros H1 H2 c H. apply in_app_iff in H. destruct H; auto. Qed.
Lemma printable_cons c t : 32 <= code c -> printable t -> printable (c :: t).
Proof. intros H1 H2 x [<-|H]; auto. Qed.
Lemma printable_nil : printable [].
Proof. intros c []. Qed.
Lemma printable_join sep l : printable sep -> (forall x, In x l -> printable x) -> printable (join2 sep l).
Proof.
  intros HS. induction l as [|x l IH]; intros H; [apply printable_nil|]. destruct l as [|y l]; [apply H; left; reflexivity|].
  change (join2 sep (x :: y :: l)) with (x ++ sep ++ join2 sep (y :: l)). apply printable_app; [apply H; left; reflexivity|]. apply printable_app; [exact HS|]. apply IH. intros z Hz. apply H. right. exact Hz.
Qed.
Lemma printable_char c : printable (json_char c).
Proof.
  assert (H : forallb (fun x => Nat.leb 32 (code x)) (json_char c) = true) by (destruct c as [[] [] [] [] [] [] [] []]; vm_compute; reflexivity).
  intros x Hx. rewrite forallb_forall in H. apply Nat.leb_le. apply H. exact Hx.
Qed.
Lemma printable_string t : printable (json_string t).
Proof.
  unfold json_string. apply printable_cons; [cbn; lia|]. apply printable_app; [|apply printable_cons; [cbn; lia|apply printable_nil]]. intros c H. apply in_flat_map in H. destruct H as (x & _ & H). exact (printable_char x c H).
Qed.
Lemma printable_digits ds : digits ds -> printable ds.
Proof. intros H c Hc. apply H in Hc. cbn in Hc. repeat (destruct Hc as [<-|Hc]; [cbn; lia|]). destruct Hc. Qed.
Lemma printable_decimal w : decimal w -> printable w.
Proof.
  intros (i & f & e & -> & Hi & Hf & He). apply printable_app; [|apply printable_app].
  - destruct Hi as [->|(c & ds & -> & Hc & HD)]; [apply printable_digits; intros c [<-|[]]; cbn; tauto|]. apply printable_digits. intros x [<-|Hx]; [|apply HD; exact Hx]. cbn in *. tauto.
  - destruct Hf as [->|(ds & -> & _ & HD)]; [apply printable_nil|]. apply printable_cons; [cbn; lia|apply printable_digits; exact HD].
  - destruct He as [->|(s & ds & -> & Hs & _ & HD)]; [apply printable_nil|]. apply printable_cons; [cbn; lia|]. apply printable_app; [|apply printable_digits; exact HD]. destruct Hs as [->|[->| ->]]; [apply printable_nil| |]; (apply printable_cons; [cbn; lia|apply printable_nil]).
Qed.
Lemma printable_simple mvs : (forall mv, In mv mvs -> simple mv) -> printable (json_object (map fst mvs)).
Proof.
  intros H. unfold json_object. apply printable_cons; [cbn; lia|]. apply printable_app; [|apply printable_cons; [cbn; lia|apply printable_nil]]. apply printable_join.
  - apply printable_cons; [cbn; lia|]. apply printable_cons; [cbn; lia|apply printable_nil].
  - intros x Hx. apply in_map_iff in Hx. destruct Hx as (m & <- & Hm). apply in_map_iff in Hm. destruct Hm as (mv & <- & Hmv). unfold json_member. apply printable_app; [apply printable_string|]. apply printable_app; [apply printable_cons; [cbn; lia|apply printable_cons; [cbn; lia|apply printable_nil]]|].
    destruct (H mv Hmv) as [_ [(t & _ & ->)|(w & HD & _ & ->)]]; [apply printable_string|apply printable_decimal; exact HD].
Qed.
Section RT.
Variable show : num -> text.
Variable float : text -> option num.
Definition entry_mvs (ps : list (string * list string)) (e : key * num) : list ((text * text) * (text * json)) :=
  map (fun ps => ((chars (fst (fst ps)), json_string (chars (snd ps))), (chars (fst (fst ps)), JStr (chars (snd ps))))) (combine ps (fst e))
  ++ [((chars "probability", show (snd e)), (chars "probability", JNum (show (snd e))))].
Definition json_entry (ps : list (string * list string)) (e : key * num) : Prop :=
  length (fst e) = length ps /\ Forall2 (fun p s => s <> EmptyString /\ allowed p s = true) ps (fst e) /\ decimal (show (snd e)) /\ survives show float (snd e).
Definition json_params (ps : list (string * list string)) : Prop := NoDup (map (fun p => chars (fst p)) ps ++ [chars "probability"]).
Lemma params_mc_json : json_params params_mc.
Proof. unfold json_params, params_mc. cbn [map fst app]. repeat (constructor; [cbn; intuition discriminate|]). constructor. Qed.
Lemma params_hmm_json : json_params params_hmm.
Proof. unfold json_params, params_hmm. cbn [map fst app]. repeat (constructor; [cbn; intuition discriminate|]). constructor. Qed.
Lemma combine_fst {A B} (l : list A) (m : list B) : length m = length l -> map fst (combine l m) = l.
Proof. revert m; induction l as [|x l IH]; intros [|y m] H; try discriminate; [reflexivity|]. cbn. rewrite IH by (cbn in H; lia). reflexivity. Qed.
Lemma entry_keys ps e : length (fst e) = length ps -> map fst (parsed (entry_mvs ps e)) = map (fun p => chars (fst p)) ps ++ [chars "probability"].
Proof.
  intros H. unfold parsed, entry_mvs. rewrite !map_app, !map_map. cbn [map fst snd]. f_equal. rewrite <- (combine_fst ps (fst e) H) at 2. rewrite map_map. reflexivity.
Qed.
Lemma entry_good ps e : json_params ps -> json_entry ps e -> good_obj (entry_mvs ps e).
Proof.
  intros HP (HL & HF & HD & HS). split; [unfold entry_mvs; intros C; apply app_eq_nil in C; destruct C; discriminate|]. split.
  - intros mv Hmv. unfold entry_mvs in Hmv. apply in_app_iff in Hmv. destruct Hmv as [Hmv|[<-|[]]].
    + apply in_map_iff in Hmv. destruct Hmv as (x & <- & _). split; [reflexivity|]. left. eexists. split; reflexivity.
    + split; [reflexivity|]. right. eexists. split; [exact HD|]. split; reflexivity.
  - rewrite entry_keys by exact HL. exact HP.
Qed.
Lemma write_json_mvs ps d : (forall e, In e d -> length (fst e) = length ps) -> write_json show ps d = json_array (map (fun o => json_object (map fst o)) (map (entry_mvs ps) d)).
Proof.
  intros H. unfold write_json. f_equal. rewrite (map_map (entry_mvs ps)). apply map_ext_in. intros e He. f_equal. unfold entry_mvs. rewrite map_app, map_map. cbn [map fst]. f_equal. specialize (H e He). revert H. clear.
     destruct e as [k v]. cbn [fst]. unfold key in k. revert k. induction ps as [|p ps IH]; intros [|s k] HL; cbn in HL; try discriminate; [reflexivity|]. cbn [map combine fst snd]. f_equal. apply IH. lia.
Qed.
Lemma get_app_in (l m : list (text * json)) k v : get l k = Some v -> get (l ++ m) k = Some v.
Proof. induction l as [|[k' v'] l IH]; [discriminate|]. cbn. destruct (text_eqb k' k); auto. Qed.
Lemma text_eqb_eq a b : text_eqb a b = true <-> a = b.
Proof. unfold text_eqb. destruct (list_eq_dec ascii_dec a b); split; auto; discriminate. Qed.
Lemma get_nodup (l : list (text * json)) k v : NoDup (map fst l) -> In (k, v) l -> get l k = Some v.
Proof.
  induction l as [|[k' v'] l IH]; intros HN H; [destruct H|]. cbn in *. inversion HN as [|? ? H1 H2]; subst. destruct H as [H|H].
  - inversion H; subst. replace (text_eqb k k) with true by (symmetry; apply text_eqb_eq; reflexivity). reflexivity.
  - destruct (text_eqb k' k) eqn:E; [|auto]. apply text_eqb_eq in E. subst. exfalso. apply H1. apply in_map_iff. exists (k, v). auto.
Qed.
Lemma json_fields_ok obj ps k : Forall2 (fun p s => s <> EmptyString /\ allowed p s = true) ps k ->
  (forall p s, In (p, s) (combine ps k) -> get obj (chars (fst p)) = Some (JStr (chars s))) -> json_fields ps obj = Ok k.
Proof.
  intros HF. induction HF as [|p s ps k (Hne & Ha) HF IH]; intros H; [reflexivity|]. cbn [json_fields]. rewrite (H p s) by (left; reflexivity).
  destruct s as [|c s]; [contradiction|]. cbn [chars list_ascii_of_string length Nat.eqb negb]. change (c :: list_ascii_of_string s) with (chars (String c s)). rewrite str_chars, Ha. rewrite IH by (intros p' s' H'; apply H; right; exact H'). reflexivity.
Qed.
Lemma json_records_ok ps d : json_params ps -> (forall e, In e d -> json_entry ps e) -> forall d0, NoDup (map fst (d0 ++ d)) ->
  json_records float ps (map (fun o => JObj (parsed o)) (map (entry_mvs ps) d)) d0 = Ok (d0 ++ d).
Proof.
  intros HP. induction d as [|e d IH]; intros HE d0 HN; [rewrite app_nil_r; reflexivity|]. destruct (HE e (or_introl eq_refl)) as (HL & HF & HD & HS). cbn [map json_records].
  pose proof (entry_keys ps e HL) as EK. rewrite EK.
  assert (Hlen : length (parsed (entry_mvs ps e)) = length (map (fun p : string * list string => chars (fst p)) ps ++ [chars "probability"])) by (rewrite <- EK, map_length; reflexivity). rewrite Hlen, Nat.eqb_refl.
  set (wanted := map (fun p : string * list string => chars (fst p)) ps ++ [chars "probability"]) in *.
  replace (forallb (fun k => existsb (text_eqb k) wanted) wanted) with true by (symmetry; apply forallb_forall; intros x Hx; apply existsb_exists; exists x; split; [exact Hx|apply text_eqb_eq; reflexivity]). cbn [andb].
  assert (HN' : NoDup (map fst (parsed (entry_mvs ps e)))) by (rewrite EK; exact HP).
  rewrite (json_fields_ok _ ps (fst e) HF).
  2: { intros p s H. apply get_nodup; [exact HN'|]. unfold parsed, entry_mvs. rewrite map_app, map_map. apply in_app_iff. left. apply in_map_iff. exists (p, s). split; [reflexivity|exact H]. }
  cbn [bind]. rewrite (get_nodup _ (chars "probability") (JNum (show (snd e)))); [|exact HN'|unfold parsed, entry_mvs; rewrite map_app; apply in_app_iff; right; left; reflexivity].
  cbn [json_number]. rewrite HS. cbn [bind]. rewrite map_app in HN. cbn [map] in HN. rewrite dict_set_absent by (apply NoDup_remove_2 in HN; intros C; apply HN; apply in_app_iff; left; exact C).
  rewrite IH; [rewrite <- app_assoc; destruct e; reflexivity|intros x Hx; apply HE; right; exact Hx|]. rewrite <- app_assoc, map_app. destruct e. exact HN.
Qed.
Lemma json_read_back ps d : json_params ps -> d <> [] -> (forall e, In e d -> json_entry ps e) -> NoDup (map fst d) -> read_json float ps (write_json show ps d) = Ok d.
Proof.
  intros HP Hne HE HN. rewrite write_json_mvs by (intros e He; apply (HE e He)). unfold read_json. rewrite universal_id.
  - rewrite parse_array_ok; [|intros C; apply map_eq_nil in C; contradiction|intros o Ho; apply in_map_iff in Ho; destruct Ho as (e & <- & He); apply entry_good; auto]. cbn [bind]. apply (json_records_ok ps d HP HE []). exact HN.
  - assert (HPr : printable (json_array (map (fun o => json_object (map fst o)) (map (entry_mvs ps) d)))).
    { unfold json_array. apply printable_cons; [cbn; lia|]. apply printable_app; [|apply printable_cons; [cbn; lia|apply printable_nil]]. apply printable_join; [apply printable_cons; [cbn; lia|apply printable_cons; [cbn; lia|apply printable_nil]]|]. intros x Hx. rewrite map_map in Hx. apply in_map_iff in Hx. destruct Hx as (e & <- & He). apply printable_simple. apply (entry_good ps e HP (HE e He)). }
    intros C. apply HPr in C. cbn in C. lia.
Qed.
End RT.
