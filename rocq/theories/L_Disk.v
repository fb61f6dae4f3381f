(** L_Disk: extensions of file names, and files saved, refused or lost. *)
From Verif Require Import M_Disk S_Disk L_Gen1 L_Valid2 L_Io1 L_Io3 L_Io4 L_Json L_Xml L_Files L_Files2 L_Torn L_Torn2 L_Torn6.
Open Scope nat_scope.
Open Scope res_scope.

(** ** Extensions *)
Lemma split_none sep t : ~ In sep t -> forall acc, M_Disk.split sep acc t = [rev acc ++ t].
Proof.
  induction t as [|c t IH]; intros H acc; cbn [M_Disk.split]; [rewrite app_nil_r; reflexivity|]. destruct (Ascii.eqb_spec c sep) as [->|]; [exfalso; apply H; left; reflexivity|]. rewrite IH by (intros C; apply H; right; exact C). cbn [rev]. rewrite <- app_assoc. reflexivity.
Qed.
Lemma split_first sep a b : ~ In sep a -> forall acc, M_Disk.split sep acc (a ++ sep :: b) = (rev acc ++ a) :: M_Disk.split sep [] b.
Proof.
  induction a as [|c a IH]; intros H acc; cbn [M_Disk.split app]; [rewrite Ascii.eqb_refl, app_nil_r; reflexivity|]. destruct (Ascii.eqb_spec c sep) as [->|]; [exfalso; apply H; left; reflexivity|]. rewrite IH by (intros C; apply H; right; exact C). cbn [rev]. rewrite <- app_assoc. reflexivity.
Qed.
Lemma split_concat sep t : forall acc, concat (map (cons sep) (M_Disk.split sep acc t)) = sep :: rev acc ++ t.
Proof.
  induction t as [|c t IH]; intros acc; cbn [M_Disk.split]; [cbn; rewrite !app_nil_r; reflexivity|]. destruct (Ascii.eqb_spec c sep) as [->|].
  - cbn [map concat]. rewrite IH. reflexivity.
  - rewrite IH. cbn [rev]. rewrite <- app_assoc. reflexivity.
Qed.
Lemma first_dot (t : text) : ~ In dot t \/ exists a b, t = a ++ dot :: b /\ ~ In dot a.
Proof.
  induction t as [|c t IH]; [left; intros []|]. destruct (Ascii.eqb_spec c dot) as [->|Hc]; [right; exists [], t; split; [reflexivity|intros []]|]. destruct IH as [IH|(a & b & -> & Ha)].
  - left. intros [C|C]; [congruence|contradiction].
  - right. exists (c :: a), b. split; [reflexivity|]. intros [C|C]; [congruence|contradiction].
Qed.
Lemma lstrip_split t : exists dots, t = dots ++ lstrip_dots t /\ (forall c, In c dots -> c = dot) /\ (forall r, lstrip_dots t <> dot :: r).
Proof.
  induction t as [|c t IH]; [exists []; split; [reflexivity|]; split; [intros c []|discriminate]|]. cbn [lstrip_dots]. destruct (Ascii.eqb_spec c dot) as [->|Hc].
  - destruct IH as (dots & E & H1 & H2). exists (dot :: dots). split; [cbn [app]; rewrite <- E; reflexivity|]. split; [intros x [<-|Hx]; auto|exact H2].
  - exists []. split; [reflexivity|]. split; [intros x []|]. intros r E. congruence.
Qed.
Lemma lstrip_app dots r : (forall c, In c dots -> c = dot) -> (forall x, r <> dot :: x) -> lstrip_dots (dots ++ r) = r.
Proof.
  induction dots as [|c dots IH]; intros H Hr; cbn [app].
  - destruct r as [|c r]; [reflexivity|]. cbn [lstrip_dots]. destruct (Ascii.eqb_spec c dot) as [->|]; [exfalso; apply (Hr r); reflexivity|reflexivity].
  - cbn [lstrip_dots]. rewrite (H c (or_introl eq_refl)). change (Ascii.eqb dot dot) with true. cbv iota. apply IH; [|exact Hr]. intros x Hx. apply H. right. exact Hx.
Qed.
Lemma lower_dot c : lower_char c = dot <-> c = dot.
Proof. split; [|intros ->; reflexivity]. destruct c as [[] [] [] [] [] [] [] []]; vm_compute; intros H; first [discriminate|reflexivity]. Qed.
Lemma lower_no_dot t : ~ In dot (lower t) <-> ~ In dot t.
Proof.
  split; intros H C; apply H.
  - unfold lower. apply in_map_iff. exists dot. split; [reflexivity|exact C].
  - unfold lower in C. apply in_map_iff in C. destruct C as (c & E & C). apply (proj1 (lower_dot c)) in E. rewrite E in C. exact C.
Qed.
Lemma extension_no_dot f : ~ In dot (extension f).
Proof. destruct f; cbn; intuition discriminate. Qed.
Lemma extension_ne f : extension f <> [].
Proof. destruct f; discriminate. Qed.
Lemma format_ext name : format_of name = match find (fun e => text_eqb (fst e) (file_extension name)) formats with Some e => Ok (snd e) | None => Err ValueErr end.
Proof. reflexivity. Qed.
Lemma format_iff name f : format_of name = Ok f <-> file_extension name = dot :: extension f.
Proof.
  rewrite format_ext. unfold formats. cbn [find fst snd]. split.
  - destruct (text_eqb (chars ".csv") _) eqn:E1; [apply text_eqb_eq in E1; intros H; injection H as <-; rewrite <- E1; reflexivity|].
    destruct (text_eqb (chars ".json") _) eqn:E2; [apply text_eqb_eq in E2; intros H; injection H as <-; rewrite <- E2; reflexivity|].
    destruct (text_eqb (chars ".xml") _) eqn:E3; [apply text_eqb_eq in E3; intros H; injection H as <-; rewrite <- E3; reflexivity|].
    destruct (text_eqb (chars ".txt") _) eqn:E4; [apply text_eqb_eq in E4; intros H; injection H as <-; rewrite <- E4; reflexivity|]. discriminate.
  - intros ->. destruct f; reflexivity.
Qed.
Lemma format_err name e : format_of name = Err e -> e = ValueErr.
Proof. rewrite format_ext. destruct (find _ _); intros H; congruence. Qed.
Lemma extension_of dots a b : (forall c, In c dots -> c = dot) -> a <> [] -> ~ In dot a -> (forall x, b <> x ++ [dot]) -> b <> [] -> file_extension (dots ++ a ++ dot :: b) = lower (dot :: b).
Proof.
  intros Hd Ha Hda Hb Hne. unfold file_extension, suffixes. destruct (exists_last Hne) as (b' & z & Eb).
  assert (Hz : z <> dot) by (intros ->; apply (Hb b'); exact Eb).
  replace (rev (dots ++ a ++ dot :: b)) with (z :: rev (dots ++ a ++ dot :: b')). 2: { rewrite Eb. change (dot :: b' ++ [z]) with ((dot :: b') ++ [z]). rewrite !app_assoc, (rev_app_distr _ [z]). reflexivity. }
  destruct (Ascii.eqb_spec z dot) as [|_]; [contradiction|]. rewrite lstrip_app; [|exact Hd|]. 2: { intros x E. destruct a as [|c a]; [contradiction|]. cbn [app] in E. injection E as -> _. apply Hda. left. reflexivity. }
  rewrite split_first by exact Hda. cbn [tl]. rewrite split_concat. reflexivity.
Qed.
Lemma format_one_dot name f : format_of name = Ok f <-> one_dot name /\ has_extension name f.
Proof.
  rewrite format_iff. split.
  - intros H. destruct (lstrip_split name) as (dots & E & Hd & Hh). unfold file_extension, suffixes in H.
    destruct (match rev name with c :: _ => Ascii.eqb c dot | [] => false end); [discriminate|]. destruct (first_dot (lstrip_dots name)) as [C|(a & b & Er & Ha)].
    + rewrite (split_none dot (lstrip_dots name) C []) in H. discriminate.
    + rewrite Er in *. rewrite (split_first dot a b Ha []) in H. cbn [tl] in H. rewrite split_concat in H. cbn [rev app lower map] in H. injection H as H. fold (lower b) in H.
      assert (Hb : ~ In dot b) by (apply lower_no_dot; rewrite H; apply extension_no_dot).
      assert (Hane : a <> []) by (intros ->; apply (Hh b); reflexivity). split.
      * exists dots, a, b. repeat split; assumption.
      * exists (dots ++ a), b. split; [rewrite E, <- app_assoc; reflexivity|]. split; [exact H|]. destruct a as [|c a]; [contradiction|]. exists c. split; [apply in_app_iff; right; left; reflexivity|]. intros ->. apply Ha. left. reflexivity.
  - intros [(dots & a & b & E & Hd & Ha & Hda & Hb) (base & w & E2 & Hw & _)].
    assert (Hwd : ~ In dot w) by (apply lower_no_dot; rewrite Hw; apply extension_no_dot).
    assert (Ebw : b = w).
    { rewrite E in E2. rewrite app_assoc in E2. clear - E2 Hb Hwd. revert E2. generalize (dots ++ a). intros l E. revert base E. induction l as [|x l IH]; intros [|y base] E; cbn [app] in E.
      - injection E as E. exact E.
      - injection E as _ E. exfalso. apply Hb. rewrite E. apply in_app_iff. right. left. reflexivity.
      - injection E as _ E. exfalso. apply Hwd. rewrite <- E. apply in_app_iff. right. left. reflexivity.
      - injection E as _ E. apply (IH base). exact E. }
    subst w. rewrite E, extension_of; auto.
    + cbn [lower map]. fold (lower b). rewrite Hw. reflexivity.
    + intros x C. apply Hb. rewrite C. apply in_app_iff. right. left. reflexivity.
    + intros ->. cbn in Hw. symmetry in Hw. exact (extension_ne f Hw).
Qed.
Lemma extension_refused name f : has_extension name f -> ~ one_dot name -> format_of name = Err ValueErr.
Proof. intros _ H. destruct (format_of name) as [f'|e] eqn:E; [exfalso; apply H; apply (format_one_dot name f'); exact E|]. rewrite (format_err _ _ E). reflexivity. Qed.

(** ** The disk *)
Lemma path_eqb_eq p q : path_eqb p q = true <-> p = q.
Proof.
  unfold path_eqb. split.
  - intros H. apply andb_true_iff in H. destruct H as [H1 H2]. apply Bool.eqb_prop in H1. destruct p as [a l], q as [b m]. cbn [p_abs p_parts] in *. subst b. destruct (list_eq_dec (list_eq_dec ascii_dec) l m) as [->|]; [reflexivity|discriminate].
  - intros ->. rewrite Bool.eqb_reflx. destruct (list_eq_dec (list_eq_dec ascii_dec) _ _); [reflexivity|contradiction].
Qed.
Lemma contents_same fs p t : contents (store fs p t) p = Some t.
Proof.
  induction fs as [|[q u] fs IH]; cbn [store contents].
  - rewrite (proj2 (path_eqb_eq p p) eq_refl). reflexivity.
  - destruct (path_eqb q p) eqn:E; cbn [contents]; rewrite E; [reflexivity|exact IH].
Qed.
Lemma contents_other fs p q t : q <> p -> contents (store fs p t) q = contents fs q.
Proof.
  intros H. induction fs as [|[x u] fs IH]; cbn [store contents].
  - destruct (path_eqb p q) eqn:E; [apply path_eqb_eq in E; congruence|reflexivity].
  - destruct (path_eqb x p) eqn:E; cbn [contents].
    + apply path_eqb_eq in E. subst x. destruct (path_eqb p q) eqn:E2; [apply path_eqb_eq in E2; congruence|reflexivity].
    + destruct (path_eqb x q); [reflexivity|exact IH].
Qed.
Section Disk.
Variable sys : system.
(** what a call to to_file does, for either kind of model *)
Lemma save_text_cases p text_in es r : save_text sys p text_in = (es, r) ->
  (es = [] /\ r = Err ValueErr) \/
  exists f, format_of (p_name p) = Ok f /\ (is_dir sys (p_dir p) = true \/ p_abs p = false) /\ can_write sys p = true /\
    ((exists e, text_in f = Err e /\ es = [Truncate p] /\ r = Err e) \/
     exists t, text_in f = Ok t /\ ((forallb (can_encode sys) t = true /\ es = [Truncate p; Truncate p; Append p t] /\ r = Ok tt) \/ (forallb (can_encode sys) t = false /\ es = [Truncate p; Truncate p] /\ r = Err ValueErr))).
Proof.
  unfold save_text, check_write. destruct (format_of (p_name p)) as [f|e] eqn:EF.
  - destruct (negb (is_dir sys (p_dir p)) && p_abs p) eqn:ED; [intros H; injection H as <- <-; left; auto|]. destruct (can_write sys p) eqn:EW; [|intros H; injection H as <- <-; left; auto].
    intros H. right. exists f. split; [reflexivity|]. split; [apply andb_false_iff in ED; destruct ED as [ED|ED]; [left; apply negb_false_iff in ED; exact ED|right; exact ED]|]. split; [reflexivity|].
    destruct (text_in f) as [t|e] eqn:ET; [|left; exists e; injection H as <- <-; auto]. right. exists t. split; [reflexivity|]. unfold write_out in H. destruct (forallb (can_encode sys) t) eqn:EE; cbn [fst snd app] in H; injection H as <- <-; [left; auto|right; auto].
  - intros H. injection H as <- <-. left. rewrite (format_err _ _ EF). auto.
Qed.
Lemma truncate2 fs p : contents (apply (Truncate p) (apply (Truncate p) fs)) p = Some [].
Proof. cbn [apply]. apply contents_same. Qed.
Lemma done_contents fs p t : contents (perform [Truncate p; Truncate p; Append p t] fs) p = Some t.
Proof. unfold perform. cbn [fold_left apply]. rewrite !contents_same. reflexivity. Qed.
Definition target (e : effect) : path := match e with Truncate p => p | Append p _ => p end.
Lemma apply_other e fs q : q <> target e -> contents (apply e fs) q = contents fs q.
Proof. destruct e; cbn [apply target]; intros H; apply contents_other; exact H. Qed.
Lemma perform_other es fs q : (forall e, In e es -> q <> target e) -> contents (perform es fs) q = contents fs q.
Proof.
  revert fs. induction es as [|e es IH]; intros fs H; [reflexivity|]. unfold perform. cbn [fold_left]. fold (perform es (apply e fs)). rewrite IH by (intros x Hx; apply H; right; exact Hx). apply apply_other. apply H. left. reflexivity.
Qed.
Lemma crash_other fs es fs' q : crash fs es fs' -> (forall e, In e es -> q <> target e) -> contents fs' q = contents fs q.
Proof.
  induction 1 as [fs es|fs p t k es|fs e es fs' HC IH]; intros H; [reflexivity| |].
  - apply (apply_other (Append p (firstn k t))). apply (H (Append p t)). left. reflexivity.
  - rewrite IH by (intros x Hx; apply H; right; exact Hx). apply apply_other. apply H. left. reflexivity.
Qed.
Lemma crash_nil fs fs' : crash fs [] fs' -> fs' = fs.
Proof. intros H. inversion H. reflexivity. Qed.
Lemma crash_truncated fs p t fs' : crash fs [Append p t] fs' -> contents fs p = Some [] -> exists k, contents fs' p = Some (firstn k t).
Proof.
  intros H H0. inversion H as [x y E1 E2|x p0 t0 k es0 E1 E2 E3|x e es0 y HC E1 E2]; subst.
  - exists 0. cbn [firstn]. exact H0.
  - exists k. cbn [apply]. rewrite H0. cbn [app]. apply contents_same.
  - apply crash_nil in HC. subst. exists (length t). rewrite firstn_all. cbn [apply]. rewrite H0. cbn [app]. apply contents_same.
Qed.
Lemma crash_truncate fs p es fs' : crash fs (Truncate p :: es) fs' -> fs' = fs \/ crash (store fs p []) es fs'.
Proof. intros H. inversion H as [x y E1 E2|x p0 t0 k es0 E1 E2 E3|x e es0 y HC E1 E2]; subst; [left; reflexivity|right; exact HC]. Qed.
Lemma crash_cases p text_in es r fs fs' : save_text sys p text_in = (es, r) -> crash fs es fs' ->
  (forall q, q <> p -> contents fs' q = contents fs q) /\
  (contents fs' p = contents fs p \/ contents fs' p = Some [] \/ exists f t k, format_of (p_name p) = Ok f /\ text_in f = Ok t /\ contents fs' p = Some (firstn k t)).
Proof.
  intros H HC. destruct (save_text_cases p text_in es r H) as [[-> ->]|(f & EF & _ & _ & Hcase)].
  - apply crash_nil in HC. subst. auto.
  - split.
    + intros q Hq. apply (crash_other _ _ _ _ HC). intros e He. destruct Hcase as [(x & _ & -> & _)|(t & _ & [(_ & -> & _)|(_ & -> & _)])]; cbn in He; repeat (destruct He as [<-|He]; [exact Hq|]); destruct He.
    + destruct Hcase as [(x & _ & -> & _)|(t & Et & [(_ & -> & _)|(_ & -> & _)])]; apply crash_truncate in HC; (destruct HC as [->|HC]; [left; reflexivity|]).
      * apply crash_nil in HC. subst. right; left. apply contents_same.
      * apply crash_truncate in HC. destruct HC as [->|HC]; [right; left; apply contents_same|]. destruct (crash_truncated _ p t fs' HC) as (k & Hk); [apply contents_same|]. right; right. exists f, t, k. auto.
      * apply crash_truncate in HC. destruct HC as [->|HC]; [right; left; apply contents_same|]. apply crash_nil in HC. subst. right; left. apply contents_same.
Qed.
Lemma crash_empty p text_in es r fs : save_text sys p text_in = (es, r) -> es <> [] -> exists fs', crash fs es fs' /\ contents fs' p = Some [].
Proof.
  intros H Hne. destruct (save_text_cases p text_in es r H) as [[-> ->]|(f & _ & _ & _ & Hcase)]; [contradiction|]. exists (store fs p []). split; [|apply contents_same].
  destruct Hcase as [(x & _ & -> & _)|(t & _ & [(_ & -> & _)|(_ & -> & _)])]; apply crash_later; cbn [apply]; apply crash_now.
Qed.
End Disk.

Section Chain.
Variable show : num -> text.
Variable float : text -> option num.
Variable limit : nat.
Variable nul_ok : bool.
Variable sys : system.
Lemma refused_text p text_in : (forall f, format_of (p_name p) <> Ok f) \/ (p_abs p = true /\ is_dir sys (p_dir p) = false) \/ can_write sys p = false -> save_text sys p text_in = ([], Err ValueErr).
Proof.
  intros H. unfold save_text, check_write. destruct (format_of (p_name p)) as [f|e] eqn:EF; [|rewrite (format_err _ _ EF); reflexivity]. destruct H as [H|[[H1 H2]|H]].
  - exfalso. apply (H f). reflexivity.
  - rewrite H1, H2. reflexivity.
  - rewrite H. destruct (negb (is_dir sys (p_dir p)) && p_abs p); reflexivity.
Qed.
Lemma save_refused p c : (forall f, format_of (p_name p) <> Ok f) \/ (p_abs p = true /\ is_dir sys (p_dir p) = false) \/ can_write sys p = false -> save show sys p c = ([], Err ValueErr).
Proof. intros H. apply refused_text. exact H. Qed.
Lemma hmm_save_refused p o : (forall f, format_of (p_name p) <> Ok f) \/ (p_abs p = true /\ is_dir sys (p_dir p) = false) \/ can_write sys p = false -> hmm_save show sys p o = ([], Err ValueErr).
Proof. intros H. apply refused_text. exact H. Qed.
Lemma text_saved p f text_in t : format_of (p_name p) = Ok f -> p_abs p = false \/ is_dir sys (p_dir p) = true -> can_write sys p = true -> text_in f = Ok t -> (forall ch, can_encode sys ch = true) ->
  save_text sys p text_in = ([Truncate p; Truncate p; Append p t], Ok tt).
Proof.
  intros HF HD HW HT HE. unfold save_text, check_write. rewrite HF. replace (negb (is_dir sys (p_dir p)) && p_abs p) with false by (destruct HD as [->| ->]; [rewrite andb_false_r|]; reflexivity). rewrite HW, HT. unfold write_out. replace (forallb (can_encode sys) t) with true; [reflexivity|]. symmetry. apply forallb_forall. intros ch _. apply HE.
Qed.
Lemma done_cases p text_in es : save_text sys p text_in = (es, Ok tt) -> exists f t, format_of (p_name p) = Ok f /\ text_in f = Ok t /\ es = [Truncate p; Truncate p; Append p t].
Proof.
  intros H. destruct (save_text_cases sys p text_in es _ H) as [[_ C]|(f & EF & _ & _ & [(e & _ & _ & C)|(t & Et & [(_ & -> & _)|(_ & _ & C)])])]; [discriminate|discriminate| |discriminate]. exists f, t. auto.
Qed.
Lemma done_other p t fs q : q <> p -> contents (perform [Truncate p; Truncate p; Append p t] fs) q = contents fs q.
Proof. intros H. apply perform_other. intros e [<-|[<-|[<-|[]]]]; exact H. Qed.
Lemma load_contents fs p f t : format_of (p_name p) = Ok f -> contents fs p = Some t -> can_read sys p = true -> load float limit nul_ok sys fs p = from_file float limit nul_ok f t.
Proof. intros HF HC HR. unfold load, check_read. rewrite HF. cbn [bind]. rewrite HC, HR. reflexivity. Qed.
Lemma hmm_load_contents fs p f t : format_of (p_name p) = Ok f -> contents fs p = Some t -> can_read sys p = true -> hmm_load float limit nul_ok sys fs p = hmm_from_file float limit nul_ok f t.
Proof. intros HF HC HR. unfold hmm_load, check_read. rewrite HF. cbn [bind]. rewrite HC, HR. reflexivity. Qed.
Lemma empty_file f : from_file float limit nul_ok f [] = Err ValueErr.
Proof. destruct f; reflexivity. Qed.
Lemma hmm_empty_file f : hmm_from_file float limit nul_ok f [] = Err ValueErr.
Proof. destruct f; reflexivity. Qed.
Lemma chain_saves n p f c : writable_chain show float limit nul_ok n f c -> format_of (p_name p) = Ok f -> p_abs p = false \/ is_dir sys (p_dir p) = true -> can_write sys p = true -> (forall ch, can_encode sys ch = true) ->
  exists es, save show sys p c = (es, Ok tt).
Proof.
  intros (HA & HP & HS & HN) HF HD HW HE. destruct (file_round_trip show float limit nul_ok n c HA HP f HS HN) as (t & E1 & _). eexists. apply (text_saved p f _ t); assumption.
Qed.
Lemma chain_saved n p f c es fs : writable_chain show float limit nul_ok n f c -> format_of (p_name p) = Ok f -> save show sys p c = (es, Ok tt) -> can_read sys p = true ->
  load float limit nul_ok sys (perform es fs) p = Ok (as_object c) /\ forall q, q <> p -> contents (perform es fs) q = contents fs q.
Proof.
  intros (HA & HP & HS & HN) HF H HR. destruct (done_cases p _ es H) as (f' & t & EF & Et & ->). rewrite HF in EF. injection EF as <-. split; [|intros q; apply done_other].
  rewrite (load_contents _ p f t HF (done_contents fs p t) HR). destruct (file_round_trip show float limit nul_ok n c HA HP f HS HN) as (t' & E1 & E2). rewrite Et in E1. injection E1 as <-. exact E2.
Qed.
Lemma hmm_saves n k p f o : writable_hmm show float limit nul_ok n k f o -> format_of (p_name p) = Ok f -> p_abs p = false \/ is_dir sys (p_dir p) = true -> can_write sys p = true -> (forall ch, can_encode sys ch = true) ->
  exists es, hmm_save show sys p o = (es, Ok tt).
Proof.
  intros (HA & HP & HQ & HS & HN) HF HD HW HE. destruct (hmm_file_round_trip show float limit nul_ok n k o HA HP HQ f HS HN) as (t & E1 & _). eexists. apply (text_saved p f _ t); assumption.
Qed.
Lemma hmm_saved n k p f o es fs : writable_hmm show float limit nul_ok n k f o -> format_of (p_name p) = Ok f -> hmm_save show sys p o = (es, Ok tt) -> can_read sys p = true ->
  hmm_load float limit nul_ok sys (perform es fs) p = Ok (as_hmm_object o) /\ forall q, q <> p -> contents (perform es fs) q = contents fs q.
Proof.
  intros (HA & HP & HQ & HS & HN) HF H HR. destruct (done_cases p _ es H) as (f' & t & EF & Et & ->). rewrite HF in EF. injection EF as <-. split; [|intros q; apply done_other].
  rewrite (hmm_load_contents _ p f t HF (done_contents fs p t) HR). destruct (hmm_file_round_trip show float limit nul_ok n k o HA HP HQ f HS HN) as (t' & E1 & E2). rewrite Et in E1. injection E1 as <-. exact E2.
Qed.
Lemma firstn_cut j (t : text) : firstn j t = t \/ cut_short (firstn j t) t.
Proof.
  destruct (Nat.le_gt_cases (length t) j) as [H|H]; [left; apply firstn_all2; exact H|]. right. exists (skipn j t). split; [|symmetry; apply firstn_skipn]. intros E. apply (f_equal (@length ascii)) in E. rewrite skipn_length in E. cbn in E. lia.
Qed.
(** where a crash can leave the file *)
Lemma chain_crash n p f c es r fs fs' : writable_chain show float limit nul_ok n f c -> format_of (p_name p) = Ok f -> save show sys p c = (es, r) -> crash fs es fs' ->
  (forall q, q <> p -> contents fs' q = contents fs q) /\
  (contents fs' p = contents fs p \/ exists t t', to_file show f c = Ok t /\ contents fs' p = Some t' /\ (t' = t \/ cut_short t' t)).
Proof.
  intros (HA & HP & HS & HN) HF H HC. destruct (crash_cases sys p _ es r fs fs' H HC) as [H1 H2]. split; [exact H1|]. destruct (file_round_trip show float limit nul_ok n c HA HP f HS HN) as (t & E1 & E2). destruct H2 as [H2|[H2|(f' & t' & j & EF & Et & H2)]]; [left; exact H2| |].
  - right. exists t, []. split; [exact E1|]. split; [exact H2|]. destruct t as [|x t]; [left; reflexivity|]. right. exists (x :: t). split; [discriminate|reflexivity].
  - right. rewrite HF in EF. injection EF as <-. rewrite E1 in Et. injection Et as <-. exists t, (firstn j t). split; [exact E1|]. split; [exact H2|]. apply firstn_cut.
Qed.
Lemma hmm_crash n k p f o es r fs fs' : writable_hmm show float limit nul_ok n k f o -> format_of (p_name p) = Ok f -> hmm_save show sys p o = (es, r) -> crash fs es fs' ->
  (forall q, q <> p -> contents fs' q = contents fs q) /\
  (contents fs' p = contents fs p \/ exists t t', hmm_to_file show f o = Ok t /\ contents fs' p = Some t' /\ (t' = t \/ cut_short t' t)).
Proof.
  intros (HA & HP & HQ & HS & HN) HF H HC. destruct (crash_cases sys p _ es r fs fs' H HC) as [H1 H2]. split; [exact H1|]. destruct (hmm_file_round_trip show float limit nul_ok n k o HA HP HQ f HS HN) as (t & E1 & E2). destruct H2 as [H2|[H2|(f' & t' & j & EF & Et & H2)]]; [left; exact H2| |].
  - right. exists t, []. split; [exact E1|]. split; [exact H2|]. destruct t as [|x t]; [left; reflexivity|]. right. exists (x :: t). split; [discriminate|reflexivity].
  - right. rewrite HF in EF. injection EF as <-. rewrite E1 in Et. injection Et as <-. exists t, (firstn j t). split; [exact E1|]. split; [exact H2|]. apply firstn_cut.
Qed.
Lemma load_same fs fs' p : contents fs' p = contents fs p -> load float limit nul_ok sys fs' p = load float limit nul_ok sys fs p.
Proof. intros H. unfold load, check_read. rewrite H. reflexivity. Qed.
Lemma hmm_load_same fs fs' p : contents fs' p = contents fs p -> hmm_load float limit nul_ok sys fs' p = hmm_load float limit nul_ok sys fs p.
Proof. intros H. unfold hmm_load, check_read. rewrite H. reflexivity. Qed.
(** what is read after it *)
Lemma chain_after_crash n p f c es r fs fs' o : writable_chain show float limit nul_ok n f c -> format_of (p_name p) = Ok f -> can_read sys p = true -> save show sys p c = (es, r) -> crash fs es fs' ->
  load float limit nul_ok sys fs' p = Ok o ->
  load float limit nul_ok sys fs p = Ok o \/ o = as_object c \/ ((f = Csv \/ f = Txt) /\ nearly_chain n c o).
Proof.
  intros HW HF HR H HC HL. destruct (chain_crash n p f c es r fs fs' HW HF H HC) as [_ [E|(t & t' & Et & E & Hcut)]]; [left; rewrite <- (load_same fs fs' p E); exact HL|right].
  rewrite (load_contents fs' p f t' HF E HR) in HL. destruct HW as (HA & HP & HS & HN). destruct Hcut as [->|Hcut].
  - left. destruct (file_round_trip show float limit nul_ok n c HA HP f HS HN) as (t' & E1 & E2). rewrite Et in E1. injection E1 as <-. congruence.
  - right. exact (chain_torn show float limit nul_ok n c f t t' o HA HP HS HN Et Hcut HL).
Qed.
Lemma hmm_after_crash n k p f o es r fs fs' o' : writable_hmm show float limit nul_ok n k f o -> format_of (p_name p) = Ok f -> can_read sys p = true -> hmm_save show sys p o = (es, r) -> crash fs es fs' ->
  hmm_load float limit nul_ok sys fs' p = Ok o' ->
  hmm_load float limit nul_ok sys fs p = Ok o' \/ o' = as_hmm_object o \/ (f = Csv /\ nearly_hmm n k o o') \/ (f = Txt /\ same_but_last_row n k o o').
Proof.
  intros HW HF HR H HC HL. destruct (hmm_crash n k p f o es r fs fs' HW HF H HC) as [_ [E|(t & t' & Et & E & Hcut)]]; [left; rewrite <- (hmm_load_same fs fs' p E); exact HL|right].
  rewrite (hmm_load_contents fs' p f t' HF E HR) in HL. destruct HW as (HA & HP & HQ & HS & HN). destruct Hcut as [->|Hcut].
  - left. destruct (hmm_file_round_trip show float limit nul_ok n k o HA HP HQ f HS HN) as (t' & E1 & E2). rewrite Et in E1. injection E1 as <-. congruence.
  - right. exact (hmm_torn show float limit nul_ok n k o HA HP HQ f t t' o' HS HN Et Hcut HL).
Qed.
(** every save that gets past validation can lose the file *)
Lemma chain_lost p c es r fs : save show sys p c = (es, r) -> es <> [] -> can_read sys p = true -> exists fs', crash fs es fs' /\ contents fs' p = Some [] /\ load float limit nul_ok sys fs' p = Err ValueErr.
Proof.
  intros H Hne HR. destruct (crash_empty sys p _ es r fs H Hne) as (fs' & HC & HE). exists fs'. split; [exact HC|]. split; [exact HE|].
  destruct (save_text_cases sys p _ es r H) as [[-> _]|(f & EF & _)]; [contradiction|]. rewrite (load_contents fs' p f [] EF HE HR). apply empty_file.
Qed.
Lemma hmm_lost p o es r fs : hmm_save show sys p o = (es, r) -> es <> [] -> can_read sys p = true -> exists fs', crash fs es fs' /\ contents fs' p = Some [] /\ hmm_load float limit nul_ok sys fs' p = Err ValueErr.
Proof.
  intros H Hne HR. destruct (crash_empty sys p _ es r fs H Hne) as (fs' & HC & HE). exists fs'. split; [exact HC|]. split; [exact HE|].
  destruct (save_text_cases sys p _ es r H) as [[-> _]|(f & EF & _)]; [contradiction|]. rewrite (hmm_load_contents fs' p f [] EF HE HR). apply hmm_empty_file.
Qed.
(** a save that raises after validation has emptied the file *)
Lemma failed_empties p text_in es e fs : save_text sys p text_in = (es, Err e) -> es = [] \/ contents (perform es fs) p = Some [].
Proof.
  intros H. destruct (save_text_cases sys p text_in es _ H) as [[-> _]|(f & _ & _ & _ & [(x & _ & -> & _)|(t & _ & [(_ & _ & C)|(_ & -> & _)])])]; [left; reflexivity| |discriminate|]; right; unfold perform; cbn [fold_left apply]; apply contents_same.
Qed.
End Chain.
