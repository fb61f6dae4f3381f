(** L_Alias: aliases. *)
From Coq Require Import List String Ascii Bool Arith Lia.
From Verif Require Import Base M_Alias S_Alias.
Import ListNotations.
Open Scope string_scope.
Open Scope nat_scope.

(** ** the pattern *)
Definition alnum (c : ascii) : Prop := lower_case c \/ digit c.
Lemma piece_char_iff c : piece_char c = true <-> alnum c.
Proof.
  unfold piece_char, digit_char, lower_char, alnum, lower_case, digit.
  rewrite orb_true_iff, !andb_true_iff, !Nat.leb_le. tauto.
Qed.
Lemma lower_char_iff c : lower_char c = true <-> lower_case c.
Proof. unfold lower_char, lower_case. rewrite andb_true_iff, !Nat.leb_le. tauto. Qed.
Lemma under_not_piece : ~ alnum "_".
Proof. unfold alnum, lower_case, digit; cbn; lia. Qed.
Lemma lf_not_piece : ~ alnum lf.
Proof. unfold alnum, lower_case, digit; cbn; lia. Qed.

(** what may follow a character of a word *)
Inductive follow : string -> Prop :=
| fo_nil : follow ""
| fo_char c s : alnum c -> follow s -> follow (String c s)
| fo_under c s : alnum c -> follow s -> follow (String "_" (String c s)).
Definition begins (s : string) : Prop := exists c r, s = String c r /\ alnum c /\ follow r.

Lemma word_follow w u : word w -> follow u -> begins (w ++ u).
Proof.
  intros W F. induction W as [c C|c s C W IH].
  - exists c, u. repeat split; auto.
  - exists c, (s ++ u). repeat split; auto. destruct IH as (d & r & E & A & G). rewrite E. now constructor.
Qed.
Lemma append_empty s : s ++ "" = s.
Proof. induction s as [|c s IH]; [reflexivity|]. cbn. now rewrite IH. Qed.
Lemma chunks_begins s : chunks s -> begins s.
Proof.
  induction 1 as [s W|s t W C IH].
  - rewrite <- (append_empty s). apply word_follow; [exact W|constructor].
  - apply word_follow; [exact W|]. destruct IH as (c & r & -> & A & F). now constructor.
Qed.
Lemma chunks_cons c s : alnum c -> chunks s -> chunks (String c s).
Proof.
  intros A C. destruct C as [s W|s t W C].
  - constructor. now constructor.
  - change (String c (s ++ String "_" t)) with (String c s ++ String "_" t). constructor; [now constructor|exact C].
Qed.
Lemma follow_chunks s : follow s -> forall c, alnum c -> chunks (String c s).
Proof.
  induction 1 as [|d s A F IH|d s A F IH]; intros c C.
  - constructor. now constructor.
  - apply chunks_cons; auto.
  - change (String c (String "_" (String d s))) with (String c "" ++ String "_" (String d s)).
    constructor; [now constructor|auto].
Qed.
Lemma chunks_iff s : chunks s <-> begins s.
Proof. split; [apply chunks_begins|]. intros (c & r & -> & A & F). now apply follow_chunks. Qed.

Lemma match_follow s : (match_rest true s = true -> follow s \/ exists t, s = t ++ String lf "" /\ follow t) /\
                       (match_rest false s = true -> begins s \/ exists t, s = t ++ String lf "" /\ begins t).
Proof.
  induction s as [|c s [IT IF]]; [split; [left; constructor|discriminate]|].
  assert (P : piece_char c = true -> match_rest true s = true ->
    (follow (String c s) /\ begins (String c s)) \/
    exists t, String c s = t ++ String lf "" /\ follow t /\ begins t).
  { intros A M. apply piece_char_iff in A. destruct (IT M) as [F|(t & -> & F)].
    - left. split; [now constructor|]. exists c, s. auto.
    - right. exists (String c t). split; [reflexivity|]. split; [now constructor|]. exists c, t. auto. }
  cbn [match_rest]. destruct (piece_char c) eqn:A.
  - split; intros M; destruct (P eq_refl M) as [[F B]|(t & E & F & B)]; eauto.
  - split; [|discriminate]. destruct (Ascii.eqb c "_") eqn:U; cbn [andb].
    + apply Ascii.eqb_eq in U. subst c. intros M. destruct (IF M) as [(d & r & -> & B & F)|(t & -> & (d & r & -> & B & F))].
      * left. now constructor.
      * right. exists (String "_" (String d r)). split; [reflexivity|now constructor].
    + intros M. apply andb_true_iff in M. destruct M as [L M]. apply Ascii.eqb_eq in L. apply String.eqb_eq in M. subst.
      right. exists "". split; [reflexivity|constructor].
Qed.
Lemma follow_match s : follow s -> match_rest true s = true /\ match_rest true (s ++ String lf "") = true.
Proof.
  induction 1 as [|c s A F [I1 I2]|c s A F [I1 I2]]; [split; reflexivity| |].
  - apply piece_char_iff in A. cbn [append match_rest]. rewrite A. now split.
  - apply piece_char_iff in A. cbn [append match_rest].
    assert (U : piece_char "_" = false) by reflexivity. rewrite U. cbn [andb Ascii.eqb Bool.eqb]. rewrite A. now split.
Qed.

Theorem matches_iff s : matches_alias s = true <->
  proper_name s \/ exists t, s = t ++ String lf "" /\ proper_name t.
Proof.
  unfold matches_alias, proper_name. split.
  - destruct s as [|c s]; [discriminate|]. intros M. apply andb_true_iff in M. destruct M as [L M].
    apply lower_char_iff in L. assert (A : alnum c) by now left.
    destruct (proj1 (match_follow s) M) as [F|(t & -> & F)].
    + left. split; [now apply follow_chunks|]. now exists c, s.
    + right. exists (String c t). split; [reflexivity|]. split; [now apply follow_chunks|]. now exists c, t.
  - intros [(C & c & r & -> & L)|(t & -> & C & c & r & -> & L)]; apply chunks_begins in C;
      destruct C as (d & q & E & A & F); injection E as <- <-; apply lower_char_iff in L; cbn [append]; rewrite L;
      apply follow_match in F; apply F.
Qed.

(** ** dictionaries *)
Lemma assoc_put {A} k (a : A) l x : assoc x (put k a l) = if String.eqb k x then Some a else assoc x l.
Proof.
  induction l as [|[y b] l IH]; cbn [put assoc]; [reflexivity|].
  destruct (String.eqb y k) eqn:E; cbn [assoc].
  - apply String.eqb_eq in E. subst y. destruct (String.eqb k x); reflexivity.
  - rewrite IH. destruct (String.eqb y x) eqn:F; [|reflexivity].
    apply String.eqb_eq in F. subst y. rewrite String.eqb_sym in E. now rewrite E.
Qed.
Lemma assoc_in {A} k (l : list (string * A)) a : assoc k l = Some a -> In (k, a) l.
Proof.
  induction l as [|[y b] l IH]; cbn [assoc]; [discriminate|]. destruct (String.eqb y k) eqn:E; intros H.
  - apply String.eqb_eq in E. injection H as <-. subst y. now left.
  - right. auto.
Qed.
Lemma in_assoc {A} k (l : list (string * A)) a : NoDup (map fst l) -> In (k, a) l -> assoc k l = Some a.
Proof.
  induction l as [|[y b] l IH]; cbn [assoc map fst]; intros N I; [destruct I|].
  apply NoDup_cons_iff in N. destruct N as [N1 N2]. destruct I as [E|I].
  - injection E as -> ->. now rewrite String.eqb_refl.
  - destruct (String.eqb y k) eqn:E; [|auto]. apply String.eqb_eq in E. subst y. exfalso. apply N1.
    apply in_map_iff. now exists (k, a).
Qed.
Lemma assoc_none {A} k (l : list (string * A)) : ~ In k (map fst l) -> assoc k l = None.
Proof.
  intros N. destruct (assoc k l) eqn:E; [|reflexivity]. exfalso. apply N. apply assoc_in in E.
  apply in_map_iff. now exists (k, a).
Qed.

Definition puts {A} (es : list (string * A)) (l : list (string * A)) : list (string * A) :=
  fold_left (fun l e => put (fst e) (snd e) l) es l.
Lemma assoc_puts {A} (es : list (string * A)) x : NoDup (map fst es) -> forall l,
  assoc x (puts es l) = match assoc x es with Some a => Some a | None => assoc x l end.
Proof.
  unfold puts. induction es as [|[k a] es IH]; intros N l; [reflexivity|].
  cbn [map fst] in N. apply NoDup_cons_iff in N. destruct N as [N1 N2].
  cbn [fold_left assoc fst snd]. rewrite IH by exact N2. rewrite assoc_put.
  destruct (String.eqb k x) eqn:E; [|reflexivity]. apply String.eqb_eq in E. subst k.
  now rewrite (assoc_none x es N1).
Qed.

(** ** the decorator *)
Definition all_aliases (c : class) : list string :=
  flat_map (fun nm => match m_aliases (snd nm) with Some al => al | None => [] end) c.
Definition entries (c : class) : list (string * member) :=
  flat_map (fun ma => map (fun a => (a, wrapped (fst ma))) (snd ma)) (marked c).
Lemma marked_flat c : flat_map snd (marked c) = all_aliases c.
Proof.
  unfold marked, all_aliases. induction c as [|[n m] c IH]; [reflexivity|]. cbn [flat_map snd].
  rewrite flat_map_app, IH. f_equal. destruct (m_aliases m); [|reflexivity]. cbn. apply app_nil_r.
Qed.
Lemma entries_names c : map fst (entries c) = all_aliases c.
Proof.
  unfold entries. rewrite <- marked_flat. induction (marked c) as [|[m al] l IH]; [reflexivity|].
  cbn [flat_map fst snd]. rewrite map_app, IH. f_equal. rewrite map_map. cbn [fst]. apply map_id.
Qed.
Lemma in_all_aliases c a : In a (all_aliases c) <-> exists name, has_alias c name a.
Proof.
  unfold all_aliases, has_alias. rewrite in_flat_map. split.
  - intros ([n m] & I & H). cbn [snd] in H. destruct (m_aliases m) as [al|] eqn:E; [|destruct H].
    exists n, m, al. auto.
  - intros (n & m & al & I & E & H). exists (n, m). split; [exact I|]. cbn [snd]. now rewrite E.
Qed.
Lemma nodup_length_iff (l : list string) : (length (nodup string_dec l) <? length l) = false <-> NoDup l.
Proof.
  split.
  - intros H. apply Nat.ltb_ge in H. apply (@NoDup_incl_NoDup _ (nodup string_dec l)); [apply NoDup_nodup|exact H|].
    intros x I. now apply nodup_In in I.
  - intros N. rewrite nodup_fixed_point by exact N. apply Nat.ltb_irrefl.
Qed.
Lemma existsb_false {A} (f : A -> bool) l : existsb f l = false <-> forall x, In x l -> f x = false.
Proof.
  split.
  - intros H x I. destruct (f x) eqn:E; [|reflexivity]. assert (existsb f l = true) by (apply existsb_exists; eauto). congruence.
  - intros H. destruct (existsb f l) eqn:E; [|reflexivity]. apply existsb_exists in E. destruct E as (x & I & F).
    rewrite (H x I) in F. discriminate.
Qed.
Lemma eqb_in a (l : list string) : existsb (String.eqb a) l = false <-> ~ In a l.
Proof.
  rewrite existsb_false. split.
  - intros H I. specialize (H a I). now rewrite String.eqb_refl in H.
  - intros H x I. destruct (String.eqb a x) eqn:E; [|reflexivity]. apply String.eqb_eq in E. congruence.
Qed.

Lemma aliased_eq c : aliased c =
  if length (nodup string_dec (all_aliases c)) <? length (all_aliases c) then Err OtherErr
  else if existsb (fun a => negb (matches_alias a)) (all_aliases c) then Err OtherErr
  else if existsb (fun a => existsb (String.eqb a) (map fst c)) (all_aliases c) then Err OtherErr
  else Ok (puts (entries c) c).
Proof.
  unfold aliased. rewrite <- marked_flat. unfold entries, puts. destruct (marked c) as [|x l]; [reflexivity|].
  generalize (x :: l). clear x l. intros l.
  assert (F : forall l c0, fold_left (fun c1 ma => fold_left (fun c2 a => put a (wrapped (fst ma)) c2) (snd ma) c1) l c0 =
    fold_left (fun l0 e => put (fst e) (snd e) l0) (flat_map (fun ma => map (fun a => (a, wrapped (fst ma))) (snd ma)) l) c0).
  { clear. intros l. induction l as [|[m al] l IH]; intros c0; [reflexivity|]. cbn [fold_left flat_map fst snd].
    rewrite fold_left_app, <- IH. f_equal. generalize c0. induction al as [|a al IA]; intros c1; [reflexivity|]. cbn. apply IA. }
  now rewrite F.
Qed.

Definition unique_aliases (c : class) : Prop :=
  NoDup (flat_map (fun nm => match m_aliases (snd nm) with Some al => al | None => [] end) c).
Theorem aliased_iff c : (exists c', aliased c = Ok c') <->
  unique_aliases c /\ forall name a, has_alias c name a ->
    (proper_name a \/ exists t, a = t ++ String lf "" /\ proper_name t) /\ ~ In a (map fst c).
Proof.
  rewrite aliased_eq. fold (all_aliases c). unfold unique_aliases. fold (all_aliases c). rewrite <- nodup_length_iff.
  destruct (length (nodup string_dec (all_aliases c)) <? length (all_aliases c)).
  { split; [intros (? & ?); discriminate|intros [? _]; discriminate]. }
  split.
  - intros (c' & H). split; [reflexivity|]. intros name a A.
    assert (I : In a (all_aliases c)) by (apply in_all_aliases; eauto).
    destruct (existsb (fun a => negb (matches_alias a)) (all_aliases c)) eqn:E1; [discriminate|].
    destruct (existsb (fun a => existsb (String.eqb a) (map fst c)) (all_aliases c)) eqn:E2; [discriminate|].
    rewrite existsb_false in E1, E2. specialize (E1 a I). specialize (E2 a I). cbn beta in *. split.
    + apply matches_iff. now destruct (matches_alias a).
    + now apply eqb_in.
  - intros [_ H].
    assert (E1 : existsb (fun a => negb (matches_alias a)) (all_aliases c) = false).
    { apply existsb_false. intros a I. apply in_all_aliases in I. destruct I as (n & A). destruct (H n a A) as [P _].
      apply matches_iff in P. now rewrite P. }
    assert (E2 : existsb (fun a => existsb (String.eqb a) (map fst c)) (all_aliases c) = false).
    { apply existsb_false. intros a I. apply in_all_aliases in I. destruct I as (n & A). destruct (H n a A) as [_ P].
      now apply eqb_in. }
    rewrite E1, E2. eauto.
Qed.

Lemma aliased_lookup c c' : aliased c = Ok c' -> NoDup (map fst c) ->
  (forall name m, In (name, m) c -> assoc name c' = Some m) /\
  (forall name m al a, In (name, m) c -> m_aliases m = Some al -> In a al -> assoc a c' = Some (wrapped m)) /\
  (forall x, ~ In x (map fst c) -> ~ In x (all_aliases c) -> assoc x c' = None).
Proof.
  intros H N. assert (X : exists c', aliased c = Ok c') by eauto. apply aliased_iff in X. destruct X as [U A].
  assert (NE : NoDup (map fst (entries c))) by (rewrite entries_names; exact U).
  assert (E : c' = puts (entries c) c).
  { rewrite aliased_eq in H. repeat match type of H with (if ?b then _ else _) = _ => destruct b; [discriminate|] end. congruence. }
  subst c'. repeat split.
  - intros name m I. rewrite assoc_puts by exact NE. rewrite (assoc_none name (entries c)).
    + now apply in_assoc.
    + rewrite entries_names. intros J. apply in_all_aliases in J. destruct J as (n & J). destruct (A n name J) as [_ B].
      apply B. apply in_map_iff. now exists (name, m).
  - intros name m al a I E J. rewrite assoc_puts by exact NE. rewrite (in_assoc a (entries c) (wrapped m) NE); [reflexivity|].
    unfold entries. apply in_flat_map. exists (m, al). split.
    + unfold marked. apply in_flat_map. exists (name, m). split; [exact I|]. cbn [snd]. rewrite E. now left.
    + cbn [fst snd]. apply in_map_iff. now exists a.
  - intros x N1 N2. rewrite assoc_puts by exact NE. rewrite (assoc_none x (entries c)); [now apply assoc_none|].
    now rewrite entries_names.
Qed.

(** ** reading *)
Section Reading.
Context {D V : Type}.
Variable eval : nat -> D -> V.
Variables (c c' : class).
Hypothesis H : aliased c = Ok c'.
Hypothesis N : NoDup (map fst c).

Definition consistent (i : inst D V) : Prop :=
  forall x v m, assoc x (i_dict i) = Some v -> assoc x c' = Some m -> v = eval (m_fun m) (i_data i).

Lemma look_consistent i x : consistent i ->
  consistent (act eval c' i (Look x)) /\ i_data (act eval c' i (Look x)) = i_data i.
Proof.
  intros C. unfold act, getattr. destruct (assoc x c') as [m|] eqn:E; [|auto].
  destruct (m_kind m); auto. destruct (assoc x (i_dict i)) as [v|] eqn:G; [auto|]. split; [|reflexivity].
  intros y v m' A B. cbn [i_dict i_data] in *. rewrite assoc_put in A. destruct (String.eqb x y) eqn:Q.
  - apply String.eqb_eq in Q. subst y. congruence.
  - now apply (C y).
Qed.
Lemma looks_consistent xs : forall i, consistent i ->
  consistent (fold_left (act eval c') (map Look xs) i) /\ i_data (fold_left (act eval c') (map Look xs) i) = i_data i.
Proof.
  induction xs as [|x xs IH]; intros i C; [auto|]. cbn [map fold_left]. destruct (look_consistent i x C) as [C1 D1].
  destruct (IH _ C1) as [C2 D2]. split; [exact C2|]. now rewrite D2.
Qed.

Lemma alias_read i name m al a : In (name, m) c -> m_aliases m = Some al -> In a al ->
  getattr eval c' i a = Ok (eval (m_fun m) (i_data i), i).
Proof.
  intros I E J. destruct (aliased_lookup c c' H N) as (_ & L & _). unfold getattr. rewrite (L name m al a I E J).
  unfold wrapped. cbn [m_kind m_fun]. destruct (m_kind m); reflexivity.
Qed.

Theorem alias_same d xs name a : has_alias c name a ->
  let i := fold_left (act eval c') (map Look xs) (mkinst d []) in
  exists v i', getattr eval c' i name = Ok (v, i') /\ getattr eval c' i a = Ok (v, i).
Proof.
  intros (m & al & I & E & J). cbv zeta.
  assert (C0 : consistent (mkinst d [])) by (intros y v m' A; discriminate).
  destruct (looks_consistent xs _ C0) as [C Dt]. set (i := fold_left _ _ _) in *. clearbody i.
  rewrite (alias_read i name m al a I E J). destruct (aliased_lookup c c' H N) as (L & _ & _). specialize (L name m I).
  unfold getattr. rewrite L. destruct (m_kind m); eauto.
  destruct (assoc name (i_dict i)) as [v|] eqn:G; [|eauto]. rewrite (C name v m G L). eauto.
Qed.

(** through an alias everything is computed anew: what callers did before has no influence *)
Theorem alias_fresh d acts name m a : In (name, m) c -> has_alias [(name, m)] name a ->
  let i := fold_left (act eval c') acts (mkinst d []) in getattr eval c' i a = Ok (eval (m_fun m) d, i).
Proof.
  intros I (m' & al & [Q|[]] & E & J). injection Q as <-. cbv zeta.
  assert (Dt : forall acts i, i_data (fold_left (act eval c') acts i) = i_data i).
  { clear acts. induction acts as [|x acts IH]; intros i; [reflexivity|]. cbn [fold_left]. rewrite IH.
    destruct x as [y|y g]; unfold act, getattr; destruct (assoc y c') as [[k f o]|]; try reflexivity;
      cbn [m_kind m_fun]; destruct k; try reflexivity; destruct (assoc y (i_dict i)); reflexivity. }
  rewrite (alias_read _ name m al a I E J). now rewrite Dt.
Qed.
End Reading.

(** ** the class MarkovChain *)
Lemma markov_chain_aliased : exists c', aliased markov_chain_class = Ok c' /\ length c' = length markov_chain_class + 28.
Proof. eexists. split; [vm_compute; reflexivity|vm_compute; reflexivity]. Qed.
Lemma markov_chain_names : NoDup (map fst markov_chain_class).
Proof. apply nodup_length_iff. vm_compute. reflexivity. Qed.

Lemma modified_differs : exists c' g, aliased markov_chain_class = Ok c' /\ has_alias markov_chain_class "pi" "steady_states" /\
  let eval := fun (k : nat) (_ : unit) => k in
  let i := act eval c' (mkinst tt []) (Modify "pi" g) in
  exists v w i', getattr eval c' i "pi" = Ok (v, i') /\ getattr eval c' i "steady_states" = Ok (w, i) /\ v <> w.
Proof.
  destruct (aliased markov_chain_class) as [c'|e] eqn:A; [|vm_compute in A; discriminate].
  exists c', S. split; [reflexivity|].
  assert (P : exists m, assoc "pi" markov_chain_class = Some m /\ m_kind m = KCached /\
    m_aliases m = Some ["stationary_distributions"; "steady_states"]) by (eexists; vm_compute; auto).
  destruct P as (m & P & K & AL). apply assoc_in in P. split.
  { exists m, ["stationary_distributions"; "steady_states"]. split; [exact P|]. split; [exact AL|]. right. now left. }
  cbv zeta. destruct (aliased_lookup _ _ A markov_chain_names) as (L & LA & _).
  specialize (L _ _ P). specialize (LA _ _ _ "steady_states" P AL (or_intror (or_introl eq_refl))).
  unfold act, getattr. rewrite L, LA. destruct m as [k f o]; cbn [m_kind m_fun m_aliases] in *. subst k o. cbn.
  exists (S f), f. eexists. repeat split. lia.
Qed.

Lemma line_feed_accepted : exists c a, (exists c', aliased c = Ok c') /\ has_alias c "f" a /\ ~ proper_name a.
Proof.
  exists [("f", mkmember KMethod 0 (Some ["g" ++ String lf ""]))], ("g" ++ String lf ""). split; [|split].
  - eexists. vm_compute. reflexivity.
  - eexists _, _. split; [now left|]. split; [reflexivity|]. now left.
  - intros [C _]. apply chunks_begins in C. destruct C as (c & r & E & _ & F). cbn in E. injection E as <- <-.
    inversion F as [|d s A G Q|]; subst. now apply lf_not_piece in A.
Qed.
