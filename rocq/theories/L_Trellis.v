(** L_Trellis: the edges and numbers of trellis diagrams. *)
From Verif Require Import L_Hmm3 L_Hmm4 M_Trellis S_Trellis.
From Coq Require Import Reals.
Close Scope R_scope.
Open Scope nat_scope.
Open Scope res_scope.

(** ** Lists *)
Lemma filter_flat {A B} (f : B -> bool) (g : A -> list B) l : filter f (flat_map g l) = flat_map (fun x => filter f (g x)) l.
Proof. induction l as [|a l IH]; cbn; [reflexivity|]. now rewrite filter_app, IH. Qed.
Lemma flat_nil {A B} (g : A -> list B) l : (forall x, In x l -> g x = []) -> flat_map g l = [].
Proof. induction l as [|a l IH]; cbn; intros H; [reflexivity|]. rewrite (H a), IH; auto. Qed.
Lemma flat_ext {A B} (f g : A -> list B) l : (forall x, In x l -> f x = g x) -> flat_map f l = flat_map g l.
Proof. induction l as [|a l IH]; cbn; intros H; [reflexivity|]. rewrite (H a), IH; auto. Qed.
Lemma flat_one {A B} (g : A -> list B) l a : NoDup l -> In a l -> (forall x, In x l -> x <> a -> g x = []) -> flat_map g l = g a.
Proof.
  induction l as [|b l IH]; cbn; intros N I H; [easy|]. inversion N as [|? ? Hn Nl]; subst.
  destruct I as [->|I].
  - rewrite (flat_nil g l); [apply app_nil_r|]. intros x Hx. apply H; [auto|]. intros ->. contradiction.
  - rewrite (H b) by (auto; intros ->; contradiction). cbn. apply IH; auto.
Qed.
Lemma flat_if {A B} (b : A -> bool) (h : A -> B) l : flat_map (fun x => if b x then [h x] else []) l = map h (filter b l).
Proof. induction l as [|a l IH]; cbn; [reflexivity|]. destruct (b a); cbn; now rewrite IH. Qed.
Lemma flat_map_map {A B C} (f : B -> C) (g : A -> list B) l : map f (flat_map g l) = flat_map (fun x => map f (g x)) l.
Proof. induction l as [|a l IH]; cbn; [reflexivity|]. now rewrite map_app, IH. Qed.
Lemma filter_map_comm {A B} (f : B -> bool) (g : A -> B) l : filter f (map g l) = map g (filter (fun x => f (g x)) l).
Proof. induction l as [|a l IH]; cbn; [reflexivity|]. destruct (f (g a)); cbn; now rewrite IH. Qed.
Lemma filter_all {A} (f : A -> bool) l : (forall x, In x l -> f x = true) -> filter f l = l.
Proof. induction l as [|a l IH]; cbn; intros H; [reflexivity|]. rewrite (H a) by auto. f_equal; auto. Qed.
Lemma filter_none {A} (f : A -> bool) l : (forall x, In x l -> f x = false) -> filter f l = [].
Proof. induction l as [|a l IH]; cbn; intros H; [reflexivity|]. rewrite (H a) by auto. auto. Qed.
Lemma filter_eq_seq a n (b : nat -> bool) : filter (fun x => Nat.eqb x a) (filter b (seq 0 n)) = if Nat.ltb a n && b a then [a] else [].
Proof.
  assert (H : forall k m, filter (fun x => Nat.eqb x a) (filter b (seq k m)) = if Nat.leb k a && Nat.ltb a (k + m) && b a then [a] else []).
  { intros k m; revert k; induction m as [|m IH]; intros k; cbn [seq filter].
    - destruct (Nat.leb_spec k a), (Nat.ltb_spec a (k + 0)); cbn [andb]; try reflexivity; exfalso; lia.
    - destruct (b k) eqn:Bk; cbn [filter]; [destruct (Nat.eqb_spec k a) as [->|Hne]|]; rewrite ?IH.
      + rewrite Bk, Nat.leb_refl. destruct (Nat.leb_spec (S a) a); [lia|].
        destruct (Nat.ltb_spec a (a + S m)); [reflexivity|lia].
      + destruct (Nat.leb_spec (S k) a), (Nat.leb_spec k a), (Nat.ltb_spec a (S k + m)), (Nat.ltb_spec a (k + S m)); cbn [andb]; try reflexivity; exfalso; lia.
      + destruct (Nat.eqb_spec k a) as [->|Hne].
        * rewrite Bk, !andb_false_r. reflexivity.
        * destruct (Nat.leb_spec (S k) a), (Nat.leb_spec k a), (Nat.ltb_spec a (S k + m)), (Nat.ltb_spec a (k + S m)); cbn [andb]; try reflexivity; exfalso; lia. }
  rewrite H. reflexivity.
Qed.
Lemma combine_maps {A B C} (f : A -> B) (g : A -> C) l : combine (map f l) (map g l) = map (fun x => (f x, g x)) l.
Proof. induction l as [|a l IH]; cbn; [reflexivity|]. now rewrite IH. Qed.

(** ** The edges that are drawn *)
Definition skipped (init : vec) (col : nat) : bool := Nat.eqb col 0 && negb (Qcltb 0 (vget init col)).
Lemma moves_in n f p init i t j : In (i, t, j) (lattice_moves n f p init) <->
  i < n /\ S t < f /\ j < n /\ (0 < mget p i j)%Qc /\ (t = 0 -> (0 < vget init 0)%Qc).
Proof.
  unfold lattice_moves. rewrite in_flat_map. split.
  - intros [r [Hr H]]. apply in_seq in Hr. apply in_flat_map in H as [c [Hc H]]. apply in_seq in Hc.
    destruct (Nat.eqb c 0 && negb (Qcltb 0 (vget init c))) eqn:K; [easy|].
    apply in_map_iff in H as [x [E H]]. injection E as -> -> ->. apply filter_In in H as [Hx Hp]. apply in_seq in Hx.
    apply Qcltb_lt in Hp. repeat split; try lia; try assumption.
    intros ->. cbn in K. apply negb_false_iff, Qcltb_lt in K. exact K.
  - intros [Hi [Ht [Hj [Hp H0]]]]. exists i. split; [apply in_seq; lia|]. apply in_flat_map. exists t. split; [apply in_seq; lia|].
    destruct (Nat.eqb t 0 && negb (Qcltb 0 (vget init t))) eqn:K.
    + apply andb_true_iff in K as [K1 K2]. apply Nat.eqb_eq in K1. subst t. specialize (H0 eq_refl). apply Qcltb_lt in H0. now rewrite H0 in K2.
    + apply in_map_iff. exists j. split; [reflexivity|]. apply filter_In. split; [apply in_seq; lia|]. now apply Qcltb_lt.
Qed.
Lemma nx_forward n f p init : let g := fun m => let '(row, col, next) := m in ((row, col), (next, S col)) : lnode * lnode in
  nx_edges n f (map g (lattice_moves n f p init)) = map g (lattice_moves n f p init).
Proof.
  intros g. unfold nx_edges. unfold lattice_moves at 2. rewrite flat_map_map. apply flat_ext. intros r Hr. apply in_seq in Hr.
  rewrite flat_map_map.
  assert (K : forall c, filter (leaves r c) (map g (lattice_moves n f p init)) =
    if Nat.ltb c (f - 1) then map g (if skipped init c then [] else map (fun next => (r, c, next)) (filter (fun next => Qcltb 0 (mget p r next)) (seq 0 n))) else []).
  { intros c. rewrite filter_map_comm. unfold lattice_moves. rewrite filter_flat.
    rewrite (flat_one _ _ r); [|apply seq_NoDup|apply in_seq; lia|].
    - rewrite filter_flat. destruct (Nat.ltb_spec c (f - 1)) as [Hc|Hc].
      + rewrite (flat_one _ _ c); [|apply seq_NoDup|apply in_seq; lia|].
        * f_equal. unfold skipped. destruct (Nat.eqb c 0 && negb (Qcltb 0 (vget init c))); [reflexivity|].
          apply filter_all. intros x Hx. apply in_map_iff in Hx as [y [<- _]]. cbn. unfold leaves; cbn. now rewrite !Nat.eqb_refl.
        * intros c' _ Hne. destruct (Nat.eqb c' 0 && negb (Qcltb 0 (vget init c'))); [reflexivity|].
          apply filter_none. intros x Hx. apply in_map_iff in Hx as [y [<- _]]. unfold leaves; cbn. rewrite Nat.eqb_refl. now apply Nat.eqb_neq.
      + rewrite flat_nil; [reflexivity|]. intros c' Hc'. apply in_seq in Hc'.
        destruct (Nat.eqb c' 0 && negb (Qcltb 0 (vget init c'))); [reflexivity|].
        apply filter_none. intros x Hx. apply in_map_iff in Hx as [y [<- _]]. unfold leaves; cbn. rewrite Nat.eqb_refl. apply Nat.eqb_neq. lia.
    - intros r' _ Hne. rewrite filter_flat. apply flat_nil. intros c' _.
      destruct (Nat.eqb c' 0 && negb (Qcltb 0 (vget init c'))); [reflexivity|].
      apply filter_none. intros x Hx. apply in_map_iff in Hx as [y [<- _]]. unfold leaves; cbn. apply Nat.eqb_neq in Hne. now rewrite Hne. }
  destruct f as [|f]; [reflexivity|]. replace (S f - 1) with f in * by lia.
  rewrite seq_S, flat_map_app. cbn [flat_map]. rewrite ?Nat.add_0_l. rewrite (K f), Nat.ltb_irrefl. rewrite !app_nil_r.
  apply flat_ext. intros c Hc. apply in_seq in Hc. rewrite K. destruct (Nat.ltb_spec c f); [reflexivity|lia].
Qed.
Lemma nx_backward n f p init : (forall i j, i < n -> j < n -> Qcltb 0 (mget p i j) = Qcltb 0 (mget p j i)) ->
  let g := fun m => let '(row, col, next) := m in ((next, S col), (row, col)) : lnode * lnode in
  let g' := fun m => let '(row, col, next) := m in ((row, S col), (next, col)) : lnode * lnode in
  nx_edges n f (map g (lattice_moves n f p init)) = map g' (lattice_moves n f p init).
Proof.
  intros HS g g'. unfold nx_edges. unfold lattice_moves at 2. rewrite flat_map_map. apply flat_ext. intros r Hr. apply in_seq in Hr.
  rewrite flat_map_map.
  assert (K0 : filter (leaves r 0) (map g (lattice_moves n f p init)) = []).
  { apply filter_none. intros x Hx. apply in_map_iff in Hx as [[[a b] c] [<- _]]. unfold leaves; cbn. apply andb_false_r. }
  assert (K : forall c, c < f - 1 -> filter (leaves r (S c)) (map g (lattice_moves n f p init)) =
    map g' (if skipped init c then [] else map (fun next => (r, c, next)) (filter (fun next => Qcltb 0 (mget p r next)) (seq 0 n)))).
  { intros c Hc. rewrite filter_map_comm. unfold lattice_moves. rewrite filter_flat.
    rewrite (flat_ext _ (fun r' => if negb (skipped init c) && Qcltb 0 (mget p r r') then [(r', c, r)] else [])).
    - rewrite flat_if. unfold skipped. destruct (Nat.eqb c 0 && negb (Qcltb 0 (vget init c))); cbn [negb andb].
      + rewrite filter_none by reflexivity. reflexivity.
      + rewrite !map_map. reflexivity.
    - intros r' Hr'. apply in_seq in Hr'. rewrite filter_flat.
      rewrite (flat_one _ _ c); [|apply seq_NoDup|apply in_seq; lia|].
      + unfold skipped. destruct (Nat.eqb c 0 && negb (Qcltb 0 (vget init c))); cbn [negb andb]; [reflexivity|].
        rewrite filter_map_comm. unfold leaves; cbn [fst snd g]. rewrite (filter_ext _ (fun x => Nat.eqb x r)).
        2:{ intros x. now rewrite Nat.eqb_refl, andb_true_r. }
        rewrite filter_eq_seq. rewrite (HS r r') by lia. destruct (Nat.ltb_spec r n); [|lia]. cbn.
        destruct (Qcltb 0 (mget p r' r)); reflexivity.
      + intros c' _ Hne. destruct (Nat.eqb c' 0 && negb (Qcltb 0 (vget init c'))); [reflexivity|].
        apply filter_none. intros x Hx. apply in_map_iff in Hx as [y [<- _]]. unfold leaves; cbn. apply Nat.eqb_neq in Hne. now rewrite Hne, andb_false_r. }
  destruct f as [|f]; [reflexivity|]. replace (S f - 1) with f in * by lia.
  change (seq 0 (S f)) with (0 :: seq 1 f). cbn [flat_map]. rewrite K0. cbn [app].
  rewrite <- seq_shift, flat_map_concat_map, map_map, <- flat_map_concat_map.
  apply flat_ext. intros c Hc. apply in_seq in Hc. rewrite K by lia. reflexivity.
Qed.

(** every edge that was added is listed once *)
Lemma len_flat {A B} (g : A -> list B) l : length (flat_map g l) = list_sum (map (fun x => length (g x)) l).
Proof. induction l as [|a l IH]; cbn; [reflexivity|]. now rewrite app_length, IH. Qed.
Lemma sum_plus {A} (f g : A -> nat) l : list_sum (map (fun x => f x + g x) l) = list_sum (map f l) + list_sum (map g l).
Proof. unfold list_sum. induction l as [|a l IH]; cbn; [reflexivity|]. rewrite IH. lia. Qed.
Lemma sum_ext {A} (f g : A -> nat) l : (forall x, In x l -> f x = g x) -> list_sum (map f l) = list_sum (map g l).
Proof. unfold list_sum. induction l as [|a l IH]; cbn; intros H; [reflexivity|]. rewrite (H a), IH; auto. Qed.
Lemma sum_ind a k n : list_sum (map (fun x => if Nat.eqb a x then 1 else 0) (seq k n)) = if Nat.leb k a && Nat.ltb a (k + n) then 1 else 0.
Proof.
  revert k; induction n as [|n IH]; intros k; cbn [seq map list_sum fold_right].
  - destruct (Nat.leb_spec k a), (Nat.ltb_spec a (k + 0)); cbn [andb]; try reflexivity; exfalso; lia.
  - change (fold_right Nat.add 0) with list_sum. rewrite IH.
    destruct (Nat.eqb_spec a k), (Nat.leb_spec (S k) a), (Nat.leb_spec k a), (Nat.ltb_spec a (S k + n)), (Nat.ltb_spec a (k + S n)); cbn [andb]; try reflexivity; exfalso; lia.
Qed.
Lemma nx_length n f added : (forall e, In e added -> fst (fst e) < n /\ snd (fst e) < f) -> length (nx_edges n f added) = length added.
Proof.
  induction added as [|[[a b] t] l IH]; intros H.
  - unfold nx_edges. rewrite flat_nil; [reflexivity|]. intros; apply flat_nil; reflexivity.
  - cbn [length]. rewrite <- IH by (intros e He; apply H; now right). unfold nx_edges. rewrite !len_flat.
    destruct (H _ (or_introl eq_refl)) as [Ha Hb]. cbn [fst snd] in Ha, Hb.
    rewrite (sum_ext _ (fun x => (if Nat.eqb a x then 1 else 0) + length (flat_map (fun col => filter (leaves x col) l) (seq 0 f)))).
    + rewrite sum_plus, sum_ind. destruct (Nat.leb_spec 0 a), (Nat.ltb_spec a (0 + n)); cbn [andb]; try (exfalso; lia). reflexivity.
    + intros x _. rewrite !len_flat.
      rewrite (sum_ext _ (fun y => (if Nat.eqb a x then (if Nat.eqb b y then 1 else 0) else 0) + length (filter (leaves x y) l))).
      * rewrite sum_plus. f_equal. destruct (Nat.eqb a x).
        -- rewrite sum_ind. destruct (Nat.leb_spec 0 b), (Nat.ltb_spec b (0 + f)); cbn [andb]; try (exfalso; lia). reflexivity.
        -- induction (seq 0 f); cbn; auto.
      * intros y _. cbn [filter]. unfold leaves at 1. cbn [fst snd]. destruct (Nat.eqb a x), (Nat.eqb b y); reflexivity.
Qed.
Lemma nx_in n f added e : In e (nx_edges n f added) <-> In e added /\ fst (fst e) < n /\ snd (fst e) < f.
Proof.
  unfold nx_edges. rewrite in_flat_map. split.
  - intros [r [Hr H]]. apply in_flat_map in H as [c [Hc H]]. apply filter_In in H as [H L]. apply in_seq in Hr, Hc.
    unfold leaves in L. apply andb_true_iff in L as [L1 L2]. apply Nat.eqb_eq in L1, L2. repeat split; [assumption|lia|lia].
  - intros [H [Hr Hc]]. exists (fst (fst e)). split; [apply in_seq; lia|]. apply in_flat_map. exists (snd (fst e)). split; [apply in_seq; lia|].
    apply filter_In. split; [assumption|]. unfold leaves. now rewrite !Nat.eqb_refl.
Qed.
Lemma in_combine_iff {A B} (l : list A) (l' : list B) a : length l = length l' -> ((exists b, In (a, b) (combine l l')) <-> In a l).
Proof.
  revert l'; induction l as [|x l IH]; intros [|y l']; cbn; intros E; try discriminate.
  - split; [intros [b []]|easy].
  - injection E as E. specialize (IH l' E). split.
    + intros [b [H|H]]; [injection H as -> ->; auto|right; apply IH; eauto].
    + intros [->|H]; [exists y; auto|]. apply IH in H as [b Hb]. eauto.
Qed.

(** ** The diagrams *)
Definition draws (extended : bool) := if extended then trellis_extended else trellis_standard.
Definition on_path (path : list nat) (i t j : nat) : bool := Nat.eqb (nth t path 0) i && Nat.eqb (nth (S t) path 0) j.
Lemma on_path_iff path i t j : on_path path i t j = true <-> path_step path i t j.
Proof. unfold on_path, path_step. now rewrite andb_true_iff, !Nat.eqb_eq. Qed.
Lemma link_inj fw i t j i' t' j' : link fw i t j = link fw i' t' j' -> i = i' /\ t = t' /\ j = j'.
Proof. destruct fw; cbn; intros H; injection H; intros; subst; auto. Qed.
Lemma ext_edges n p init sy fw M path : la_edges (trellis_extended n p init sy fw M path) =
  map (fun m => let '(i, t, j) := m in (link fw i t j, on_path path i t j)) (lattice_moves n (length sy) p init).
Proof. cbn. apply map_ext. intros [[a b] c]. destruct fw; reflexivity. Qed.
Lemma std_fw_edges n p init sy M path : la_edges (trellis_standard n p init sy true M path) =
  map (fun m => let '(i, t, j) := m in (link true i t j, on_path path i t j)) (lattice_moves n (length sy) p init).
Proof.
  set (mv := lattice_moves n (length sy) p init).
  transitivity (combine (map (fun m => let '(r, c, x) := m in ((r, c), (x, S c)) : lnode * lnode) mv)
                  (map (fun m => let '(i, t, j) := m in on_path path i t j) mv)).
  - cbn [trellis_standard la_edges]. cbv zeta. f_equal. exact (nx_forward n (length sy) p init).
  - rewrite combine_maps. apply map_ext. intros [[a b] c]. reflexivity.
Qed.
Lemma std_bw_edges n p init sy M path : (forall i j, i < n -> j < n -> Qcltb 0 (mget p i j) = Qcltb 0 (mget p j i)) ->
  la_edges (trellis_standard n p init sy false M path) =
  map (fun m => let '(i, t, j) := m in (link false j t i, on_path path j t i)) (lattice_moves n (length sy) p init).
Proof.
  intros HS. set (mv := lattice_moves n (length sy) p init).
  transitivity (combine (map (fun m => let '(r, c, x) := m in ((r, S c), (x, c)) : lnode * lnode) mv)
                  (map (fun m => let '(i, t, j) := m in on_path path j t i) mv)).
  - cbn [trellis_standard la_edges]. cbv zeta. f_equal. exact (nx_backward n (length sy) p init HS).
  - rewrite combine_maps. apply map_ext. intros [[a b] c]. reflexivity.
Qed.
Lemma map_link_in fw n f p init path i t j b :
  In (link fw i t j, b) (map (fun m => let '(i, t, j) := m in (link fw i t j, on_path path i t j)) (lattice_moves n f p init)) <->
  In (i, t, j) (lattice_moves n f p init) /\ b = on_path path i t j.
Proof.
  rewrite in_map_iff. split.
  - intros [[[i' t'] j'] [E H]]. assert (E1 := f_equal fst E); assert (E2 := f_equal snd E). cbn [fst snd] in E1, E2.
    apply link_inj in E1 as [-> [-> ->]]. auto.
  - intros [H ->]. exists (i, t, j). auto.
Qed.
Lemma draws_edges ext n p init sy fw M path i t j :
  (exists b, In (link fw i t j, b) (la_edges (draws ext n p init sy fw M path))) <-> In (i, t, j) (lattice_moves n (length sy) p init).
Proof.
  destruct ext; cbn [draws].
  - rewrite ext_edges. split; [intros [b H]; apply map_link_in in H; tauto|]. intros H. exists (on_path path i t j). apply map_link_in. auto.
  - destruct fw.
    + rewrite std_fw_edges. split; [intros [b H]; apply map_link_in in H; tauto|]. intros H. exists (on_path path i t j). apply map_link_in. auto.
    + cbn [trellis_standard la_edges]. cbv zeta.
      assert (R : forall e, In e (map (fun m => let '(row, col, next) := m in ((next, S col), (row, col)) : lnode * lnode) (lattice_moves n (length sy) p init)) ->
                fst (fst e) < n /\ snd (fst e) < length sy).
      { intros e He. apply in_map_iff in He as [[[a b] c] [<- He]]. apply moves_in in He. cbn. lia. }
      rewrite in_combine_iff by (rewrite nx_length by exact R; now rewrite !map_length).
      rewrite nx_in, in_map_iff. cbn [link fst snd]. split.
      * intros [[[[a b] c] [E H]] _]. injection E as -> -> ->. exact H.
      * intros H. split; [exists (i, t, j); auto|]. apply moves_in in H. lia.
Qed.
Lemma draws_marked ext n p init sy fw M path : (ext = true \/ fw = true \/ (forall i j, i < n -> j < n -> ((0 < mget p i j)%Qc <-> (0 < mget p j i)%Qc))) ->
  forall i t j b, In (link fw i t j, b) (la_edges (draws ext n p init sy fw M path)) -> (b = true <-> path_step path i t j).
Proof.
  intros HC i t j b. rewrite <- on_path_iff. destruct ext; cbn [draws].
  - rewrite ext_edges. intros H. apply map_link_in in H as [_ ->]. reflexivity.
  - destruct fw.
    + rewrite std_fw_edges. intros H. apply map_link_in in H as [_ ->]. reflexivity.
    + destruct HC as [HC|[HC|HS]]; try discriminate. rewrite std_bw_edges.
      * rewrite in_map_iff. intros [[[i' t'] j'] [E _]]. assert (E1 := f_equal fst E); assert (E2 := f_equal snd E). cbn [fst snd] in E1, E2.
        apply link_inj in E1 as [-> [-> ->]]. now rewrite <- E2.
      * intros a c Ha Hc. destruct (Qcltb 0 (mget p a c)) eqn:E1, (Qcltb 0 (mget p c a)) eqn:E2; try reflexivity.
        -- apply Qcltb_lt, HS, Qcltb_lt in E1; auto. congruence.
        -- apply Qcltb_lt, HS, Qcltb_lt in E2; auto. congruence.
Qed.
