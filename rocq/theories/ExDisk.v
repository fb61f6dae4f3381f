(** ExDisk: example data for files on disk. *)
From Verif Require Import S_Disk S_Graph Ex ExIo L_Disk.
Open Scope nat_scope.

(** Some numbers with the texts Python writes for them, and texts it reads without
    writing them; other numbers and texts are not used. *)
Definition printedD : list (Qc * string) :=
  [(0q, "0.0"%string); (1q, "1.0"%string); (Q2Qc (1#2), "0.5"%string); (Q2Qc (333333#1000000), "0.333333"%string); (Q2Qc (666667#1000000), "0.666667"%string);
   (Q2Qc (1#100000), "1e-05"%string); (Q2Qc (99999#100000), "0.99999"%string)].
Definition readD : list (Qc * string) := [(Q2Qc (66666#100000), "0.66666"%string); (1q, "1"%string)].
Definition showD (x : num) : text :=
  match x with
  | Fin q => match find (fun e => Qceqb (fst e) q) printedD with Some e => chars (snd e) | None => chars "0.1" end
  | _ => chars "nan"
  end.
Definition floatD (t : text) : option num :=
  match find (fun e => String.eqb (snd e) (str t)) (printedD ++ readD) with Some e => Some (Fin (fst e)) | None => None end.
Lemma showD_ok q : In q (map fst printedD) -> decimal (showD (Fin q)) /\ survives showD floatD (Fin q).
Proof.
  assert (Dg : forall t, forallb (fun c => existsb (Ascii.eqb c) (chars "0123456789")) t = true -> digits t).
  { intros t H c Hc. rewrite forallb_forall in H. specialize (H c Hc). apply existsb_exists in H. destruct H as (d & Hd & E). apply Ascii.eqb_eq in E. subst. exact Hd. }
  assert (D : forall a b, digits b -> b <> [] -> (a = "0"%char \/ a = "1"%char) -> decimal (a :: "."%char :: b)).
  { intros a b Hb Hne Ha. exists [a], ("."%char :: b), []. split; [rewrite app_nil_r; reflexivity|]. split.
    - destruct Ha as [->| ->]; [left; reflexivity|right]. exists "1"%char, []. split; [reflexivity|]. split; [left; reflexivity|intros c []].
    - split; [right; exists b; auto|left; reflexivity]. }
  intros [<-|[<-|[<-|[<-|[<-|[<-|[<-|[]]]]]]]]; (split; [|reflexivity]); try (apply D; [apply Dg; reflexivity|discriminate|auto]).
  exists ["1"%char], [], (chars "e-05"). split; [reflexivity|]. split; [right; exists "1"%char, []; split; [reflexivity|]; split; [left; reflexivity|intros c []]|]. split; [left; reflexivity|]. right. exists ["-"%char], (chars "05"). split; [reflexivity|]. split; [auto|]. split; [discriminate|]. apply Dg. reflexivity.
Qed.
Definition pD : mat := [[Q2Qc (1#2); Q2Qc (1#2)]; [Q2Qc (333333#1000000); Q2Qc (666667#1000000)]].
Definition cD : chain := mkchain pD ["a"%string; "b"%string].
Lemma pD_ok : probabilities 2 2 pD /\ nearly_stochastic 2 2 pD.
Proof. split; [intros [|[|i]] [|[|j]] Hi Hj; try lia; split; vm_compute; discriminate|]. intros [|[|i]] Hi; try lia; split; vm_compute; discriminate. Qed.
Lemma pD_wf : wf 2 2 pD.
Proof. split; [reflexivity|intros r [<-|[<-|[]]]; reflexivity]. Qed.
Lemma pD_prints : prints showD floatD 2 2 pD.
Proof. intros [|[|i]] [|[|j]] Hi Hj; try lia; apply showD_ok; cbn; auto 9. Qed.
Lemma cD_names : names_ok 2 ["a"%string; "b"%string].
Proof. apply named_names; [discriminate|reflexivity|reflexivity]. Qed.
Lemma cD_ok : accepted_chain 2 cD.
Proof. split; [lia|]. split; [exact pD_wf|]. split; [apply pD_ok|]. split; [apply pD_ok|exact cD_names]. Qed.
Lemma letter_fits limit nul_ok f s : 3 <= limit -> In s ["a"; "b"; "x"; "y"; "z"]%string -> name_fits limit nul_ok f s /\ hmm_name_fits limit nul_ok f s.
Proof.
  intros HL Hs. assert (HT : forall s x, chars s = [x] -> is_space x = false -> trimmed s).
  { intros s' x E Hx c r [H|H]; rewrite E in H; [injection H as <- _; exact Hx|]. destruct r as [|y r]; [injection H as <-; exact Hx|]. destruct r; discriminate. }
  assert (HE : exists x, chars s = [x] /\ is_space x = false /\ 32 <= nat_of_ascii x) by (destruct Hs as [<-|[<-|[<-|[<-|[<-|[]]]]]]; eexists; (split; [reflexivity|]); (split; [reflexivity|]); vm_compute; lia).
  destruct HE as (x & Ex & Hx & H32).
  assert (HN : no_nul s) by (unfold no_nul; rewrite Ex; intros [C|[]]; rewrite C in H32; vm_compute in H32; lia).
  assert (HF : name_fits limit nul_ok f s).
  { destruct f; cbn.
    - rewrite Ex. cbn [length]. split; [lia|right; exact HN].
    - exact I.
    - intros c Hc. rewrite Ex in Hc. destruct Hc as [<-|[]]. exact Hx.
    - split; [exact (HT s x Ex Hx)|]. intros c Hc. rewrite Ex in Hc. destruct Hc as [<-|[]]. left. exact H32. }
  split; [exact HF|]. destruct f; try exact HF. cbn. rewrite Ex. cbn [length]. split; [lia|]. split; [right; exact HN|]. intros c r H. destruct r as [|y r]; [injection H as <-; exact Hx|]. destruct r; discriminate.
Qed.
Lemma cD_writable nul_ok f : writable_chain showD floatD 20 nul_ok 2 f cD.
Proof.
  split; [exact cD_ok|]. split; [exact pD_prints|]. split; [intros _ [|[|i]] [|[|j]] Hi Hj; try lia; vm_compute; lia|]. intros s Hs. apply letter_fits; [lia|]. cbn in Hs. cbn. tauto.
Qed.
(** a hidden Markov model with a small entry in its last row *)
Definition eD : mat := [[Q2Qc (1#2); Q2Qc (1#2); 0q]; [0q; Q2Qc (1#100000); Q2Qc (99999#100000)]].
Definition hD : hobj := mkhobj pD eD ["a"%string; "b"%string] ["x"%string; "y"%string; "z"%string].
Lemma hD_ok : accepted_hmm 2 3 hD.
Proof.
  split; [lia|]. split; [lia|]. split; [exact pD_wf|]. split; [apply pD_ok|]. split; [apply pD_ok|]. split; [split; [reflexivity|intros r [<-|[<-|[]]]; reflexivity]|].
  split; [intros [|[|i]] [|[|[|j]]] Hi Hj; try lia; split; vm_compute; discriminate|]. split; [intros [|[|i]] Hi; try lia; split; vm_compute; discriminate|]. split; [exact cD_names|]. split.
  - split; [reflexivity|]. split; [repeat constructor; cbn; intuition discriminate|]. intros s [<-|[<-|[<-|[]]]]; reflexivity.
  - intros s [<-|[<-|[]]] C; cbn in C; intuition discriminate.
Qed.
Lemma hD_writable nul_ok f : writable_hmm showD floatD 20 nul_ok 2 3 f hD.
Proof.
  split; [exact hD_ok|]. split; [exact pD_prints|]. split; [intros [|[|i]] [|[|[|j]]] Hi Hj; try lia; apply showD_ok; cbn; auto 9|].
  split; [intros _; split; [intros [|[|i]] [|[|j]] Hi Hj; try lia; vm_compute; lia|intros [|[|i]] [|[|[|j]]] Hi Hj; try lia; vm_compute; lia]|].
  intros s Hs. apply letter_fits; [lia|]. cbn in Hs. cbn. intuition auto.
Qed.
(** a system that allows everything, and one whose locale only has ASCII *)
Definition free : system := mksystem (fun _ => true) (fun _ => true) (fun _ => true) (fun _ => true).
Definition plain_ascii : system := mksystem (fun _ => true) (fun _ => true) (fun _ => true) (fun c => Nat.ltb (nat_of_ascii c) 128).
Definition csv_path : path := path_of (chars "/data/model.csv").
Definition txt_path : path := path_of (chars "/data/Model.TXT").
(** a name with the letter e-acute *)
Definition accented : string := String "t"%char (String (ascii_of_nat 233) EmptyString).
Definition cE : chain := mkchain pD [accented; "b"%string].
Lemma cE_ok : accepted_chain 2 cE.
Proof. split; [lia|]. split; [exact pD_wf|]. split; [apply pD_ok|]. split; [apply pD_ok|]. apply named_names; [discriminate|reflexivity|reflexivity]. Qed.
Lemma cE_writable nul_ok : writable_chain showD floatD 20 nul_ok 2 Csv cE.
Proof.
  split; [exact cE_ok|]. split; [exact pD_prints|]. split; [intros _ [|[|i]] [|[|j]] Hi Hj; try lia; vm_compute; lia|].
  intros s [<-|[<-|[]]]; (split; [vm_compute; lia|right; intros C; vm_compute in C; intuition discriminate]).
Qed.

(** ** Findings *)
(** a dot inside the name *)
Lemma dotted_has : has_extension (chars "model.v2.csv") Csv.
Proof. exists (chars "model.v2"), (chars "csv"). split; [reflexivity|]. split; [reflexivity|]. exists "m"%char. split; [left; reflexivity|discriminate]. Qed.
Lemma dotted_refused show float limit nul_ok sys fs p f c : has_extension (p_name p) f -> ~ one_dot (p_name p) ->
  save show sys p c = ([], Err ValueErr) /\ load float limit nul_ok sys fs p = Err ValueErr.
Proof.
  intros H1 H2. pose proof (extension_refused _ _ H1 H2) as E. split.
  - apply save_refused. left. intros f' C. congruence.
  - unfold load, check_read. rewrite E. reflexivity.
Qed.
Lemma dotted_not_one : ~ one_dot (chars "model.v2.csv").
Proof. intros H. assert (E : format_of (chars "model.v2.csv") = Ok Csv) by (apply format_one_dot; split; [exact H|exact dotted_has]). discriminate. Qed.
(** A failed save has emptied the file that was there. *)
Lemma failed_save nul_ok : exists es1 es2 fs1, writable_chain showD floatD 20 nul_ok 2 Csv cE
  /\ save showD plain_ascii csv_path cD = (es1, Ok tt) /\ fs1 = perform es1 [] /\ load floatD 20 nul_ok plain_ascii fs1 csv_path = Ok (as_object cD)
  /\ save showD plain_ascii csv_path cE = (es2, Err ValueErr) /\ contents (perform es2 fs1) csv_path = Some [] /\ load floatD 20 nul_ok plain_ascii (perform es2 fs1) csv_path = Err ValueErr.
Proof.
  eexists _, _, _. split; [apply cE_writable|]. split; [vm_compute; reflexivity|]. split; [reflexivity|].
  split. { destruct nul_ok; vm_compute; reflexivity. }
  split; [vm_compute; reflexivity|]. split; vm_compute; reflexivity.
Qed.
(** A crash leaves a file that is read as another chain. *)
Definition torn_p : mat := [[Q2Qc (1#2); Q2Qc (1#2)]; [Q2Qc (333333#1000000); Q2Qc (66666#100000)]].
Definition cut_at (k : nat) (t : text) : text := firstn (length t - k) t.
Lemma torn_chain nul_ok : exists es fs' o, writable_chain showD floatD 20 nul_ok 2 Csv cD
  /\ save showD free csv_path cD = (es, Ok tt) /\ crash [] es fs' /\ load floatD 20 nul_ok free fs' csv_path = Ok o
  /\ o = as_object (mkchain torn_p ["a"%string; "b"%string]) /\ o <> as_object cD.
Proof.
  destruct (to_file showD Csv cD) as [t|e] eqn:E; [|vm_compute in E; discriminate]. eexists _, (apply (Append csv_path (cut_at 3 t)) (store (store [] csv_path []) csv_path [])), _. split; [apply cD_writable|].
  split; [unfold save, save_text; change (check_write free csv_path) with ([Truncate csv_path], Ok Csv); cbn match beta; rewrite E; unfold write_out; replace (forallb (can_encode free) t) with true by (symmetry; apply forallb_forall; reflexivity); reflexivity|].
  split; [apply crash_later, crash_later, crash_torn|]. vm_compute in E. injection E as <-. split; [destruct nul_ok; vm_compute; reflexivity|]. split; [f_equal; vm_compute; reflexivity|].
  intros C. apply (f_equal (fun o => match nth 1 (nth 1 (r_p o) []) NaN with Fin q => q | _ => 0q end)) in C. revert C. apply Qceqb_neq. vm_compute. reflexivity.
Qed.
(** A crash leaves a file that is read as a hidden Markov model with another emission row. *)
Definition torn_e : mat := [[Q2Qc (1#2); Q2Qc (1#2); 0q]; [0q; 1q; 0q]].
Lemma torn_hmm nul_ok : exists es fs' o, writable_hmm showD floatD 20 nul_ok 2 3 Txt hD
  /\ hmm_save showD free txt_path hD = (es, Ok tt) /\ crash [] es fs' /\ hmm_load floatD 20 nul_ok free fs' txt_path = Ok o
  /\ o = as_hmm_object (mkhobj (ho_p hD) torn_e (ho_states hD) (ho_symbols hD)) /\ mget (ho_e hD) 1 1 = Q2Qc (1#100000) /\ mget torn_e 1 1 = 1q.
Proof.
  destruct (hmm_to_file showD Txt hD) as [t|e] eqn:E; [|vm_compute in E; discriminate]. eexists _, (apply (Append txt_path (cut_at 19 t)) (store (store [] txt_path []) txt_path [])), _. split; [apply hD_writable|].
  split; [unfold hmm_save, save_text; change (check_write free txt_path) with ([Truncate txt_path], Ok Txt); cbn match beta; rewrite E; unfold write_out; replace (forallb (can_encode free) t) with true by (symmetry; apply forallb_forall; reflexivity); reflexivity|].
  split; [apply crash_later, crash_later, crash_torn|]. vm_compute in E. injection E as <-. split; [destruct nul_ok; vm_compute; reflexivity|]. split; [f_equal; vm_compute; reflexivity|]. split; reflexivity.
Qed.
