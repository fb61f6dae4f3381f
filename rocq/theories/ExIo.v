(** ExIo: example data for dictionaries, graphs and files. *)
From Verif Require Import S_Files S_Graph Ex.
Open Scope nat_scope.

(** Five numbers and the way Python writes them; other numbers are not used. *)
Definition printed : list (Qc * string) :=
  [(0q, "0.0"%string); (1q, "1.0"%string); (Q2Qc (1#2), "0.5"%string); (Q2Qc (1#4), "0.25"%string); (Q2Qc (3#4), "0.75"%string);
   (Q2Qc (2#1), "2.0"%string); ((- 1q)%Qc, "-1.0"%string)].
Definition show0 (x : num) : text :=
  match x with
  | Fin q => match find (fun e => Qceqb (fst e) q) printed with Some e => chars (snd e) | None => chars "0.1" end
  | _ => chars "nan"
  end.
Definition float0 (t : text) : option num :=
  match find (fun e => String.eqb (snd e) (str t)) printed with Some e => Some (Fin (fst e)) | None => None end.
Lemma show0_ok q : In q [0; 1; Q2Qc (1#2); Q2Qc (1#4); Q2Qc (3#4)]%Qc -> decimal (show0 (Fin q)) /\ survives show0 float0 (Fin q).
Proof.
  assert (D : forall a b, digits b -> b <> [] -> (a = "0"%char \/ a = "1"%char) -> decimal (a :: "."%char :: b)).
  { intros a b Hb Hne Ha. exists [a], ("."%char :: b), []. split; [rewrite app_nil_r; reflexivity|]. split.
    - destruct Ha as [->| ->]; [left; reflexivity|right]. exists "1"%char, []. split; [reflexivity|]. split; [left; reflexivity|intros c []].
    - split; [right; exists b; auto|left; reflexivity]. }
  assert (Dg : forall t, forallb (fun c => existsb (Ascii.eqb c) (chars "0123456789")) t = true -> digits t).
  { intros t H c Hc. rewrite forallb_forall in H. specialize (H c Hc). apply existsb_exists in H. destruct H as (d & Hd & E). apply Ascii.eqb_eq in E. subst. exact Hd. }
  intros [<-|[<-|[<-|[<-|[<-|[]]]]]]; (split; [apply D; [apply Dg; reflexivity|discriminate|auto]|reflexivity]).
Qed.
Definition pIo : mat := [[Q2Qc (1#2); Q2Qc (1#2)]; [Q2Qc (1#4); Q2Qc (3#4)]].
Definition named (a b : string) : chain := mkchain pIo [a; b].
Lemma pIo_stochastic : stochastic 2 pIo.
Proof. split; [|split]; [split; [reflexivity|intros r [<-|[<-|[]]]; reflexivity]| |]; [intros [|[|i]] [|[|j]] Hi Hj; try lia; discriminate|]. intros [|[|i]] Hi; try lia; apply Qc_is_canon; reflexivity. Qed.
Lemma named_names a b : a <> b -> nonblank a = true -> nonblank b = true -> names_ok 2 [a; b].
Proof. intros H Ha Hb. split; [reflexivity|]. split; [repeat constructor; [intros [E|[]]; congruence|intros []]|]. intros s [<-|[<-|[]]]; assumption. Qed.
Lemma pIo_ok : probabilities 2 2 pIo /\ nearly_stochastic 2 2 pIo.
Proof.
  split; [intros [|[|i]] [|[|j]] Hi Hj; try lia; split; discriminate|]. intros i Hi. destruct pIo_stochastic as (_ & _ & H). rewrite (H i Hi). split; discriminate.
Qed.
Lemma named_ok a b : a <> b -> nonblank a = true -> nonblank b = true -> accepted_chain 2 (named a b).
Proof.
  intros H Ha Hb. split; [lia|]. split; [apply pIo_stochastic|]. split; [apply pIo_ok|]. split; [apply pIo_ok|]. apply named_names; assumption.
Qed.
Lemma pIo_prints : prints show0 float0 2 2 pIo.
Proof. intros [|[|i]] [|[|j]] Hi Hj; try lia; apply show0_ok; cbn; auto 9. Qed.
(** A hidden Markov model with these matrices. *)
Definition hIo (a b x y : string) : hobj := mkhobj pIo pIo [a; b] [x; y].
Lemma hIo_ok a b x y : NoDup [a; b; x; y] -> forallb nonblank [a; b; x; y] = true -> accepted_hmm 2 2 (hIo a b x y).
Proof.
  intros HD HB. cbn in HB. apply andb_true_iff in HB. destruct HB as [B1 HB]. apply andb_true_iff in HB. destruct HB as [B2 HB]. apply andb_true_iff in HB. destruct HB as [B3 HB]. apply andb_true_iff in HB. destruct HB as [B4 _].
  inversion HD as [|? ? D1 HD1]; subst. inversion HD1 as [|? ? D2 HD2]; subst. inversion HD2 as [|? ? D3 _]; subst. cbn in D1, D2, D3.
  split; [lia|]. split; [lia|]. split; [apply pIo_stochastic|]. split; [apply pIo_ok|]. split; [apply pIo_ok|]. split; [apply pIo_stochastic|]. split; [apply pIo_ok|]. split; [apply pIo_ok|].
  split; [apply named_names; auto; intros ->; tauto|]. split; [apply named_names; auto; intros ->; tauto|].
  intros s [<-|[<-|[]]] [E|[E|[]]]; subst; tauto.
Qed.
