(** L_TFun: proofs about the call of the transition function. *)
From Coq Require Import Permutation.
From Verif Require Import M_TFun L_FittingR.
Open Scope nat_scope.
Open Scope res_scope.

Definition four : list par := [XIndex; XValue; YIndex; YValue].
(** What the documentation says: each name stands for its own quantity *)
Definition by_name (f : pyfun) (i : nat) (x : Qc) (j : nat) (y : Qc) : option Qc :=
  pf_body f (fun p => match p with XIndex => Qcn i | XValue => x | YIndex => Qcn j | YValue => y | OtherPar _ => 0q end).
(** Names are distinct in Python, and a function only sees its own parameters *)
Definition function_ok (f : pyfun) : Prop :=
  NoDup (pf_pars f) /\ forall e e', (forall p, In p (pf_pars f) -> e p = e' p) -> pf_body f e = pf_body f e'.
Lemma accepted_names f : function_ok f -> forall g, validate_transition_function f = Ok g -> g = f /\ Permutation (pf_pars f) four.
Proof.
  intros [N _] g H. unfold validate_transition_function in H. destruct (Nat.eqb_spec (length (pf_pars f)) 4) as [L|]; [|discriminate]. cbn [bind] in H.
  destruct (forallb valid_par (pf_pars f)) eqn:V; [|discriminate]. destruct (call f _); [|discriminate]. injection H as <-. split; [reflexivity|].
  apply NoDup_Permutation_bis; [exact N|cbn; lia|]. intros p I. rewrite forallb_forall in V. specialize (V p I). destruct p; cbn in *; auto. discriminate.
Qed.
Lemma call_in_order f i x j y : function_ok f -> pf_pars f = four -> call f [Qcn i; x; Qcn j; y] = by_name f i x j y.
Proof.
  intros [_ E] P. unfold call, by_name. apply E. rewrite P. intros p I. cbn in I. destruct I as [<-|[<-|[<-|[<-|[]]]]]; reflexivity.
Qed.
Lemma fit_in_order t states f o c : function_ok f -> pf_pars f = four -> fit_pyfun t states f o = Ok c ->
  exists g, (forall i x j y, g i x j y = by_name f i x j y) /\ fit_function t states g o = Ok c.
Proof.
  intros Hf P H. unfold fit_pyfun in H. destruct (validate_transition_function f) as [g|e] eqn:E; cbn [bind] in H; [|discriminate].
  destruct (accepted_names f Hf g E) as [-> _]. exists (fun i x j y => call f [Qcn i; x; Qcn j; y]). split; [intros; apply call_in_order; assumption|exact H].
Qed.
Definition swapped : pyfun := mkpyfun [YIndex; YValue; XIndex; XValue] (fun e => Some (1 + e XIndex * e YIndex + e YIndex)%Qc).
Lemma swapped_ok : function_ok swapped.
Proof.
  split; [|intros e e' H; cbn; rewrite (H XIndex), (H YIndex) by (cbn; auto); reflexivity].
  cbn. repeat constructor; cbn; intros I; repeat (destruct I as [I|I]; [discriminate I|]); destruct I.
Qed.
Lemma order_ignored : exists f states c d, function_ok f /\ fit_pyfun QNewton states f None = Ok c /\ fit_function QNewton states (by_name f) None = Ok d /\ mget (ch_p c) 0 0 <> mget (ch_p d) 0 0.
Proof.
  exists swapped, names2. eexists. eexists. split; [exact swapped_ok|]. split; [vm_compute; reflexivity|]. split; [vm_compute; reflexivity|].
  intros E. apply Qceqb_eq in E. vm_compute in E. discriminate E.
Qed.
