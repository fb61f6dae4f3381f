(** L_Labels: default names are distinct. *)
From Coq Require Import DecimalString.
From Verif Require Import S_Gen M_Chain L_Gen1 M_Validation.
From Coq Require Import String Ascii List Arith Bool.
Import ListNotations.
Close Scope Q_scope.
Open Scope nat_scope.
Open Scope res_scope.

Lemma default_names n prefix :
  create_labels n prefix = map (fun k => String.append prefix (NilEmpty.string_of_uint (Nat.to_uint k))) (seq 1 n) /\
  List.length (create_labels n prefix) = n /\ NoDup (create_labels n prefix).
Proof. destruct (create_labels_ok n prefix) as (A & B & _). split; [reflexivity|auto]. Qed.

Lemma prefix_first n c s : In s (create_labels n (String c "")) -> exists r, s = String c r.
Proof. unfold create_labels. intros H. apply in_map_iff in H. destruct H as (i & <- & _). eexists. reflexivity. Qed.

Lemma nodup_app {A} (l m : list A) : NoDup l -> NoDup m -> (forall x, In x l -> In x m -> False) -> NoDup (l ++ m).
Proof.
  intros H1 H2 H. induction H1 as [|x l Hx H1 IH]; [exact H2|]. cbn. constructor.
  - rewrite in_app_iff. intros [K|K]; [auto|]. exact (H x (or_introl eq_refl) K).
  - apply IH. intros y Hy. apply H. right. exact Hy.
Qed.
Lemma hmm_default_names n m : NoDup (create_labels n "P" ++ create_labels m "E").
Proof.
  apply nodup_app; try apply default_names. intros x H1 H2. apply prefix_first in H1. apply prefix_first in H2.
  destruct H1 as [r ->], H2 as [r' E]. discriminate.
Qed.
Lemma hmm_names_used caller p e o : construct_hmm caller p e PNone PNone = Ok o ->
  ho_states o = create_labels (nrows (ho_p o)) "P" /\ ho_symbols o = create_labels (ncols (ho_e o)) "E" /\ NoDup (ho_states o ++ ho_symbols o).
Proof.
  unfold construct_hmm. intros H. destruct (negb _) in H; [|discriminate H]. cbv iota in H.
  destruct (v_transition_matrix p None) as [P|] eqn:E1; [|discriminate]. cbn [bind] in H.
  destruct (v_emission_matrix e (nrows P)) as [E|] eqn:E2; [|discriminate]. cbn [bind] in H.
  destruct (forallb _ _) in H; [|discriminate]. cbv iota in H. injection H as <-. cbn [ho_states ho_symbols ho_p ho_e]. split; [reflexivity|]. split; [reflexivity|apply hmm_default_names].
Qed.
