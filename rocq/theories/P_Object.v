(** P_Object: property theorems about chains as objects: equality, hashing, sharing,
    caching and default names. *)
From Coq Require Import DecimalString.
From Verif Require Import S_Object L_Object S_Cache L_Cache S_Gen M_Chain L_Gen1 M_Validation L_Labels.
From Coq Require Import String List Arith Bool.
Import ListNotations.
Close Scope Q_scope.
Open Scope nat_scope.

(** ** C03 equal chains have equal hashes *)
Theorem C03_hash_partial : forall enc hash c d, fc_eqb c d = true -> no_neg0 (fc_p c) -> no_neg0 (fc_p d) ->
  fc_hash enc hash c = fc_hash enc hash d.
Proof. exact hash_equal. Qed.
Print Assumptions C03_hash_partial.
Theorem C03_hmm_hash_partial : forall enc hash c d, fh_eqb c d = true -> no_neg0 (fh_p c) -> no_neg0 (fh_p d) -> no_neg0 (fh_e c) -> no_neg0 (fh_e d) ->
  fh_hash enc hash c = fh_hash enc hash d.
Proof. exact hash_equal_hmm. Qed.
Print Assumptions C03_hmm_hash_partial.
Theorem C03_hash_refuted : exists c d, fc_eqb c d = true /\
  forall enc hash, enc (0%Qc, false) <> enc (0%Qc, true) -> length (enc (0%Qc, false)) = length (enc (0%Qc, true)) ->
    (forall x y, hash x = hash y -> x = y) -> fc_hash enc hash c <> fc_hash enc hash d.
Proof. exact hash_differs. Qed.
Print Assumptions C03_hash_refuted.
Example C03_example : fc_eqb (chz false) (chz false) = true /\ no_neg0 (fc_p (chz false)) /\ fc_eqb (chz false) (chz true) = true
  /\ fc_eqb (chz false) (mkfchain (fc_p (chz false)) ["a"; "c"]%string) = false.
Proof.
  repeat split; try (vm_compute; reflexivity). intros r x [<-|[<-|[]]] [<-|[<-|[]]]; reflexivity.
Qed.

(** ** C04 observers cannot change a chain *)
Theorem C04_matrix_partial : forall cached_value computed_value derived w acts x m,
  reachable cached_value computed_value derived w ->
  avoids cached_value computed_value derived a_row w acts -> matrix_of w x = Some m ->
  matrix_of (history cached_value computed_value derived w acts) x = Some m.
Proof. exact matrix_kept. Qed.
Print Assumptions C04_matrix_partial.
Theorem C04_names_partial : forall cached_value computed_value derived w acts x l,
  reachable cached_value computed_value derived w ->
  avoids cached_value computed_value derived a_name_list w acts -> names_of w x = Some l ->
  names_of (history cached_value computed_value derived w acts) x = Some l.
Proof. exact names_kept. Qed.
Print Assumptions C04_names_partial.
Theorem C04_row_refuted : forall cached_value computed_value derived p names given i r, i < length p -> nth_error p i <> Some r ->
  let w := build p names given in
  let after := history cached_value computed_value derived w [ARow 0 i; AWriteRow 0 r] in
  matrix_of w 0 = Some p /\ exists q, matrix_of after 0 = Some q /\ nth_error q i = Some r /\ q <> p.
Proof. exact row_view_changes_matrix. Qed.
Print Assumptions C04_row_refuted.
Theorem C04_states_refuted : forall cached_value computed_value derived p names new,
  names_of (history cached_value computed_value derived (build p names false) [AStates 0; AWriteStr 0 new]) 0 = Some new.
Proof. exact states_list_changes_names. Qed.
Print Assumptions C04_states_refuted.
Theorem C04_argument_refuted : forall cached_value computed_value derived p names new,
  names_of (history cached_value computed_value derived (build p names true) [AWriteStr 0 new]) 0 = Some new.
Proof. exact argument_list_changes_names. Qed.
Print Assumptions C04_argument_refuted.
Theorem C04_derived_refuted : forall cached_value computed_value derived p names k new,
  names_of (history cached_value computed_value derived (build p names false) [ADerive 0 k; AStates 1; AWriteStr 0 new]) 0 = Some new.
Proof. exact derived_chain_changes_names. Qed.
Print Assumptions C04_derived_refuted.
Example C04_example :
  let cv := fun _ m _ => CMat m in let dv := fun _ m => m in let idm : mat := [[1; 0]; [0; 1]]%Qc in
  let w := build idm ["a"; "b"]%string true in
  let acts := [AMatrix 0; AWriteMat 0 []; ACached 0 3; AWriteMat 0 []; ADerive 0 1; ARow 1 0; AMatrix 0] in
  reachable cv cv dv w /\ avoids cv cv dv a_row w acts /\ avoids cv cv dv a_name_list w acts
  /\ matrix_of w 0 = Some idm /\ List.length (w_held (history cv cv dv w acts)) = 5.
Proof.
  cbv zeta. split; [exists [[1; 0]; [0; 1]]%Qc, ["a"; "b"]%string, true, []; reflexivity|].
  split; [|split; [|split; reflexivity]].
  all: repeat (split; [intros o H; try discriminate H; try (injection H as <-; intros Hc; (discriminate Hc || (destruct Hc as [Hc|Hc]; discriminate Hc)))|]); exact I.
Qed.

(** ** C05 cached properties are computed once *)
Theorem C05_cached_once_partial : forall plan requests sched, mc_plan plan -> let s := run plan (start requests) sched in
  forall o k, List.length (evals (s_log s) o k) <= 1 /\ forall v, completed s o k v -> evals (s_log s) o k = [v].
Proof. exact cached_once. Qed.
Print Assumptions C05_cached_once_partial.
Theorem C05_alias_refuted : exists requests sched, let s := run (fun _ => mc_reads) (start requests) sched in
  List.length (evals (s_alias s) 0 42) = 2 /\ evals (s_log s) 0 42 = [].
Proof. exact alias_again. Qed.
Print Assumptions C05_alias_refuted.
Example C05_example : mc_plan (fun _ => mc_reads) /\
  let s := run (fun _ => mc_reads) (start [[RProp 0 42]; [RProp 0 42]]) (concat (repeat [0; 1] 150)) in
  forallb (fun T => match t_results T with [] => false | _ => true end) (s_threads s) = true.
Proof. split; [intros o k d H; exact H|vm_compute; reflexivity]. Qed.

(** ** C92 reading cached properties cannot block forever *)
Theorem C92_no_deadlock : forall plan requests sched, mc_plan plan -> let s := run plan (start requests) sched in
  (forall t T, nth_error (s_threads s) t = Some T -> finished T) \/ exists t, step plan s t <> None.
Proof. exact no_deadlock. Qed.
Print Assumptions C92_no_deadlock.
Theorem C92_termination : forall plan requests, mc_plan plan -> exists N, forall sched, effective plan (start requests) sched <= N.
Proof. exact reads_bounded. Qed.
Print Assumptions C92_termination.
Example C92_example : mc_plan (fun _ => mc_reads) /\
  forallb (fun T => match t_stack T, t_todo T with [], [] => true | _, _ => false end)
    (s_threads (run (fun _ => mc_reads) (start [[RProp 0 42]; [RProp 0 42; RProp 1 3]]) (concat (repeat [0; 1] 200)))) = true.
Proof. split; [intros o k d H; exact H|vm_compute; reflexivity]. Qed.

(** ** C93 a cached result stays the same *)
Theorem C93_cached_value_partial : forall cached_value computed_value derived w acts x k c,
  reachable cached_value computed_value derived w ->
  avoids cached_value computed_value derived a_cached w acts -> cached_of w x k = Some c ->
  cached_of (history cached_value computed_value derived w acts) x k = Some c.
Proof. exact cached_kept. Qed.
Print Assumptions C93_cached_value_partial.
Theorem C93_cached_value_refuted : forall (cached_value computed_value : nat -> mat -> list string -> M_Object.cell) derived p names k m new, cached_value k p names = CMat m ->
  cached_of (history cached_value computed_value derived (build p names false) [ACached 0 k]) 0 k = Some (CMat m)
  /\ cached_of (history cached_value computed_value derived (build p names false) [ACached 0 k; AWriteMat 0 new]) 0 k = Some (CMat new).
Proof. exact cached_array_changes. Qed.
Print Assumptions C93_cached_value_refuted.
Example C93_example :
  let cv := fun _ m _ => CMat m in let dv := fun _ m => m in let idm : mat := [[1; 0]; [0; 1]]%Qc in
  let w := history cv cv dv (build idm ["a"; "b"]%string true) [ACached 0 3] in
  reachable cv cv dv w /\ cached_of w 0 3 = Some (CMat idm) /\ avoids cv cv dv a_cached w [AMatrix 0; AWriteMat 0 []; ARow 0 0; AWriteRow 0 []].
Proof.
  cbv zeta. split; [exists [[1; 0]; [0; 1]]%Qc, ["a"; "b"]%string, true, [ACached 0 3]; reflexivity|]. split; [reflexivity|].
  repeat (split; [intros o H; try discriminate H; try (injection H as <-; intros [k Hc]; discriminate Hc)|]); exact I.
Qed.

(** ** C69 default names *)
Theorem C69_default_names : forall n prefix,
  create_labels n prefix = map (fun k => String.append prefix (NilEmpty.string_of_uint (Nat.to_uint k))) (seq 1 n) /\
  List.length (create_labels n prefix) = n /\ NoDup (create_labels n prefix).
Proof. exact default_names. Qed.
Print Assumptions C69_default_names.
Theorem C69_hmm_default_names : forall n m, NoDup (create_labels n "P" ++ create_labels m "E").
Proof. exact hmm_default_names. Qed.
Print Assumptions C69_hmm_default_names.
Theorem C69_used : forall caller p e o, construct_hmm caller p e PNone PNone = Ok o ->
  ho_states o = create_labels (nrows (ho_p o)) "P" /\ ho_symbols o = create_labels (ncols (ho_e o)) "E" /\ NoDup (ho_states o ++ ho_symbols o).
Proof. exact hmm_names_used. Qed.
Print Assumptions C69_used.
Example C69_example : create_labels 11 "" = ["1"; "2"; "3"; "4"; "5"; "6"; "7"; "8"; "9"; "10"; "11"]%string /\ create_labels 2 "E" = ["E1"; "E2"]%string.
Proof. split; vm_compute; reflexivity. Qed.
