(** P_Bw: property theorems about fitting hidden Markov models. *)
From Verif Require Import L_Bw3.
From Coq Require Import Reals.
Close Scope R_scope.
Open Scope nat_scope.
Open Scope res_scope.

(** ** C113 Baum-Welch: expected counts, likelihood never decreases *)
Theorem C113_counts : forall n k P E x obs, 0 < n -> hmm_ok n k P E x -> obs_ok k obs ->
  match fit_baum_welch n k P E x obs with
  | Some (pc, ec) => tractable n P E x obs /\ (0 < likelihood n P E x obs)%Qc /\ wf n n pc /\ wf n k ec /\
      (forall u v, u < n -> v < n -> mget pc u v = mean_moves n P E x obs u v) /\
      (forall u y, u < n -> y < k -> mget ec u y = mean_symbols n P E x obs u y)
  | None => ~ tractable n P E x obs
  end.
Proof. exact bw_counts. Qed.
Print Assumptions C113_counts.
Theorem C113_iterations : forall states symbols k P E seqs x conv h, hmm_ok (length states) k P E x ->
  fit FitBW states symbols P E seqs (Some x) conv = Ok h ->
  exists m (tr : nat -> mat * mat), 1 <= m <= 500 /\ tr 0 = (P, E) /\ tr m = (h_p h, h_e h) /\ conv (m - 1) = true /\ (forall j, j < m - 1 -> conv j = false) /\
    forall j, j < m -> iteration (length states) k x seqs (fst (tr j)) (snd (tr j)) (fst (tr (S j))) (snd (tr (S j))).
Proof. exact fit_trace. Qed.
Print Assumptions C113_iterations.
Theorem C113_default_start : forall ft states symbols P E seqs conv, fit ft states symbols P E seqs None conv = fit ft states symbols P E seqs (Some (tab (length states) (fun _ => 1 / Qcn (length states))%Qc)) conv.
Proof. exact fit_default. Qed.
Print Assumptions C113_default_start.
Theorem C113_single_sequence : forall states symbols k P E s x conv h, hmm_ok (length states) k P E x ->
  fit FitBW states symbols P E [s] (Some x) conv = Ok h ->
  (0 < likelihood (length states) P E x s)%Qc /\ (likelihood (length states) P E x s <= likelihood (length states) (h_p h) (h_e h) x s)%Qc.
Proof. exact fit_single. Qed.
Print Assumptions C113_single_sequence.
Example C113_example : hmm_ok 2 3 pH eH xU /\ obs_ok 3 obsH /\
  match fit FitBW ["A"; "B"]%string ["u"; "v"; "w"]%string pH eH [obsH] (Some xU) (fun _ => true) with
  | Ok h => showm (h_p h) = [[538 # 945; 407 # 945]; [2797 # 8565; 5768 # 8565]]%Q
  | Err _ => False
  end.
Proof.
  split; [split; [apply stochasticb_ok; vm_compute; reflexivity|]; split; [apply row_stochasticb_ok; vm_compute; reflexivity|apply distributionb_ok; vm_compute; reflexivity]|].
  split; [intros o H; cbn in H; lia|vm_compute; reflexivity].
Qed.

(** ** C114 fitting by decoded paths *)
Theorem C114_single_sequence_partial : forall ft states symbols k P E s x conv h, ft <> FitBW -> hmm_ok (length states) k P E x ->
  fit ft states symbols P E [s] (Some x) conv = Ok h ->
  exists P0 E0 w, hmm_ok (length states) k P0 E0 x /\ decoded ft P0 E0 x s w /\
    normalised_counts (length states) (length states) (seen_moves w) (h_p h) /\ normalised_counts (length states) k (seen_symbols w s) (h_e h).
Proof. exact fit_path_single. Qed.
Print Assumptions C114_single_sequence_partial.
Theorem C114_several_sequences_refuted : exists h, hmm_ok 2 2 pF eF xU /\ fit FitViterbi ["A"; "B"]%string ["u"; "v"]%string pF eF [sF1; sF2] (Some xU) (fun _ => true) = Ok h /\
  decoded FitViterbi pF eF xU sF1 sF1 /\ decoded FitViterbi pF eF xU sF2 sF2 /\
  ~ normalised_counts 2 2 (fun u v => seen_moves sF1 u v + seen_moves sF2 u v)%Qc (h_p h).
Proof. exact fit_path_pooled. Qed.
Print Assumptions C114_several_sequences_refuted.
Example C114_example : hmm_ok 2 2 pF eF xU /\
  match fit FitViterbi ["A"; "B"]%string ["u"; "v"]%string pF eF [sF2 ++ [0]] (Some xU) (fun _ => true) with
  | Ok h => showm (h_p h) = [[2 # 3; 1 # 3]; [1 # 2; 1 # 2]]%Q
  | Err _ => False
  end.
Proof.
  split; [split; [apply stochasticb_ok; vm_compute; reflexivity|]; split; [apply row_stochasticb_ok; vm_compute; reflexivity|apply distributionb_ok; vm_compute; reflexivity]|].
  vm_compute; reflexivity.
Qed.
