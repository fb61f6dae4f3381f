(** P_HmmRandom: property C123, random hidden Markov models.
    The random generator is the argument pair dp, de (draws for the two matrices); draws_ok2 says what numpy guarantees about it. *)
From Verif Require Import L_HmmRandom.
Open Scope nat_scope.
Open Scope res_scope.

(** * C123: random hidden Markov models *)
(** What is returned: matrices that keep every probability fixed by the masks, nonnegative, with incomplete rows summing
    to one and at least the requested number of zeros (exactly that number when the mask completes no row);
    valid names for states and symbols, which have no name in common. *)
Theorem C123_model_partial : forall n k st pz pm sy ez em dp de h, hmm_random n k st pz pm sy ez em dp de = Ok h ->
  let N := Z.to_nat n in let K := Z.to_nat k in
  let vp := mval (random_mask N N pm) in let ve := mval (random_mask N K em) in
  draws_ok2 N N vp dp -> draws_ok2 N K ve de ->
  2 <= N /\ 2 <= K /\ follows_mask N N vp pz (h_p h) /\ follows_mask N K ve ez (h_e h) /\
  names_ok N (h_states h) /\ h_states h = match st with Some l => l | None => map (fun i => String.append "P" (dec i)) (seq 1 N) end /\
  names_ok K (h_symbols h) /\ h_symbols h = match sy with Some l => l | None => map (fun i => String.append "E" (dec i)) (seq 1 K) end /\
  (forall s, In s (h_states h) -> ~ In s (h_symbols h)).
Proof. exact hmm_random_spec. Qed.
Example C123_example : exists h, hmm_random 2 2 None 1 (Some maskR) (Some ["a"; "b"]%string) 1 (Some freeR) drawsR drawsE = Ok h /\
  draws_ok2 2 2 (mval (random_mask 2 2 (Some maskR))) drawsR /\ draws_ok2 2 2 (mval (random_mask 2 2 (Some freeR))) drawsE /\ h_symbols h = ["a"; "b"]%string /\ mget (h_e h) 0 0 <> 0q.
Proof. exact hmm_random_example. Qed.
Print Assumptions C123_model_partial.

(** When the rows the masks complete sum to exactly one, both matrices are stochastic. *)
Theorem C123_stochastic_partial : forall n k st pz pm sy ez em dp de h, hmm_random n k st pz pm sy ez em dp de = Ok h ->
  let N := Z.to_nat n in let K := Z.to_nat k in
  let vp := mval (random_mask N N pm) in let ve := mval (random_mask N K em) in
  draws_ok2 N N vp dp -> draws_ok2 N K ve de ->
  (forall i, i < N -> row_complete N vp i = true -> mask_sum N vp i = 1q) -> (forall i, i < N -> row_complete K ve i = true -> mask_sum K ve i = 1q) ->
  stochastic N (h_p h) /\ row_stochastic N K (h_e h).
Proof. exact hmm_random_stochastic. Qed.
Example C123_stochastic_example : (forall i, i < 2 -> row_complete 2 (mval maskR) i = true -> mask_sum 2 (mval maskR) i = 1q) /\ row_complete 2 (mval maskR) 0 = true /\
  (forall i, i < 2 -> row_complete 2 (mval freeR) i = true -> mask_sum 2 (mval freeR) i = 1q).
Proof.
  split; [|split; [vm_compute; reflexivity|]]; intros [|[|i]] Hi C; try lia; try (vm_compute in C; discriminate). apply Qceqb_eq; vm_compute; reflexivity.
Qed.
Print Assumptions C123_stochastic_partial.

(** Every request within the capacity of well-formed masks succeeds, whatever the draws. *)
Theorem C123_total_partial : forall n k pz pm ez em dp de,
  let N := Z.to_nat n in let K := Z.to_nat k in
  let vp := mval (random_mask N N pm) in let ve := mval (random_mask N K em) in
  (2 <= n)%Z -> (2 <= k)%Z -> given_mask_valid N N pm -> given_mask_valid N K em ->
  (0 <= pz <= Z.of_nat (capacity N N vp))%Z -> (0 <= ez <= Z.of_nat (capacity N K ve))%Z ->
  (forall i, i < N -> row_complete N vp i = true \/ 0 < free_cells N vp i) -> (forall i, i < N -> row_complete K ve i = true \/ 0 < free_cells K ve i) ->
  exists h, hmm_random n k None pz pm None ez em dp de = Ok h.
Proof. exact hmm_random_total. Qed.
Example C123_total_example : given_mask_valid 2 2 (Some maskR) /\ given_mask_valid 2 2 None /\
  capacity 2 2 (mval maskR) = 1 /\ capacity 2 2 (mval (random_mask 2 2 None)) = 2 /\ row_complete 2 (mval maskR) 0 = true /\ free_cells 2 (mval maskR) 1 = 2 /\
  (forall i, i < 2 -> free_cells 2 (mval (random_mask 2 2 None)) i = 2).
Proof.
  split; [apply mask_ok2_iff; vm_compute; reflexivity|]. split; [exact I|]. split; [vm_compute; reflexivity|]. split; [vm_compute; reflexivity|]. split; [vm_compute; reflexivity|]. split; [vm_compute; reflexivity|].
  intros [|[|i]] Hi; [vm_compute; reflexivity|vm_compute; reflexivity|lia].
Qed.
Print Assumptions C123_total_partial.

(** Masks of the wrong shape, with cells that are neither free nor probabilities or with a row above one are rejected, and so are negative numbers of zeros. *)
Theorem C123_masks_partial : forall n k st pz pm sy ez em dp de h, hmm_random n k st pz pm sy ez em dp de = Ok h ->
  given_mask_valid (Z.to_nat n) (Z.to_nat n) pm /\ given_mask_valid (Z.to_nat n) (Z.to_nat k) em /\ (0 <= pz)%Z /\ (0 <= ez)%Z.
Proof. exact hmm_random_masks. Qed.
Print Assumptions C123_masks_partial.

(** The requested zeros do not always go where a zero was still to be chosen: with this mask the first row is already
    complete, one zero is requested, the maximum for the second row, and for all draws the second row has none. *)
Theorem C123_zeros_refuted : forall dp de, draws_ok2 2 2 (mval maskR) dp ->
  exists h, hmm_random 2 2 None 1 (Some maskR) None 0 None dp de = Ok h /\ incomplete_zeros 2 2 (mval maskR) (h_p h) = 0.
Proof. exact zeros_refuted. Qed.
Example C123_zeros_example : draws_ok2 2 2 (mval maskR) drawsR.
Proof. exact drawsR_ok. Qed.
Print Assumptions C123_zeros_refuted.
