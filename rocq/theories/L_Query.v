(** L_Query: single states and summaries. *)
From Verif Require Export S_Query L_Valid5 L_StructR L_Closest2 L_HmmLaw L_Det4 L_LimitR.
Open Scope nat_scope.
Open Scope res_scope.

Section ONE.
Variables (n : nat) (m : mcenv).
Hypothesis Hm : env_ok n m.
Hypothesis Nb : forall s, In s (en_names m) -> nonblank s = true.
Let Wp : wf n n (en_p m) := proj1 (proj1 (proj2 Hm)).
Let Ln : length (en_names m) = n := proj1 (proj2 (proj2 Hm)).
Let Nd : NoDup (en_names m) := proj1 (proj2 (proj2 (proj2 Hm))).
Let Nx : nx_ok n (en_p m) (en_nx m) := proj2 (proj2 (proj2 (proj2 Hm))).
Lemma q_label v k : designates1 (en_names m) v k -> v_label v (en_names m) = Ok k /\ k < n.
Proof. intros D. split; [apply v_label_designates; [exact (conj Nd Nb)|exact D]|]. rewrite <- Ln. exact (proj1 D). Qed.
Lemma memn_iff k l (Q : Prop) : (In k l <-> Q) -> memn k l = true <-> Q.
Proof. intros H. rewrite <- H. apply memn_In. Qed.
Lemma q_cyclic_list : exists l, cyclic_states_indices m = Ok l /\ forall k, k < n -> (In k l <-> irreducible n (edge (en_p m))).
Proof.
  destruct (is_irreducible (en_comps m)) eqn:I.
  - assert (Ir : irreducible n (edge (en_p m))) by (apply (is_irreducible_spec n (en_p m) (en_comps m)); [destruct Hm; lia|exact Wp|apply Nx|exact I]).
    destruct (cyclic_classes_spec n (en_p m) (en_names m) (en_nx m) (en_nxa m) (proj1 Hm) (proj1 (proj2 Hm)) Ln Nd Nx Ir) as (d & cs & _ & E & _ & PP & _).
    exists (sort_nat (concat cs)). unfold cyclic_states_indices. rewrite E. split; [reflexivity|]. intros k Hk. split; [intros _; exact Ir|intros _].
    apply in_sort. apply (proj2 (proj2 PP)). exact Hk.
  - exists []. unfold cyclic_states_indices, cyclic_classes_indices. unfold en_comps in I. rewrite I. split; [reflexivity|]. intros k Hk. split; [intros []|].
    intros Ir. apply (is_irreducible_spec n (en_p m) (en_comps m)) in Ir; [|destruct Hm; lia|exact Wp|apply Nx]. unfold en_comps in Ir. congruence.
Qed.
Lemma q_states v k : designates1 (en_names m) v k ->
  exists r t c a, is_recurrent_state m v = Ok r /\ is_transient_state m v = Ok t /\ is_cyclic_state m v = Ok c /\ is_absorbing_state m v = Ok a /\
    (r = true <-> recurrent n (edge (en_p m)) k) /\ t = negb r /\ (c = true <-> irreducible n (edge (en_p m))) /\
    (a = true <-> within (mget (en_p m) k k) 1q).
Proof.
  intros D. destruct (q_label v k D) as (E & Hk). destruct q_cyclic_list as (l & El & Hl).
  unfold is_recurrent_state, is_transient_state, is_cyclic_state, is_absorbing_state. rewrite E, El. cbn [bind].
  do 4 eexists. split; [reflexivity|]. split; [reflexivity|]. split; [reflexivity|]. split; [reflexivity|].
  assert (R : memn k (recurrent_states_indices (en_p m) (en_comps m)) = true <-> recurrent n (edge (en_p m)) k) by (apply memn_iff, (recurrent_state_in n _ _ k Wp (proj1 Nx))).
  split; [exact R|]. split; [|split].
  - assert (T : memn k (transient_states_indices (en_p m) (en_comps m)) = true <-> k < n /\ exists y, reach n (edge (en_p m)) k y /\ ~ reach n (edge (en_p m)) y k) by (apply memn_iff, (transient_state_in n _ _ k Wp (proj1 Nx))).
    destruct (memn k (recurrent_states_indices _ _)) eqn:Er.
    + cbn. apply not_true_is_false. intros Et. apply T in Et. destruct Et as (_ & y & Ry & Ny). apply Ny, (proj1 R eq_refl). exact Ry.
    + cbn. apply memn_In. apply memn_false in Er. unfold recurrent_states_indices in Er. unfold transient_states_indices. rewrite in_sort, in_concat in *.
      destruct (communicating_listing n _ (en_comps m) (proj1 Nx)) as ((HP & _) & _). destruct (part_cover n _ k HP Hk) as (B & HB & HkB).
      destruct (exactly_one_kind n (en_p m) (en_comps m) B Wp (proj1 Nx) HB) as [(R0 & _)|(T0 & _)]; [exfalso; apply Er; exists B; split; assumption|exists B; split; assumption].
  - apply memn_iff, Hl. exact Hk.
  - apply memn_iff. unfold absorbing_indices. rewrite filter_In, in_seq, (wf_nrows _ _ _ Wp). rewrite <- isclose_within. split; [intros (_ & H); exact H|intros H; split; [lia|exact H]].
Qed.
End ONE.
