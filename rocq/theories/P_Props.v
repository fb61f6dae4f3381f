(** P_Props: property theorems about sensitivity, reversibility, symmetry, density, the Kemeny
    constant, the incidence matrix, the entropy rate and all stationary distributions. *)
From Verif Require Import L_Kemeny L_PropsR L_Nnls.
From Coq Require Import Reals.
Close Scope R_scope.
Open Scope nat_scope.
Open Scope res_scope.

(** ** C42 the stationary distributions are exactly the mixtures of the listed ones *)
Theorem C42_mixtures : forall n P comps, 0 < n -> stochastic n P -> scc_enum n (edge P) comps ->
  exists pis, stationary_distributions P comps = Ok pis /\ forall v,
    (distribution n v /\ stationary n P v) <-> exists c, distribution (length pis) c /\ v = mixture n c pis.
Proof. exact stationary_span. Qed.
Print Assumptions C42_mixtures.
Example C42_mixtures_example : stochastic 4 (ch_p cE) /\ scc_enum 4 (edge (ch_p cE)) (sccs (ch_p cE)) /\
  match stationary_distributions (ch_p cE) (sccs (ch_p cE)) with Ok l => map showv l | _ => [] end = [[1 # 3; 2 # 3; 0; 0]; [0; 0; 0; 1]]%Q.
Proof.
  assert (S0 : stochastic 4 (ch_p cE)) by (apply (env_b 4 cE); vm_compute; reflexivity).
  split; [exact S0|]. split; [apply sccs_enum, S0|vm_compute; reflexivity].
Qed.

(** ** C106 sensitivity *)
Theorem C106_sensitivity : forall n lstsq m s, env_ok n m -> lstsq_ok lstsq -> irreducible n (edge (en_p m)) -> s < n ->
  exists pi S, distribution n pi /\ stationary n (en_p m) pi /\ sensitivity lstsq m s = Ok (Some S) /\ wf n n S /\
    (forall P' w, (forall i, i < n -> sumn n (fun j => mget P' i j) = 1q) -> stationary n P' w -> sumn n (vget w) = 1q ->
      (vget w s - vget pi s = sumn n (fun i => sumn n (fun j => vget w i / vget pi i * (mget S i j * (mget P' i j - mget (en_p m) i j)))))%Qc) /\
    (forall E, row_balanced n E -> pi_derivative n (en_p m) E s (vget pi s) (sumn n (fun i => sumn n (fun j => mget S i j * mget E i j)))%Qc).
Proof. exact sensitivity_spec. Qed.
Print Assumptions C106_sensitivity.
Theorem C106_not_irreducible_none : forall n lstsq m s, env_ok n m -> ~ irreducible n (edge (en_p m)) -> sensitivity lstsq m s = Ok None.
Proof. exact sensitivity_none. Qed.
Print Assumptions C106_not_irreducible_none.
Example C106_example : env_ok 3 (env cBd) /\ lstsq_ok lstsq_search /\ irreducible 3 (edge (ch_p cBd)) /\
  match sensitivity lstsq_search (env cS) 0 with Ok (Some M) => showm M | _ => [] end = [[1 # 2; -1 # 2]; [1 # 2; -1 # 2]]%Q.
Proof.
  split; [apply env_b; vm_compute; reflexivity|]. split; [apply lstsq_search_ok|]. split; [apply irr_b; vm_compute; reflexivity|vm_compute; reflexivity].
Qed.
Example C106_none_example : env_ok 2 (env cTwo) /\ ~ irreducible 2 (edge (ch_p cTwo)).
Proof.
  split; [apply env_b; vm_compute; reflexivity|]. intros I.
  pose proof (proj2 (is_irreducible_spec 2 (ch_p cTwo) (sccs (ch_p cTwo)) ltac:(lia) ltac:(apply (env_b 2 cTwo); vm_compute; reflexivity)
    ltac:(apply sccs_enum, (env_b 2 cTwo); vm_compute; reflexivity)) I) as E. vm_compute in E. discriminate.
Qed.

(** ** C107 reversibility *)
Theorem C107_is_reversible_partial : forall n m, env_ok n m -> one_recurrent_class n (en_p m) ->
  exists pi b, distribution n pi /\ stationary n (en_p m) pi /\ (forall v, distribution n v -> stationary n (en_p m) v -> v = pi) /\
    is_reversible m = Ok b /\
    (b = true <-> forall i j, i < n -> j < n -> within (flow (en_p m) pi i j) (flow (en_p m) pi j i)) /\
    (time_reversible n (en_p m) pi -> b = true) /\
    ((forall i j, i < n -> j < n -> flow (en_p m) pi i j = flow (en_p m) pi j i \/ ~ within (flow (en_p m) pi i j) (flow (en_p m) pi j i)) ->
       (b = true <-> time_reversible n (en_p m) pi)).
Proof. exact is_reversible_spec. Qed.
Print Assumptions C107_is_reversible_partial.
Theorem C107_several_classes : forall n m i j, env_ok n m -> recurrent n (edge (en_p m)) i -> recurrent n (edge (en_p m)) j -> ~ reach n (edge (en_p m)) i j ->
  is_reversible m = Ok false.
Proof. exact is_reversible_several. Qed.
Print Assumptions C107_several_classes.
Theorem C107_loops : forall n P pi, 0 < n -> stochastic n P -> irreducible n (edge P) -> distribution n pi -> stationary n P pi ->
  (time_reversible n P pi <-> loops_balanced n P).
Proof. exact kolmogorov. Qed.
Print Assumptions C107_loops.
Theorem C107_tolerance_refuted : exists n m pi, env_ok n m /\ irreducible n (edge (en_p m)) /\ distribution n pi /\ stationary n (en_p m) pi /\
  ~ time_reversible n (en_p m) pi /\ is_reversible m = Ok true.
Proof. exact reversible_refuted. Qed.
Print Assumptions C107_tolerance_refuted.
Example C107_example : env_ok 3 (env cBd) /\ one_recurrent_class 3 (ch_p cBd) /\ is_reversible (env cBd) = Ok true /\ is_reversible (env cTwo) = Ok false /\
  is_reversible (env c3) = Ok false.
Proof.
  split; [apply env_b; vm_compute; reflexivity|]. split; [apply irreducible_one, irr_b; vm_compute; reflexivity|]. repeat split; vm_compute; reflexivity.
Qed.

(** ** C108 symmetry and doubly stochastic matrices *)
Theorem C108_symmetric_partial : forall n m, env_ok n m -> sym_matrix n (en_p m) ->
  is_symmetric (en_p m) = true /\ is_doubly_stochastic (en_p m) = true /\
  (irreducible n (edge (en_p m)) -> is_reversible m = Ok true).
Proof. exact symmetric_answers. Qed.
Print Assumptions C108_symmetric_partial.
Theorem C108_doubly_partial : forall n m, env_ok n m ->
  (stationary n (en_p m) (uniform n) -> is_doubly_stochastic (en_p m) = true) /\
  (is_doubly_stochastic (en_p m) = true -> forall j, j < n -> (Qcabs (sumn n (fun i => mget (en_p m) i j) - 1) <= atol + rtol)%Qc) /\
  (stationary n (en_p m) (uniform n) -> irreducible n (edge (en_p m)) -> stationary_distributions (en_p m) (en_comps m) = Ok [uniform n]).
Proof. exact doubly_answers. Qed.
Print Assumptions C108_doubly_partial.
Theorem C108_symmetric_refuted : exists n m, env_ok n m /\ is_symmetric (en_p m) = true /\ ~ sym_matrix n (en_p m) /\ is_doubly_stochastic (en_p m) = false.
Proof. exact symmetric_refuted. Qed.
Print Assumptions C108_symmetric_refuted.
Theorem C108_doubly_refuted : exists n m, env_ok n m /\ is_doubly_stochastic (en_p m) = true /\ ~ stationary n (en_p m) (uniform n).
Proof. exact doubly_refuted. Qed.
Print Assumptions C108_doubly_refuted.
Example C108_example : env_ok 3 (env cSymm) /\ sym_matrix 3 (ch_p cSymm) /\ irreducible 3 (edge (ch_p cSymm)) /\ stationary 3 (ch_p cSymm) (uniform 3) /\
  is_symmetric (ch_p cBd) = false /\ is_doubly_stochastic (ch_p cBd) = false.
Proof.
  split; [apply env_b; vm_compute; reflexivity|].
  split; [intros [|[|[|i]]] [|[|[|j]]] Hi Hj; try lia; apply Qceqb_eq; vm_compute; reflexivity|].
  split; [apply irr_b; vm_compute; reflexivity|]. split; [apply uniform_stationary; vm_compute; reflexivity|]. split; vm_compute; reflexivity.
Qed.

(** ** C109 density *)
Theorem C109_density : forall n P, 2 <= n -> wf n n P ->
  density P = (Qcn (transitions_between n P) / Qcn (n * (n - 1)))%Qc /\ transitions_between n P <= n * (n - 1).
Proof. exact density_spec. Qed.
Print Assumptions C109_density.
Theorem C109_range : forall n P, 2 <= n -> wf n n P -> (0 <= density P <= 1)%Qc.
Proof. exact density_range. Qed.
Print Assumptions C109_range.
Example C109_example : wf 3 3 (ch_p cBd) /\ transitions_between 3 (ch_p cBd) = 4 /\ this (density (ch_p cBd)) = (2 # 3)%Q.
Proof. split; [apply (env_b 3 cBd); vm_compute; reflexivity|]. split; vm_compute; reflexivity. Qed.

(** ** C110 Kemeny constant *)
Theorem C110_kemeny : forall n m, env_ok n m ->
  (forall i, i < n -> exists a, a < n /\ mget (en_p m) a a = 1q /\ reach n (edge (en_p m)) i a) ->
  ((exists i, i < n /\ mget (en_p m) i i <> 1q) ->
   exists T k, StronglySorted lt T /\ (forall x, In x T <-> x < n /\ mget (en_p m) x x <> 1q) /\ kemeny_constant m = Ok (Some k) /\
    tends (fun t => lsum (map (fun x => visits_by n (en_p m) t x x) T)) k) /\
  ((forall i, i < n -> mget (en_p m) i i = 1q) -> kemeny_constant m = Ok None).
Proof. exact kemeny_always. Qed.
Print Assumptions C110_kemeny.
Example C110_example : env_ok 4 (env cD) /\ gap 4 (ch_p cD) /\ match kemeny_constant (env cD) with Ok (Some k) => this k | _ => 0%Q end = (8 # 3)%Q.
Proof.
  split; [apply env_b; vm_compute; reflexivity|]. split; [|vm_compute; reflexivity].
  intros [|[|[|[|k]]]] Hk; [left|right|right|left|lia]; [apply Qceqb_eq|apply Qcleb_le|apply Qcleb_le|apply Qceqb_eq]; vm_compute; reflexivity.
Qed.

(** Fundamental matrix and mean absorption times, for every absorbing chain (C49 without the condition on the tolerance). *)
Theorem C49_fundamental : forall n m, env_ok n m ->
  (forall i, i < n -> exists a, a < n /\ mget (en_p m) a a = 1q /\ reach n (edge (en_p m)) i a) ->
  (exists i, i < n /\ mget (en_p m) i i <> 1q) ->
  exists T A N t, StronglySorted lt T /\ (forall x, In x T <-> x < n /\ mget (en_p m) x x <> 1q) /\ (forall x, In x A <-> x < n /\ mget (en_p m) x x = 1q) /\
    fundamental_matrix m = Ok (Some N) /\ mean_absorption_times m = Ok (Some t) /\ wf (length T) (length T) N /\ length t = length T /\
    (forall a b, a < length T -> b < length T -> tends (fun k => visits_by n (en_p m) k (nth a T 0) (nth b T 0)) (mget N a b)) /\
    (forall b, b < length T -> tends (fun k => mean_hit_by n (en_p m) A k (nth b T 0)) (vget t b)).
Proof. exact fundamental_always. Qed.
Print Assumptions C49_fundamental.
Example C49_fundamental_example : let m := env (mkchain [[Q2Qc (99999 # 100000); Q2Qc (1 # 100000)]; [0q; 1q]] ["a"; "b"]%string) in env_ok 2 m /\
  (forall i, i < 2 -> exists a, a < 2 /\ mget (en_p m) a a = 1q /\ reach 2 (edge (en_p m)) i a) /\ mget (en_p m) 0 0 <> 1q /\
  showv (some_or [] (mean_absorption_times m)) = [100000]%Q.
Proof.
  intros m. split; [apply env_b; vm_compute; reflexivity|]. split; [|split; [apply Qceqb_neq; vm_compute; reflexivity|vm_compute; reflexivity]].
  intros i Hi. exists 1. split; [lia|]. split; [apply Qceqb_eq; vm_compute; reflexivity|].
  destruct i as [|[|i]]; [|exists 0; constructor; lia|lia]. exists 1. apply walk_cons with 1; [lia|lia|vm_compute; reflexivity|constructor; lia].
Qed.

(** ** C111 incidence matrix *)
Theorem C111_columns_partial : forall n P r u v, wf n n P -> r < n -> u < n -> v < n ->
  zget (incidence_matrix P) r (u * n + v) = (if Nat.eqb u v then 0%Z else if Nat.eqb r u || Nat.eqb r v then 1%Z else 0%Z).
Proof. exact incidence_spec. Qed.
Print Assumptions C111_columns_partial.
Theorem C111_any_matrix_partial : forall n P P', wf n n P -> wf n n P' -> incidence_matrix P = incidence_matrix P'.
Proof. exact incidence_blind. Qed.
Print Assumptions C111_any_matrix_partial.
Theorem C111_incidence_refuted : exists n P u v r, stochastic n P /\ u < n /\ v < n /\ r < n /\ mget P u v = 0q /\ zget (incidence_matrix P) r (u * n + v) = 1%Z.
Proof. exact incidence_refuted. Qed.
Print Assumptions C111_incidence_refuted.
Example C111_example : wf 2 2 (ch_p cTwo) /\ incidence_matrix (ch_p cTwo) = [[0; 1; 1; 0]; [0; 1; 1; 0]]%Z.
Proof. split; [apply (env_b 2 cTwo); vm_compute; reflexivity|vm_compute; reflexivity]. Qed.

(** ** C112 entropy rate *)
Theorem C112_entropy_rate_partial : forall n m, env_ok n m -> one_recurrent_class n (en_p m) ->
  exists pi r h, distribution n pi /\ stationary n (en_p m) pi /\ entropy_per_step n (en_p m) pi r /\
    (0 <= r <= ln (INR n))%R /\ (r = 0%R <-> deterministic n (en_p m) pi) /\
    entropy_rate m = Ok (Some h) /\ ((/ 100000000 < r)%R -> h = r) /\ ((r <= / 100000000)%R -> h = (- r)%R).
Proof. exact entropy_rate_spec. Qed.
Print Assumptions C112_entropy_rate_partial.
Theorem C112_several_none : forall n m i j, env_ok n m -> recurrent n (edge (en_p m)) i -> recurrent n (edge (en_p m)) j -> ~ reach n (edge (en_p m)) i j ->
  entropy_rate m = Ok None /\ forall ev, entropy_rate_normalized ev m = Ok None.
Proof. exact entropy_rate_several. Qed.
Print Assumptions C112_several_none.
Theorem C112_normalized_partial : forall n m lam v, env_ok n m -> one_recurrent_class n (en_p m) -> adjacency_eigen n (en_p m) lam v ->
  exists pi r x, distribution n pi /\ stationary n (en_p m) pi /\ entropy_per_step n (en_p m) pi r /\
    entropy_rate_normalized lam m = Ok (Some x) /\ (0 <= x <= 1)%R /\
    ((/ 100000000 < r)%R -> x = (r / ln lam)%R) /\ ((r <= / 100000000)%R -> x = 0%R).
Proof. exact entropy_normalized_spec. Qed.
Print Assumptions C112_normalized_partial.
Theorem C112_negative_refuted : exists n m h, env_ok n m /\ irreducible n (edge (en_p m)) /\ entropy_rate m = Ok (Some h) /\ (h < 0)%R.
Proof. exact entropy_refuted. Qed.
Print Assumptions C112_negative_refuted.
Example C112_example : env_ok 3 (env cSymm) /\ one_recurrent_class 3 (ch_p cSymm) /\ adjacency_eigen 3 (ch_p cSymm) 3%R (fun _ => 1%R) /\
  ~ deterministic 3 (ch_p cSymm) (uniform 3).
Proof.
  split; [apply env_b; vm_compute; reflexivity|]. split; [apply irreducible_one, irr_b; vm_compute; reflexivity|]. split.
  - split; [Lra.lra|]. split; [intros; Lra.lra|]. intros [|[|[|i]]] Hi; [| | |lia].
    + transitivity (1 + (1 + (1 + 0)))%R; [reflexivity|Lra.lra].
    + transitivity (1 + (1 + (1 + 0)))%R; [reflexivity|Lra.lra].
    + transitivity (1 + (1 + (1 + 0)))%R; [reflexivity|Lra.lra].
  - intros D. destruct (D 0 0 ltac:(lia) ltac:(lia) ltac:(apply Qcltb_lt; vm_compute; reflexivity)) as [C|C]; apply Qceqb_eq in C; vm_compute in C; discriminate.
Qed.
Example C112_several_example : env_ok 2 (env cTwo) /\ recurrent 2 (edge (ch_p cTwo)) 0 /\ recurrent 2 (edge (ch_p cTwo)) 1 /\ ~ reach 2 (edge (ch_p cTwo)) 0 1.
Proof.
  split; [apply env_b; vm_compute; reflexivity|]. split; [apply recurrent_b; try lia; vm_compute; reflexivity|].
  split; [apply recurrent_b; try lia; vm_compute; reflexivity|apply not_reach_b; try lia; vm_compute; reflexivity].
Qed.
