(** P_Classic: property theorems about the long-run behaviour of the generated chains. *)
From Verif Require Import S_Gen M_Generators S_Gen2 L_PropsR L_LimitR S_Classic L_Classic2 L_Classic4 ExC L_Classic5.
Open Scope res_scope.

(** ** C132 Rouwenhorst *)
Theorem C132_stationary : forall F sq quad size sigma rho st c m,
  approximation F sq quad size Rouwenhorst sigma rho st = Ok c -> (-(1) < rho)%Qc -> (rho < 1)%Qc ->
  en_p m = ch_p c -> let n := Z.to_nat size in env_ok n m ->
  stationary_distributions (en_p m) (en_comps m) = Ok [tab n (fun j => choose (n - 1) j / power two (n - 1))%Qc] /\
  is_reversible m = Ok true.
Proof. exact rouw_pi. Qed.
Print Assumptions C132_stationary.
Theorem C132_variance : forall F sq quad size sigma rho st c i,
  approximation F sq quad size Rouwenhorst sigma rho st = Ok c -> let n := Z.to_nat size in i < n ->
  let y j := (Qcn j - Qcn (n - 1) / two)%Qc in
  sumn n (fun j => mget (ch_p c) i j * ((y j - rho * y i) * (y j - rho * y i)))%Qc = (Qcn (n - 1) * ((1 - rho * rho) / (two * two)))%Qc.
Proof. exact rouw_variance. Qed.
Print Assumptions C132_variance.
Example C132_example : rRouw = Ok (built rRouw) /\ env_ok 3 (env (built rRouw)) /\
  map showv (ok_or [] (stationary_distributions (ch_p (built rRouw)) (en_comps (env (built rRouw))))) = [[1 # 4; 1 # 2; 1 # 4]]%Q.
Proof. split; [apply built_ok; vm_compute; reflexivity|]. split; [apply env_b; vm_compute; reflexivity|vm_compute; reflexivity]. Qed.

(** ** C133 urns *)
Theorem C133_stationary : forall model n st c m, urn_model model n st = Ok c -> en_p m = ch_p c ->
  let d := 2 * Z.to_nat n in env_ok (d + 1) m ->
  stationary_distributions (en_p m) (en_comps m) = Ok [tab (d + 1) (fun j =>
    match model with
    | Ehrenfest => choose d j / power two d
    | BernoulliLaplace => choose d j * choose d j / choose (2 * d) d
    end)%Qc] /\ is_reversible m = Ok true.
Proof. exact urn_pi. Qed.
Print Assumptions C133_stationary.
Theorem C133_mean : forall model n st c i, urn_model model n st = Ok c -> let d := 2 * Z.to_nat n in i <= d ->
  sumn (d + 1) (fun j => mget (ch_p c) i j * Qcn j)%Qc = (Qcn i + 1 - two * (Qcn i / Qcn d))%Qc.
Proof. exact urn_mean. Qed.
Print Assumptions C133_mean.
Example C133_example : rEhr = Ok (built rEhr) /\ rBL = Ok (built rBL) /\ env_ok 3 (env (built rEhr)) /\ env_ok 3 (env (built rBL)) /\
  map showv (ok_or [] (stationary_distributions (ch_p (built rEhr)) (en_comps (env (built rEhr))))) = [[1 # 4; 1 # 2; 1 # 4]]%Q /\
  map showv (ok_or [] (stationary_distributions (ch_p (built rBL)) (en_comps (env (built rBL))))) = [[1 # 6; 2 # 3; 1 # 6]]%Q.
Proof.
  split; [apply built_ok; vm_compute; reflexivity|]. split; [apply built_ok; vm_compute; reflexivity|].
  split; [apply env_b; vm_compute; reflexivity|]. split; [apply env_b; vm_compute; reflexivity|]. split; vm_compute; reflexivity.
Qed.

(** ** C134 fixation *)
Theorem C134_moran : forall n s st c m, population_genetics_model Moran n s 0 0 st = Ok c -> (s < 1)%Qc -> en_p m = ch_p c ->
  let N := Z.to_nat n in env_ok (N + 1) m ->
  let h i := (ladder (1 / (1 - s)) i / ladder (1 / (1 - s)) N)%Qc in
  absorption_probabilities m = Ok (Some [tab (N - 1) (fun k => 1 - h (k + 1)%nat)%Qc; tab (N - 1) (fun k => h (k + 1)%nat)]) /\
  forall i, 0 < i < N -> tends (fun k => kstep (N + 1) (en_p m) k i N) (h i).
Proof. exact moran_fixation. Qed.
Print Assumptions C134_moran.
Theorem C134_wright_fisher : forall n st c m, population_genetics_model WrightFisher n 0 0 0 st = Ok c -> en_p m = ch_p c ->
  let N := Z.to_nat n in env_ok (N + 1) m ->
  let h i := (Qcn i / Qcn N)%Qc in
  absorption_probabilities m = Ok (Some [tab (N - 1) (fun k => 1 - h (k + 1)%nat)%Qc; tab (N - 1) (fun k => h (k + 1)%nat)]) /\
  forall i, 0 < i < N -> tends (fun k => kstep (N + 1) (en_p m) k i N) (h i).
Proof. exact wf_fixation. Qed.
Print Assumptions C134_wright_fisher.
Example C134_example : rMoran = Ok (built rMoran) /\ rWf = Ok (built rWf) /\ env_ok 4 (env (built rMoran)) /\ env_ok 4 (env (built rWf)) /\
  showm (some_or [] (absorption_probabilities (env (built rMoran)))) = [[6 # 7; 4 # 7]; [1 # 7; 3 # 7]]%Q /\
  showm (some_or [] (absorption_probabilities (env (built rWf)))) = [[2 # 3; 1 # 3]; [1 # 3; 2 # 3]]%Q.
Proof.
  split; [apply built_ok; vm_compute; reflexivity|]. split; [apply built_ok; vm_compute; reflexivity|].
  split; [apply env_b; vm_compute; reflexivity|]. split; [apply env_b; vm_compute; reflexivity|]. split; vm_compute; reflexivity.
Qed.

(** ** C135 gambler's ruin *)
Theorem C135_win : forall size w st c m, gamblers_ruin size w st = Ok c -> en_p m = ch_p c -> let n := Z.to_nat size in env_ok n m ->
  let h i := (ladder ((1 - w) / w) i / ladder ((1 - w) / w) (n - 1))%Qc in
  absorption_probabilities m = Ok (Some [tab (n - 2) (fun k => 1 - h (k + 1)%nat)%Qc; tab (n - 2) (fun k => h (k + 1)%nat)]) /\
  forall i, 0 < i < n - 1 -> tends (fun k => kstep n (en_p m) k i (n - 1)) (h i).
Proof. exact ruin_win. Qed.
Print Assumptions C135_win.
Theorem C135_duration : forall size w st c m, gamblers_ruin size w st = Ok c -> en_p m = ch_p c -> let n := Z.to_nat size in env_ok n m ->
  let h i := (ladder ((1 - w) / w) i / ladder ((1 - w) / w) (n - 1))%Qc in
  mean_absorption_times m = Ok (Some (tab (n - 2) (fun k => let i := (k + 1)%nat in
    if Qceqb w (1 / two) then Qcn i * Qcn (n - 1 - i) else (Qcn i - Qcn (n - 1) * h i) / (1 - two * w))%Qc)).
Proof. exact ruin_time. Qed.
Print Assumptions C135_duration.
Theorem C135_ladder : forall g i, (g <> 1q -> ladder g i = ((1 - power g i) / (1 - g))%Qc) /\ ladder 1 i = Qcn i.
Proof. exact (fun g i => conj (ladder_closed g i) (ladder_1 i)). Qed.
Print Assumptions C135_ladder.
Example C135_example : rRuin = Ok (built rRuin) /\ rFair = Ok (built rFair) /\ env_ok 4 (env (built rRuin)) /\ env_ok 4 (env (built rFair)) /\
  showm (some_or [] (absorption_probabilities (env (built rRuin)))) = [[6 # 7; 4 # 7]; [1 # 7; 3 # 7]]%Q /\
  showv (some_or [] (mean_absorption_times (env (built rRuin)))) = [12 # 7; 15 # 7]%Q /\
  showv (some_or [] (mean_absorption_times (env (built rFair)))) = [2; 2]%Q.
Proof.
  split; [apply built_ok; vm_compute; reflexivity|]. split; [apply built_ok; vm_compute; reflexivity|].
  split; [apply env_b; vm_compute; reflexivity|]. split; [apply env_b; vm_compute; reflexivity|]. repeat split; vm_compute; reflexivity.
Qed.

(** ** C136 birth and death *)
Theorem C136_stationary : forall p q st c m, birth_death p q st = Ok c ->
  (forall i, i < length p -> not_tiny (vget p i) /\ not_tiny (vget q i) /\ not_tiny (1 - vget p i - vget q i)%Qc) ->
  (forall i, S i < length p -> (0 < vget p i)%Qc /\ (0 < vget q (S i))%Qc) ->
  en_p m = ch_p c -> let n := length p in let w := ratios (vget p) (vget q) in env_ok n m ->
  stationary_distributions (en_p m) (en_comps m) = Ok [tab n (fun i => w i / sumn n w)%Qc] /\ is_reversible m = Ok true.
Proof. exact bd_pi. Qed.
Print Assumptions C136_stationary.
Example C136_example : rBd = Ok (built rBd) /\ env_ok 3 (env (built rBd)) /\
  (forall i, i < length bdp -> not_tiny (vget bdp i) /\ not_tiny (vget bdq i) /\ not_tiny (1 - vget bdp i - vget bdq i)%Qc) /\
  (forall i, S i < length bdp -> (0 < vget bdp i)%Qc /\ (0 < vget bdq (S i))%Qc) /\
  map showv (ok_or [] (stationary_distributions (ch_p (built rBd)) (en_comps (env (built rBd))))) = [[1 # 7; 4 # 7; 2 # 7]]%Q.
Proof.
  split; [apply built_ok; vm_compute; reflexivity|]. split; [apply env_b; vm_compute; reflexivity|].
  split. { intros [|[|[|i]]] Hi; [| | |exfalso; cbn in Hi; lia]; repeat split;
    try (right; vm_compute; reflexivity); left; apply Qceqb_eq; vm_compute; reflexivity. }
  split. { intros [|[|i]] Hi; [| |exfalso; cbn in Hi; lia]; split; vm_compute; reflexivity. }
  vm_compute; reflexivity.
Qed.

(** ** C137 selection and mutation *)
Theorem C137_moran_selection_partial : forall n s st c i, population_genetics_model Moran n s 0 0 st = Ok c -> (s < 1)%Qc ->
  let N := Z.to_nat n in 0 < i < N ->
  exists x, (0 < x)%Qc /\ sumn (N + 1) (fun j => mget (ch_p c) i j * Qcn j)%Qc = (Qcn i - s * x)%Qc.
Proof. exact moran_drift. Qed.
Print Assumptions C137_moran_selection_partial.
Theorem C137_wright_fisher_selection_partial : forall n s st c i, population_genetics_model WrightFisher n s 0 0 st = Ok c ->
  let N := Z.to_nat n in 0 < i < N ->
  exists x, (0 < x)%Qc /\ sumn (N + 1) (fun j => mget (ch_p c) i j * Qcn j)%Qc = (Qcn i + s * x)%Qc.
Proof. exact wf_drift. Qed.
Print Assumptions C137_wright_fisher_selection_partial.
Theorem C137_boundaries_partial : forall model n s u v st c, population_genetics_model model n s u v st = Ok c -> (s <= 1)%Qc ->
  let N := Z.to_nat n in mget (ch_p c) 0 0 = 1q /\ mget (ch_p c) N N = 1q.
Proof. exact popgen_boundaries. Qed.
Print Assumptions C137_boundaries_partial.
Example C137_example : rMoran = Ok (built rMoran) /\ rWf = Ok (built rWf) /\ 0 < 1 < Z.to_nat 3.
Proof. split; [apply built_ok; vm_compute; reflexivity|]. split; [apply built_ok; vm_compute; reflexivity|cbn; lia]. Qed.
(** One value of [s], one state: the counted type shrinks on average in one model and grows in the other. *)
Theorem C137_direction_refuted : exists n s c c' i,
  population_genetics_model Moran n s 0 0 None = Ok c /\ population_genetics_model WrightFisher n s 0 0 None = Ok c' /\
  0 < i < Z.to_nat n /\ (sumn (Z.to_nat n + 1) (fun j => mget (ch_p c) i j * Qcn j) < Qcn i)%Qc /\
  (Qcn i < sumn (Z.to_nat n + 1) (fun j => mget (ch_p c') i j * Qcn j))%Qc.
Proof. exact direction_refuted. Qed.
Print Assumptions C137_direction_refuted.
(** Positive mutation rates, yet a lost type never comes back. *)
Theorem C137_mutation_refuted : exists n s u v c, (0 < u)%Qc /\ (0 < v)%Qc /\ population_genetics_model Moran n s u v None = Ok c /\
  mget (ch_p c) 0 1 <> moran_up (Z.to_nat n) 0 s u v /\ ~ irreducible (Z.to_nat n + 1) (edge (ch_p c)).
Proof. exact mutation_refuted. Qed.
Print Assumptions C137_mutation_refuted.
