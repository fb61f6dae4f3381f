(** M_Measures: model of /repo/pydtmc/measures.py (Markov chain part) and of the
    methods of MarkovChain that call it.  Model only.

    Arguments are already resolved: states are positions 0..n-1, distributions and
    rewards are vectors; the methods' own range checks on numbers appear as guards.
    numpy.linalg.solve / inv are the exact Gauss-Jordan functions of Gauss.v
    (LinAlgError = ArithErr). *)
From Verif Require Export M_Stationary.
Open Scope res_scope.

(** A MarkovChain object as seen by the measures: matrix, names, the enumeration
    orders of networkx and its answer to is_aperiodic on the whole graph. *)
Record mcenv := mkenv { en_p : mat; en_names : list string; en_nx : nxorder; en_nxa : bool }.
Definition en_comps (m : mcenv) : list (list nat) := nx_comps (en_nx m).
Definition en_size (m : mcenv) : nat := nrows (en_p m).

(** markov_chain.py 678-686 is_ergodic *)
Definition is_ergodic (m : mcenv) : res bool :=
  if is_irreducible (en_comps m) then is_aperiodic (en_p m) (en_names m) (en_nx m) (en_nxa m) else Ok false.
(** mc.pi[0] *)
Definition pi0 (m : mcenv) : res vec :=
  pis <- stationary_distributions (en_p m) (en_comps m) ;;
  match pis with [] => Err IndexErr | v :: _ => Ok v end.
Definition lift {A} (x : option A) : res A := match x with Some a => Ok a | None => Err ArithErr end.

(** markov_chain.py 533-551 fundamental_matrix *)
Definition fundamental_matrix (m : mcenv) : res (option mat) :=
  let p := en_p m in
  let indices := transient_states_indices p (en_comps m) in
  a <- is_absorbing p ;;
  if negb a || Nat.eqb (length indices) 0 then Ok None
  else
    fm <- lift (minv (msub (eye (length indices)) (mix p indices indices))) ;;
    Ok (Some fm).

(** measures.py 117-130 mc_absorption_probabilities (states.index of a state name
    is its position, names being distinct) *)
Definition absorption_probabilities (m : mcenv) : res (option mat) :=
  let p := en_p m in
  let transient := transient_states_indices p (en_comps m) in
  a <- is_absorbing p ;;
  if negb a || Nat.eqb (length transient) 0 then Ok None
  else
    n <- fundamental_matrix m ;;
    match n with
    | None => Err TypeErr
    | Some n => Ok (Some (transpose (mmul n (mix p transient (absorbing_indices p)))))
    end.

(** measures.py 320-328 mc_mean_absorption_times *)
Definition mean_absorption_times (m : mcenv) : res (option vec) :=
  let p := en_p m in
  a <- is_absorbing p ;;
  if negb a || Nat.eqb (length (transient_states_indices p (en_comps m))) 0 then Ok None
  else
    n <- fundamental_matrix m ;;
    match n with
    | None => Err TypeErr
    | Some n => Ok (Some (mvmul n (repeat 1q (nrows n))))
    end.

(** measures.py 133-160 mc_committor_probabilities; markov_chain.py 1166-1172: the
    two sets must be disjoint.  [backward] is committor_type == 'backward'. *)
Definition disjointb (a b : list nat) : bool := forallb (fun x => negb (memn x b)) a.
Definition committor_probabilities (m : mcenv) (backward : bool) (states1 states2 : list nat) : res (option vec) :=
  guard disjointb states1 states2 else ValueErr ;;
  e <- is_ergodic m ;;
  if negb e then Ok None
  else
    let p := en_p m in
    let size := en_size m in
    pi <- pi0 m ;;
    let a0 := if backward then mk size size (fun i j => vget pi j * (mget p j i - delta j i))%Qc
              else mk size size (fun i j => mget p i j - delta i j)%Qc in
    let a1 := mk size size (fun i j => if memn i states1 then delta i j else mget a0 i j) in
    let a := mk size size (fun i j => if memn i states2 then delta i j else mget a1 i j) in
    let b := tab size (fun i => if memn i (if backward then states1 else states2) then 1q else 0q) in
    cp <- lift (solve_vec a b) ;;
    Ok (Some (map (fun x => if isclose x 0 then 0q else x) cp)).

(** measures.py 163-171 mc_expected_rewards; markov_chain.py 1214-1222 *)
Fixpoint expected_rewards_loop (p : mat) (steps : nat) (rewards er : vec) : vec :=
  match steps with
  | O => er
  | S k => expected_rewards_loop p k rewards
             (tab (length rewards) (fun i => vget rewards i + vget (mvmul p er) i)%Qc)
  end.
Definition expected_rewards (p : mat) (steps : nat) (rewards : vec) : res vec :=
  guard Nat.ltb 0 steps else ValueErr ;;
  guard Nat.eqb (length rewards) (nrows p) else ValueErr ;;
  Ok (expected_rewards_loop p steps rewards rewards).

(** The right eigenvectors, eigenvalues and left eigenvectors returned by
    computations.py 315-338 rdl_decomposition (real parts). *)
Record rdl := mkrdl { rdl_r : mat; rdl_d : mat; rdl_l : mat }.
Fixpoint qpow (x : Qc) (k : nat) : Qc := match k with O => 1q | S k' => (x * qpow x k')%Qc end.

(** measures.py 174-204 mc_expected_transitions.  Lines 178-183: idist and
    idist_sum are the same array, so each turn adds (idist P) to idist itself.
    [dec] is the decomposition, computed before the call (markov_chain.py 1249). *)
Fixpoint et_loop (p : mat) (k : nat) (idist : vec) : vec :=
  match k with
  | O => idist
  | S k' =>
      let pi := vmul idist p in
      et_loop p k' (tab (length idist) (fun i => vget idist i + vget pi i)%Qc)
  end.
Definition expected_transitions (p : mat) (dec : res rdl) (steps : nat) (x : vec) : res mat :=
  guard Nat.ltb 0 steps else ValueErr ;;
  guard Nat.eqb (length x) (nrows p) else ValueErr ;;
  dec <- dec ;;
  let n := nrows p in
  if Nat.leb steps n then
    let s := et_loop p (steps - 1) x in
    Ok (mk n n (fun i j => vget s i * mget p i j)%Qc)
  else
    let gs k := let q := mget (rdl_d dec) k k in
                if Qceqb q 1 then Qcn steps else ((1 - qpow q steps) / (1 - q))%Qc in
    let ts := mmul (mmul (rdl_r dec) (mk n n (fun i j => if Nat.eqb i j then gs i else 0q))) (rdl_l dec) in
    let ps := vmul x ts in
    Ok (mk n n (fun i j => vget ps i * mget p i j)%Qc).

(** measures.py 207-232 mc_first_passage_probabilities.  [fpp_g p k] is the array g
    after k turns of the loop. *)
Definition offdiag (g : mat) : mat := mk (nrows g) (ncols g) (fun i j => if Nat.eqb i j then 0q else mget g i j).
Fixpoint fpp_g (p : mat) (k : nat) : mat := match k with O => p | S k' => mmul p (offdiag (fpp_g p k')) end.
Definition first_passage_probabilities (p : mat) (steps i : nat) : res mat :=
  guard Nat.ltb 0 steps else ValueErr ;;
  Ok (mk steps (nrows p) (fun k j => mget (fpp_g p k) i j)).
Definition first_passage_set_probabilities (p : mat) (steps i : nat) (S : list nat) : res vec :=
  guard Nat.ltb 0 steps else ValueErr ;;
  Ok (tab steps (fun k => lsum (map (fun j => mget (fpp_g p k) i j) S))).

(** measures.py 235-267 mc_first_passage_reward; markov_chain.py 1303-1323.
    Lines 246-257 compute the position of initial_state among the other states. *)
Fixpoint fpr_loop (steps : nat) (m mt : mat) (i mr : vec) (reward : Qc) : Qc :=
  match steps with
  | O => reward
  | S k => fpr_loop k m (mmul mt m) i mr (reward + vdot i (mvmul mt mr))%Qc
  end.
Fixpoint fpr_offset (js : list nat) (fps : list nat) (initial k : nat) : nat :=
  match js with
  | [] => 0
  | j :: js' => if memn j fps then fpr_offset js' fps initial k
                else if Nat.eqb j initial then k else fpr_offset js' fps initial (k + 1)
  end.
Definition first_passage_reward (p : mat) (steps initial : nat) (fps : list nat) (rewards : vec) : res Qc :=
  let size := nrows p in
  guard Nat.ltb 0 steps else ValueErr ;;
  guard Nat.eqb (length rewards) size else ValueErr ;;
  guard negb (Nat.eqb size 2) else ValueErr ;;
  guard negb (memn initial fps) else ValueErr ;;
  guard negb (Nat.eqb (length fps) (size - 1)) else ValueErr ;;
  let other := filter (fun j => negb (memn j fps)) (seq 0 size) in
  let m := mix p other other in
  let mr := map (vget rewards) other in
  let offset := fpr_offset (seq 0 size) fps initial 1 in
  let i := tab (length other) (fun k => delta (offset - 1) k) in
  Ok (fpr_loop steps m m i mr 0q).

(** scipy.optimize.nnls(a, b)[0]: an argument, specified in S_Measures. *)
Definition nnls_t := mat -> vec -> res vec.

(** measures.py 270-285 mc_hitting_probabilities *)
Definition hitting_probabilities (nnls : nnls_t) (p : mat) (targets : list nat) : res vec :=
  let size := nrows p in
  let non_target := filter (fun i => negb (memn i targets)) (seq 0 size) in
  if Nat.eqb (length non_target) 0 then Ok (repeat 1q size)
  else
    let a := msub (mix p non_target non_target) (eye (length non_target)) in
    let b := map (fun i => lsum (map (fun j => - mget p i j)%Qc targets)) non_target in
    x <- nnls a b ;;
    Ok (tab size (fun j => match index_of Nat.eqb j non_target with Some k => vget x k | None => 1q end)).

(** measures.py 288-317 mc_hitting_times.  None = numpy.inf.  [ht_inf] is the while
    loop of lines 297-301. *)
Fixpoint ht_inf (fuel : nat) (p : mat) (targets infinity : list nat) (current_size new_size : nat) : res (list nat) :=
  if Nat.eqb current_size new_size then Ok infinity
  else
    match fuel with
    | O => Err FuelErr
    | S fuel' =>
        let size := nrows p in
        let x := filter (fun i => negb (Qceqb (lsum (map (fun j => mget p i j) infinity)) 0)) (seq 0 size) in
        let infinity' := filter (fun i => (memn i infinity || memn i x) && negb (memn i targets)) (seq 0 size) in
        ht_inf fuel' p targets infinity' (length infinity') current_size
    end.
Definition hitting_times (nnls : nnls_t) (p : mat) (targets : list nat) : res (list (option Qc)) :=
  let size := nrows p in
  hp <- hitting_probabilities nnls p targets ;;
  let infinity0 := filter (fun i => isclose (vget hp i) 0) (seq 0 size) in
  infinity <- ht_inf (size + 2) p targets infinity0 (length infinity0) 0 ;;
  let solve := filter (fun i => negb (memn i targets || memn i infinity)) (seq 0 size) in
  x <- (if Nat.eqb (length solve) 0 then Ok []
        else nnls (msub (mix p solve solve) (eye (length solve))) (repeat (- (1))%Qc (length solve))) ;;
  Ok (tab size (fun j => if memn j infinity then None
                         else match index_of Nat.eqb j solve with Some k => Some (vget x k) | None => Some 0q end)).

(** measures.py 348-378 mc_mean_first_passage_times_to with targets *)
Definition mfpt_to (m : mcenv) (targets : list nat) : res (option vec) :=
  e <- is_ergodic m ;;
  if negb e then Ok None
  else
    let p := en_p m in
    let size := en_size m in
    let a := mk size size (fun i j => if memn i targets then delta i j else delta i j - mget p i j)%Qc in
    let b := tab size (fun i => if memn i targets then 0q else 1q) in
    x <- lift (solve_vec a b) ;;
    Ok (Some x).
(** the same without targets (lines 355-366) *)
Definition mfpt_all (m : mcenv) : res (option mat) :=
  e <- is_ergodic m ;;
  if negb e then Ok None
  else
    let p := en_p m in
    let size := en_size m in
    pi <- pi0 m ;;
    let a := mk size size (fun _ j => vget pi j) in
    z <- lift (minv (mk size size (fun i j => delta i j - mget p i j + mget a i j)%Qc)) ;;
    guard forallb (fun j => negb (Qceqb (vget pi j) 0)) (seq 0 size) else ArithErr ;;
    Ok (Some (mk size size (fun i j =>
      if Nat.eqb i j then 0q
      else ((delta i j - mget z i j + mget z j j) * (1 / vget pi j))%Qc))).

(** measures.py 331-345 mc_mean_first_passage_times_between *)
Definition mfpt_between (m : mcenv) (origins targets : list nat) : res (option Qc) :=
  e <- is_ergodic m ;;
  if negb e then Ok None
  else
    pi <- pi0 m ;;
    t <- mfpt_to m targets ;;
    match t with
    | None => Err TypeErr
    | Some t =>
        let po := map (vget pi) origins in
        let total := lsum po in
        guard negb (Qceqb total 0) else ArithErr ;;
        Ok (Some (vdot (map (fun x => x / total)%Qc po) (map (vget t) origins)))
    end.

(** measures.py 457-466 mc_mean_recurrence_times *)
Definition mean_recurrence_times (m : mcenv) : res (option vec) :=
  e <- is_ergodic m ;;
  if negb e then Ok None
  else pi <- pi0 m ;; Ok (Some (map (fun v => if isclose v 0 then 0q else (1 / v)%Qc) pi)).

(** measures.py 469-493 mc_mixing_time; markov_chain.py 1649-1679.  [cutoff] is 0.25
    or 1/(2e); the model takes any rational number for it. *)
Definition l1dist (u v : vec) : Qc := sumn (length u) (fun i => Qcabs (vget u i - vget v i)).
Fixpoint mixing_loop (fuel : nat) (p : mat) (pi : vec) (jump : nat) (cutoff : Qc) (iterations : nat) (tvd : Qc) (d : vec) (mt : nat) : option nat :=
  match fuel with
  | O => if Nat.eqb iterations 100 then None else Some mt
  | S fuel' =>
      if Qcltb cutoff tvd then
        mixing_loop fuel' p pi jump cutoff (iterations + 1) (l1dist d pi) (vmul d p) (mt + jump)
      else if Nat.eqb iterations 100 then None else Some mt
  end.
Definition mixing_time (m : mcenv) (x : vec) (jump : nat) (cutoff : Qc) : res (option nat) :=
  guard Nat.ltb 0 jump else ValueErr ;;
  guard Nat.eqb (length x) (en_size m) else ValueErr ;;
  e <- is_ergodic m ;;
  if negb e then Ok None
  else
    pi <- pi0 m ;;
    Ok (mixing_loop 100 (en_p m) pi jump cutoff 0 1q (vmul x (en_p m)) 0).

(** measures.py 496-517 mc_sensitivity.  [lstsq a b] is numpy.linalg.lstsq(a, b)[0]:
    an argument, specified in S_Measures. *)
Definition lstsq_t := mat -> vec -> res vec.
Definition sensitivity (lstsq : lstsq_t) (m : mcenv) (state : nat) : res (option mat) :=
  if negb (is_irreducible (en_comps m)) then Ok None
  else
    let p := en_p m in
    let size := en_size m in
    pi <- pi0 m ;;
    let a := mk size (size + 1) (fun i j => if Nat.ltb j size then (mget p i j - delta i j)%Qc else 1q) in
    let b := tab size (fun i => delta state i) in
    x <- lstsq a b ;;
    let phi := firstn size x in
    Ok (Some (mk size size (fun i j => - (vget pi i * vget phi j) + vdot phi pi * (vget pi i * 1))%Qc)).

(** measures.py 381-454 mc_mean_number_visits.  None = numpy.inf. *)
Definition mnv_hp (m : mcenv) (j : nat) : res vec :=
  let p := en_p m in
  let size := en_size m in
  let cc := communicating_indices (en_comps m) in
  let cm := communication_matrix p (en_comps m) in
  let closed_state i := forallb (fun c => negb (memn i c) ||
    forallb (fun a => forallb (fun b => memn b c || negb (Qcltb 0 (mget p a b))) (seq 0 size)) c) cc in
  let a := mk size size (fun i k =>
    if closed_state i then delta i k
    else ((if Nat.eqb k j then 0 else mget p i k) - delta i k)%Qc) in
  let b := tab size (fun i =>
    if closed_state i then (if Z.eqb (zget cm i j) 1 then 1q else 0q) else (- mget p i j)%Qc) in
  lift (solve_vec a b).
Definition mean_number_visits (m : mcenv) : res (list (list (option Qc))) :=
  let size := en_size m in
  cols <- mapM (mnv_hp m) (seq 0 size) ;;
  let hp i j := vget (nth j cols []) i in
  Ok (tab size (fun i => tab size (fun j =>
    if isclose (hp i j) 0 then Some 0q
    else if isclose (hp j j) 1 then None
    else Some (hp i j * (1 / (1 - hp j j)))%Qc))).

(** measures.py 520-609 mc_time_correlations, 612-675 mc_time_relaxations.
    Sequences of states (positions) and the sorted list of time points. *)
Definition observations (size : nat) (sequence : list nat) : vec :=
  tab size (fun i => Qcn (count_occ Nat.eq_dec sequence i)).
Fixpoint iter_n {A} (k : nat) (f : A -> A) (x : A) : A := match k with O => x | S k' => iter_n k' f (f x) end.
(** the loop over the time points: [start] is start_values *)
Fixpoint time_loop (f : vec -> vec) (out : vec -> Qc) (v0 : vec) (start : option (nat * vec)) (time_points : list nat) : list Qc :=
  match time_points with
  | [] => []
  | t :: ts =>
      let pk := match start with
                | Some (prev, v) => iter_n (t - prev) f v
                | None => if Nat.leb 2 t then iter_n (t - 2) f (f (f v0))
                          else if Nat.eqb t 1 then f v0 else v0
                end in
      out pk :: time_loop f out v0 (Some (t, pk)) ts
  end.
Definition rdl_power (n : nat) (dec : rdl) (t : nat) : mat :=
  mmul (mmul (rdl_r dec) (mk n n (fun i j => if Nat.eqb i j then qpow (mget (rdl_d dec) i i) t else 0q))) (rdl_l dec).
Definition time_correlations (m : mcenv) (dec : res rdl) (sequence1 : list nat) (sequence2 : option (list nat)) (time_points : list nat) : res (option (list Qc)) :=
  let p := en_p m in
  let size := en_size m in
  dec <- dec ;;
  pis <- stationary_distributions p (en_comps m) ;;
  if Nat.ltb 1 (length pis) then Ok None
  else match pis with
  | [] => Err IndexErr
  | pi :: _ =>
      let o1 := observations size sequence1 in
      let o2 := match sequence2 with None => o1 | Some s => observations size s end in
      let m1 := tab size (fun i => vget o1 i * vget pi i)%Qc in
      if Nat.ltb size (last time_points 0) then
        Ok (Some (map (fun t => vdot m1 (mvmul (rdl_power size dec t) o2)) time_points))
      else Ok (Some (time_loop (mvmul p) (vdot m1) o2 None time_points))
  end.
Definition time_relaxations (m : mcenv) (dec : res rdl) (sequence : list nat) (x : vec) (time_points : list nat) : res (option (list Qc)) :=
  let p := en_p m in
  let size := en_size m in
  guard Nat.eqb (length x) size else ValueErr ;;
  dec <- dec ;;
  pis <- stationary_distributions p (en_comps m) ;;
  if Nat.ltb 1 (length pis) then Ok None
  else
    let o := observations size sequence in
    if Nat.ltb size (last time_points 0) then
      Ok (Some (map (fun t => vdot (vmul x (rdl_power size dec t)) o) time_points))
    else Ok (Some (time_loop (fun v => vmul v p) (fun v => vdot v o) x None time_points)).

(** /repo/pydtmc/simulations.py 176-192 mc_redistribute; markov_chain.py 1740-1763.
    The list of all the distributions, or with output_last only the last one. *)
Definition redist_step (p : mat) (v : vec) : vec := let w := vmul v p in map (fun x => x / lsum w)%Qc w.
Fixpoint redist_list (p : mat) (steps : nat) (v : vec) : list vec :=
  match steps with O => [v] | S k => v :: redist_list p k (redist_step p v) end.
Definition redistribute_all (p : mat) (steps : nat) (x : vec) : res (list vec) :=
  guard Nat.leb 1 steps else ValueErr ;; Ok (redist_list p steps x).
Definition redistribute_last (p : mat) (steps : nat) (x : vec) : res vec :=
  guard Nat.leb 1 steps else ValueErr ;; Ok (last (redist_list p steps x) []).
