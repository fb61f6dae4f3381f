(** P_Plots: properties of plot_sequence, plot_redistributions and plot_comparison (theorems only). *)
From Coq Require Import String.
From Verif Require Import M_Plots S_Plots S_Measures S_Simulation L_Plots ExH Dec.
Open Scope nat_scope.
Open Scope res_scope.

(** ** C166 sequence plots *)
Theorem C166_chain : forall n P steps init kind r u, 0 < n -> stochastic n P -> unit_draws u -> 2 <= steps -> (forall i, init = Some i -> i < n) ->
  exists w pl, simulate P steps init None r u = Ok w /\ possible_walk n P w /\ length w = steps + 1 /\ plot_sequence P steps init kind r u = Ok pl /\ pictures n steps w kind pl.
Proof. exact plot_sequence_shows. Qed.
Print Assumptions C166_chain.
Theorem C166_hmm : forall n k P E states symbols steps init kind c0 pr er, 0 < n -> stochastic n P -> row_stochastic n k E ->
  unit_draws pr -> unit_draws er -> (0 <= c0)%Qc -> (c0 < 1q)%Qc -> init < n -> 2 <= steps ->
  let h := mkhmm P E states symbols in
  let r := hmm_simulate h steps init None None c0 pr er in
  exists a b, plot_sequence_hmm h steps init kind c0 pr er = Ok (a, b) /\ nth 0 (fst r) 0 = init /\ length (fst r) = steps + 1 /\ length (snd r) = steps + 1 /\
    pictures n steps (fst r) kind a /\ pictures k steps (snd r) kind b.
Proof. exact plot_sequence_hmm_shows. Qed.
Print Assumptions C166_hmm.
Example C166_example : stochastic 2 pH /\ unit_draws (fun t => if Nat.even t then q (1 # 3) else q (9 # 10)) /\
  match simulate pH 4 (Some 0) None 0 (fun t => if Nat.even t then q (1 # 3) else q (9 # 10)), plot_sequence pH 4 (Some 0) KHistogram 0 (fun t => if Nat.even t then q (1 # 3) else q (9 # 10)) with
  | Ok w, Ok (Histogram h) => Qceqb (vget h 0) (Qcn (count_occ Nat.eq_dec w 0%nat) / Qcn 5)%Qc
  | _, _ => false end = true.
Proof. split; [apply stochasticb_ok; vm_compute; reflexivity|]. split; [|vm_compute; reflexivity]. intros t. destruct (Nat.even t); split; [discriminate|reflexivity|discriminate|reflexivity]. Qed.

(** ** C167 plots of redistributions *)
Theorem C167_redistributions : forall n P k init, 0 < n -> stochastic n P -> 1 <= k -> (forall x, init = Some x -> distribution n x) ->
  let x := match init with Some x => x | None => even_status n end in
  exists pj, plot_redistributions P k init = Ok pj /\ length (pj_points pj) = n /\
  forall i, i < n -> length (nth i (pj_points pj) []) = k + 1 /\
  forall t, t <= k -> let pt := nth t (nth i (pj_points pj) []) (0q, 0q) in
    pt = (Qcn t, step_dist n P x t i) /\ (fst (pj_xlim pj) < fst pt)%Qc /\ (fst pt < snd (pj_xlim pj))%Qc /\ (fst (pj_ylim pj) < snd pt)%Qc /\ (snd pt < snd (pj_ylim pj))%Qc.
Proof. exact redistributions_shown. Qed.
Print Assumptions C167_redistributions.
Example C167_example : stochastic 2 pH /\ distribution 2 (qv [1 # 4; 3 # 4]%Q) /\ is_ok (plot_redistributions pH 3 (Some (qv [1 # 4; 3 # 4]%Q))) = true.
Proof. split; [apply stochasticb_ok; vm_compute; reflexivity|]. split; [apply distributionb_ok; vm_compute; reflexivity|vm_compute; reflexivity]. Qed.

(** ** C168 comparison plots *)
Theorem C168_grid : forall m, 2 <= m -> let (r, c) := grid m in 1 <= r /\ m <= r * c /\ r * c < m + r /\ r <= c.
Proof. exact grid_fits. Qed.
Print Assumptions C168_grid.
Theorem C168_every_model : forall (A B : Type) (models : list A) (names : list B) da db, 2 <= length models -> length names = length models ->
  exists cells, plot_comparison models names = Ok cells /\ length cells = length models /\
  forall k, k < length models -> nth k cells (0, da, db) = (k, nth k models da, nth k names db).
Proof. exact @comparison_all. Qed.
Print Assumptions C168_every_model.
Theorem C168_names : forall hidden, NoDup (models_names hidden) /\ length (models_names hidden) = length hidden.
Proof. exact names_distinct. Qed.
Print Assumptions C168_names.
Example C168_example : plot_comparison [10; 20; 30; 40; 50] (models_names [false; true; false; false; false]) =
  Ok [(0, 10, ("MODEL"%string, 1)); (1, 20, ("MODEL"%string, 2)); (2, 30, ("MODEL"%string, 3)); (3, 40, ("MODEL"%string, 4)); (4, 50, ("MODEL"%string, 5))] /\ grid 5 = (2, 3).
Proof. split; reflexivity. Qed.
