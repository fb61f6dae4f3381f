(** P_Hmm: property theorems about hidden Markov models. *)
From Verif Require Import S_Hmm2 L_Hmm2 L_Hmm3 L_Hmm4 ExH L_MeasuresR.
From Coq Require Import Reals.
Close Scope R_scope.
Open Scope nat_scope.
Open Scope res_scope.

(** ** C57 decode *)
Theorem C57_decode : forall n k h x obs b d, 0 < n -> hmm_ok n k (h_p h) (h_e h) x -> obs_ok k obs -> decode h obs (Some x) b = Some d ->
  let P := h_p h in let E := h_e h in
  (0 < likelihood n P E x obs)%Qc /\ d_log d = ln (Qc2R (likelihood n P E x obs)) /\ length (d_post d) = length obs /\
  forall t, t < length obs -> distribution n (nth t (d_post d) []) /\ forall i, i < n -> vget (nth t (d_post d) []) i = posterior n P E x obs t i.
Proof. exact decode_values. Qed.
Print Assumptions C57_decode.
Theorem C57_decode_none : forall n k h x obs b, 0 < n -> hmm_ok n k (h_p h) (h_e h) x -> obs_ok k obs ->
  let L t := likelihood n (h_p h) (h_e h) x (firstn t obs) in
  (decode h obs (Some x) b = None <-> exists t, t < length obs /\ (L (S t) < Q2Qc (1 # (Pos.pow 10 300)) * L t)%Qc).
Proof. exact decode_none. Qed.
Print Assumptions C57_decode_none.
Theorem C57_decode_arrays : forall n k h x obs b d, 0 < n -> hmm_ok n k (h_p h) (h_e h) x -> obs_ok k obs -> decode h obs (Some x) b = Some d ->
  let P := h_p h in let E := h_e h in let L t := likelihood n P E x (firstn t obs) in
  length (d_fwd d) = S (length obs) /\ length (d_back d) = S (length obs) /\ nth 0 (d_fwd d) [] = x /\
  (forall t i, t < length obs -> i < n ->
     vget (nth (S t) (d_fwd d) []) i =
       (let a := paths_total n P E x (firstn (S t) obs) (fun w => Nat.eqb (nth t w 0%nat) i) in if b then a / L (S t) else a)%Qc) /\
  (forall t i, t <= length obs -> i < n ->
     vget (nth t (d_back d) []) i =
       (let f := future n P E i (skipn t obs) in if b then f * L t / L (length obs) else f)%Qc) /\
  (if b then exists sf, d_scale d = Some sf /\ length sf = S (length obs) /\ nth 0 sf 0q = 1q /\ forall t, t < length obs -> (nth (S t) sf 0q * L t = L (S t))%Qc
   else d_scale d = None).
Proof. exact decode_arrays. Qed.
Print Assumptions C57_decode_arrays.
Theorem C57_default_start : forall n h symbols b, stochastic n (h_p h) ->
  decode h symbols None b = decode h symbols (Some (tab n (fun _ => 1 / Qcn n)%Qc)) b.
Proof. exact decode_default. Qed.
Print Assumptions C57_default_start.
Example C57_example : hmm_ok 2 3 pH eH xU /\ obs_ok 3 obsH /\
  match decode hH obsH (Some xU) false with Some d => map (map this) (d_post d) | None => [] end =
    [[1260 # 1579; 319 # 1579]; [808 # 1579; 771 # 1579]; [213 # 1579; 1366 # 1579]]%Q /\
  (this (likelihood 2 pH eH xU obsH) = 14211 # 400000)%Q /\
  decode (mkhmm pZ eZ ["A"; "B"] ["u"; "v"])%string [1; 1] (Some (map q [1; 0]%Q)) true = None.
Proof.
  split; [split; [apply stochasticb_ok; vm_compute; reflexivity|]; split; [apply row_stochasticb_ok; vm_compute; reflexivity|apply distributionb_ok; vm_compute; reflexivity]|].
  split; [intros o Ho; cbn in Ho; lia|]. split; [vm_compute; reflexivity|]. split; vm_compute; reflexivity.
Qed.

(** ** C82 maximum a posteriori prediction *)
Theorem C82_predict_map : forall n k P E x obs, 0 < n -> hmm_ok n k P E x -> obs_ok k obs ->
  match predict_map P E x obs with
  | Some (lp, w) => lp = ln (Qc2R (likelihood n P E x obs)) /\ length w = length obs /\
      forall t, t < length obs -> nth t w 0 < n /\
        (forall i, i < n -> (posterior n P E x obs t i <= posterior n P E x obs t (nth t w 0%nat))%Qc) /\
        (forall i, i < nth t w 0 -> (posterior n P E x obs t i < posterior n P E x obs t (nth t w 0%nat))%Qc)
  | None => exists t, t < length obs /\ (likelihood n P E x (firstn (S t) obs) < tiny300 * likelihood n P E x (firstn t obs))%Qc
  end.
Proof. exact predict_map_spec. Qed.
Print Assumptions C82_predict_map.
Example C82_example : hmm_ok 2 3 pH eH xU /\ obs_ok 3 obsH /\
  match predict_map pH eH xU obsH with Some (_, w) => w = [0; 0; 1] | None => False end.
Proof.
  split; [split; [apply stochasticb_ok; vm_compute; reflexivity|]; split; [apply row_stochasticb_ok; vm_compute; reflexivity|apply distributionb_ok; vm_compute; reflexivity]|].
  split; [intros o Ho; cbn in Ho; lia|vm_compute; reflexivity].
Qed.

(** ** C58 Viterbi prediction *)
Theorem C58_viterbi_score_partial : forall n k P E x obs, 0 < n -> hmm_ok n k P E x -> obs_ok k obs -> obs <> [] ->
  match viterbi P E x obs with
  | Ok (Some (v, w)) => (0 < v)%Qc /\ In w (words n (length obs)) /\
      (exists i, i < n /\ v = vit_score P E x obs i w) /\
      forall i w', i < n -> In w' (words n (length obs)) -> (vit_score P E x obs i w' <= v)%Qc
  | Ok None => forall i w', i < n -> In w' (words n (length obs)) -> vit_score P E x obs i w' = 0q
  | Err _ => False
  end.
Proof. exact viterbi_spec. Qed.
Print Assumptions C58_viterbi_score_partial.
Theorem C58_viterbi_known_start_partial : forall n k P E i obs v w, 0 < n -> hmm_ok n k P E (tab n (delta i)) -> i < n -> obs_ok k obs -> obs <> [] ->
  viterbi P E (tab n (delta i)) obs = Ok (Some (v, w)) ->
  best_path n P E (tab n (delta i)) obs w /\ v = (mget E i (hd 0%nat obs) * joint n P E (tab n (delta i)) w obs)%Qc.
Proof. exact viterbi_known_start. Qed.
Print Assumptions C58_viterbi_known_start_partial.
Theorem C58_viterbi_path_refuted : exists n k P E x obs v w, hmm_ok n k P E x /\ obs_ok k obs /\ 2 <= length obs /\
  viterbi P E x obs = Ok (Some (v, w)) /\
  (exists w', In w' (words n (length obs)) /\ (joint n P E x w obs < joint n P E x w' obs)%Qc) /\
  (exists i' w', i' < n /\ In w' (words n (length obs)) /\ forall i, i < n -> (vget x i * joint_from P E i w obs < vget x i' * joint_from P E i' w' obs)%Qc).
Proof. exact viterbi_not_best. Qed.
Print Assumptions C58_viterbi_path_refuted.
Theorem C58_viterbi_none_refuted : exists n k P E x obs w, hmm_ok n k P E x /\ obs_ok k obs /\ 2 <= length obs /\
  viterbi P E x obs = Ok None /\ In w (words n (length obs)) /\ (0 < joint n P E x w obs)%Qc.
Proof. exact viterbi_none_possible. Qed.
Print Assumptions C58_viterbi_none_refuted.
Theorem C58_viterbi_probability_refuted : exists n k P E x obs v w, hmm_ok n k P E x /\ obs_ok k obs /\ 2 <= length obs /\
  viterbi P E x obs = Ok (Some (v, w)) /\ best_path n P E x obs w /\ (v < joint n P E x w obs)%Qc.
Proof. exact viterbi_wrong_probability. Qed.
Print Assumptions C58_viterbi_probability_refuted.
Example C58_example : hmm_ok 2 3 pH eH (tab 2 (delta 0)) /\ obs_ok 3 obsH /\
  match viterbi pH eH (tab 2 (delta 0)) obsH with Ok (Some (v, w)) => this v = (27 # 3125)%Q /\ w = [0; 0; 1] | _ => False end.
Proof.
  split; [split; [apply stochasticb_ok; vm_compute; reflexivity|]; split; [apply row_stochasticb_ok; vm_compute; reflexivity|apply distributionb_ok; vm_compute; reflexivity]|].
  split; [intros o Ho; cbn in Ho; lia|vm_compute; auto].
Qed.

(** ** C59 simulation *)
Theorem C59_simulate_partial : forall n k P E states symbols steps init fs fy c0 pr er, 0 < n -> stochastic n P -> row_stochastic n k E ->
  unit_draws pr -> unit_draws er -> (forall t, (0 < pr t)%Qc /\ (0 < er t)%Qc) -> (0 <= c0)%Qc -> (c0 < 1q)%Qc -> init < n ->
  let r := hmm_simulate (mkhmm P E states symbols) steps init fs fy c0 pr er in
  possible_run n k P E (fst r) (snd r) /\ 1 <= length (fst r) <= steps + 1 /\ nth 0 (fst r) 0 = init /\
  (forall q, 1 <= q -> S q < length (fst r) -> fs <> Some (nth q (fst r) 0) /\ fy <> Some (nth q (snd r) 0)) /\
  (length (fst r) = steps + 1 \/ (2 <= length (fst r) /\ (fs = Some (nth (length (fst r) - 1) (fst r) 0) \/ fy = Some (nth (length (fst r) - 1) (snd r) 0)))).
Proof. exact hmm_simulate_possible. Qed.
Print Assumptions C59_simulate_partial.
Theorem C59_simulate_all_draws_partial : forall n k P E states symbols steps init fs fy c0 pr er, 0 < n -> stochastic n P -> row_stochastic n k E ->
  unit_draws pr -> unit_draws er -> (0 <= c0)%Qc -> (c0 < 1q)%Qc -> init < n ->
  let r := hmm_simulate (mkhmm P E states symbols) steps init fs fy c0 pr er in
  let st := fst r in let sy := snd r in
  length st = length sy /\ 1 <= length st <= steps + 1 /\ nth 0 st 0 = init /\ nth 0 sy 0 < k /\ (0 < mget E init (nth 0%nat sy 0%nat))%Qc /\
  (forall q, S q < length st -> step_ok n k P E (nth q st 0) (nth (S q) st 0, nth (S q) sy 0) (pr q) (er q)) /\
  (forall q, 1 <= q -> S q < length st -> fs <> Some (nth q st 0) /\ fy <> Some (nth q sy 0)) /\
  (length st = steps + 1 \/ (2 <= length st /\ (fs = Some (nth (length st - 1) st 0) \/ fy = Some (nth (length st - 1) sy 0)))).
Proof. exact hmm_simulate_steps. Qed.
Print Assumptions C59_simulate_all_draws_partial.
Theorem C59_simulate_refuted : exists n k h steps init c0 pr er, stochastic n (h_p h) /\ row_stochastic n k (h_e h) /\ unit_draws pr /\ unit_draws er /\
  (0 <= c0)%Qc /\ (c0 < 1q)%Qc /\ init < n /\
  let r := hmm_simulate h steps init None None c0 pr er in
  mget (h_p h) (nth 0 (fst r) 0%nat) (nth 1 (fst r) 0%nat) = 0q /\ mget (h_e h) (nth 1 (fst r) 0%nat) (nth 1 (snd r) 0%nat) = 0q /\ length (fst r) = 3.
Proof. exact simulate_impossible. Qed.
Print Assumptions C59_simulate_refuted.
Example C59_example : stochastic 2 pH /\ row_stochastic 2 3 eH /\
  hmm_simulate hH 4 0 None None (q (1 # 3)) (fun t => q (Z.of_nat t + 1 # 5)) (fun t => q (9 - 2 * Z.of_nat t # 10)) = ([0; 0; 0; 0; 1], [0; 1; 1; 0; 1]) /\
  hmm_simulate hH 4 0 None (Some 0) (q (1 # 3)) (fun t => q (Z.of_nat t + 1 # 5)) (fun t => q (9 - 2 * Z.of_nat t # 10)) = ([0; 0; 0; 0], [0; 1; 1; 0]).
Proof. split; [apply stochasticb_ok; vm_compute; reflexivity|]. split; [apply row_stochasticb_ok; vm_compute; reflexivity|]. split; vm_compute; reflexivity. Qed.

(** ** C60 restriction *)
Theorem C60_restrict_partial : forall n k P E states symbols so yo h', 1 < n -> 1 < k -> stochastic n P -> row_stochastic n k E ->
  restrict (mkhmm P E states symbols) so yo = Ok h' ->
  (so <> None \/ (forall sy, selected k yo sy -> length sy < n)) ->
  exists ss sy, selected n so ss /\ selected k yo sy /\
    h_states h' = map (fun s => nth s states ""%string) ss /\ h_symbols h' = map (fun s => nth s symbols ""%string) sy /\
    stochastic (length ss) (h_p h') /\ row_stochastic (length ss) (length sy) (h_e h') /\
    (forall a b, a < length ss -> b < length ss -> mget (h_p h') a b = renorm (length ss) (fun c => mget P (nth a ss 0%nat) (nth c ss 0%nat)) b) /\
    (forall a b, a < length ss -> b < length sy -> mget (h_e h') a b = renorm (length sy) (fun c => mget E (nth a ss 0%nat) (nth c sy 0%nat)) b).
Proof. exact restrict_ok. Qed.
Print Assumptions C60_restrict_partial.
Theorem C60_restrict_refuted : exists n k h so yo h', stochastic n (h_p h) /\ row_stochastic n k (h_e h) /\ length (h_states h) = n /\ length (h_symbols h) = k /\
  restrict h so yo = Ok h' /\ length (h_symbols h') <> ncols (h_e h') /\
  exists i, i < n /\ sumn (length (h_symbols h')) (mget (h_e h') i) <> 1q.
Proof. exact restrict_inconsistent. Qed.
Print Assumptions C60_restrict_refuted.
Theorem C60_restrict_one_state_refuted : exists n k h i h', 2 <= n /\ stochastic n (h_p h) /\ row_stochastic n k (h_e h) /\ restrict h (Some (SelOne i)) None = Ok h' /\
  length (h_states h') = 1.
Proof. exact restrict_single_state. Qed.
Print Assumptions C60_restrict_one_state_refuted.
Example C60_example : stochastic 3 p3 /\ row_stochastic 3 2 e3 /\
  match restrict h3 (Some (SelList [2; 1])) None with
  | Ok h => map (map this) (h_p h) = [[1 # 2; 1 # 2]; [1 # 2; 1 # 2]]%Q /\ map (map this) (h_e h) = [[1 # 3; 2 # 3]; [1; 0]]%Q /\ h_states h = ["B"; "C"]%string
  | Err _ => False end.
Proof. split; [apply stochasticb_ok; vm_compute; reflexivity|]. split; [apply row_stochasticb_ok; vm_compute; reflexivity|]. vm_compute. auto. Qed.

(** ** C61 estimation *)
Theorem C61_estimate : forall states symbols ss sy h, estimate states symbols ss sy = Ok h ->
  let n := length states in let k := length symbols in
  length ss = length sy /\ 2 <= length ss /\ h_states h = states /\ h_symbols h = symbols /\ names_ok n states /\ names_ok k symbols /\
  stochastic n (h_p h) /\ row_stochastic n k (h_e h) /\
  (forall i j, i < n -> j < n -> mget (h_p h) i j = renorm n (seen_moves ss i) j) /\
  (forall i j, i < n -> j < k -> mget (h_e h) i j = renorm k (seen_symbols ss sy i) j).
Proof. exact estimate_ok. Qed.
Print Assumptions C61_estimate.
Theorem C61_estimate_accepts : forall states symbols ss sy, names_ok (length states) states -> names_ok (length symbols) symbols ->
  2 <= length states -> 2 <= length symbols -> (forall s, In s states -> ~ In s symbols) -> 2 <= length ss -> length ss = length sy ->
  (forall i, In i ss -> i < length states) -> (forall i, In i sy -> i < length symbols) -> exists h, estimate states symbols ss sy = Ok h.
Proof. exact estimate_accepts. Qed.
Print Assumptions C61_estimate_accepts.
Example C61_example :
  match estimate ["A"; "B"]%string ["u"; "v"]%string [0; 0; 0; 1] [0; 1; 1; 0] with
  | Ok h => map (map this) (h_p h) = [[2 # 3; 1 # 3]; [1 # 2; 1 # 2]]%Q /\ map (map this) (h_e h) = [[1 # 3; 2 # 3]; [1; 0]]%Q
  | Err _ => False end.
Proof. vm_compute. auto. Qed.

(** ** C83 fitting *)
Theorem C83_fit_partial : forall ft states symbols k P E seqs init conv h, stochastic (length states) P -> row_stochastic (length states) k E ->
  (forall v, init = Some v -> distribution (length states) v) ->
  fit ft states symbols P E seqs init conv = Ok h ->
  h_states h = states /\ h_symbols h = symbols /\ stochastic (length states) (h_p h) /\ row_stochastic (length states) k (h_e h).
Proof. exact fit_ok. Qed.
Print Assumptions C83_fit_partial.
Theorem C83_fit_columns_refuted : exists ft states symbols k P E seqs conv h,
  stochastic (length states) P /\ row_stochastic (length states) k E /\
  fit ft states symbols P E seqs None conv = Ok h /\ h_symbols h = symbols /\ ncols (h_e h) <> length symbols.
Proof. exact fit_inconsistent. Qed.
Print Assumptions C83_fit_columns_refuted.
Example C83_example : stochastic 2 pH /\ row_stochastic 2 3 eH /\
  match fit FitViterbi ["A"; "B"]%string ["u"; "v"; "w"]%string pH eH [[0; 0; 2; 2; 0; 1; 2; 2; 1]] None (fun _ => true) with
  | Ok h => map (map this) (h_p h) = [[1 # 2; 1 # 2]; [1 # 4; 3 # 4]]%Q /\ map (map this) (h_e h) = [[3 # 4; 1 # 4; 0]; [0; 1 # 5; 4 # 5]]%Q
  | Err _ => False end.
Proof. split; [apply stochasticb_ok; vm_compute; reflexivity|]. split; [apply row_stochasticb_ok; vm_compute; reflexivity|]. vm_compute. auto. Qed.
