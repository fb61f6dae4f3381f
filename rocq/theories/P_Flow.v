(** P_Flow: properties of plot_flow (theorems only). *)
From Verif Require Import M_Flow S_Measures S_Flow L_Flow ExH Dec.
Open Scope nat_scope.
Open Scope res_scope.

(** ** C162 bars and flows of an alluvial diagram *)
Theorem C162_flow : forall n P steps I x, 2 <= n -> stochastic n P -> distribution n x -> 1 <= steps -> 1 <= I ->
  exists f, plot_flow P steps I x = Ok f /\ bars_drawn n steps (fun t i => step_dist n P x (t * I) i) f /\
    flows_drawn n steps (fun t i j => step_dist n P x (t * I) i * kstep n P I i j)%Qc f.
Proof. exact flow_drawn. Qed.
Print Assumptions C162_flow.
Example C162_example : stochastic 2 pH /\ distribution 2 (qv [1 # 4; 3 # 4]%Q) /\
  match plot_flow pH 3 2 (qv [1 # 4; 3 # 4]%Q) with Ok f => Qceqb (fst (bar f 0 1)) (q (13 # 40)) | Err _ => false end = true.
Proof. split; [apply stochasticb_ok; vm_compute; reflexivity|]. split; [apply distributionb_ok; vm_compute; reflexivity|vm_compute; reflexivity]. Qed.

(** ** C163 every column of an alluvial diagram can be seen *)
Theorem C163_hidden_refuted : forall n P steps I x f, 2 <= n -> stochastic n P -> distribution n x -> plot_flow P steps I x = Ok f ->
  (steps < 20 /\ (snd (fd_xlim f) <= bar_left f steps)%Qc) \/ (20 <= steps /\ forall c, (bar_left f (S c) < bar_right f c)%Qc /\ (flow_to f c < flow_from f c)%Qc).
Proof. exact flow_hidden. Qed.
Print Assumptions C163_hidden_refuted.
Theorem C163_shown_partial : forall n P steps I x f, 2 <= n -> stochastic n P -> distribution n x -> plot_flow P steps I x = Ok f -> steps < 19 ->
  forall c, c < steps -> (fst (fd_xlim f) < bar_left f c)%Qc /\ (bar_right f c < snd (fd_xlim f))%Qc /\ (bar_right f c < bar_left f (S c))%Qc.
Proof. exact flow_shown. Qed.
Print Assumptions C163_shown_partial.
Example C163_example : stochastic 2 pH /\ distribution 2 (qv [1 # 4; 3 # 4]%Q) /\ is_ok (plot_flow pH 3 2 (qv [1 # 4; 3 # 4]%Q)) = true /\ is_ok (plot_flow pH 20 1 (qv [1 # 4; 3 # 4]%Q)) = true.
Proof. split; [apply stochasticb_ok; vm_compute; reflexivity|]. split; [apply distributionb_ok; vm_compute; reflexivity|]. split; vm_compute; reflexivity. Qed.
