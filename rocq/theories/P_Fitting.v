(** P_Fitting: property theorems about fitted chains. *)
From Verif Require Import S_Fitting M_Fitting L_Fitting L_FittingR ExH.
Close Scope Q_scope.
Open Scope nat_scope.
Open Scope res_scope.

(** ** C62 fit_sequence *)
Theorem C62_fit_mle : forall states s o c, fit_sequence (SeqMle o) states s = Ok c ->
  let n := length states in
  valid_chain n c /\ ch_states c = states /\
  match o with
  | Some true => forall i j, i < n -> j < n -> mget (ch_p c) i j = smoothed (Q2Qc (1 # 1000)) n s i j
  | _ => (forall i j, i < n -> j < n -> mget (ch_p c) i j = renorm n (seen_moves s i) j) /\ max_likelihood n s (ch_p c)
  end.
Proof. exact fit_sequence_mle_ok. Qed.
Print Assumptions C62_fit_mle.
Theorem C62_fit_map : forall states s o c, fit_sequence (SeqMap o) states s = Ok c ->
  let n := length states in let a := match o with Some a => a | None => fun _ _ => 1%nat end in
  valid_chain n c /\ ch_states c = states /\ posterior_mode n a s (ch_p c) /\
  (forall i j, i < n -> j < n -> mget (ch_p c) i j = renorm n (fun k => seen_moves s i k + (Qcn (a i k) - 1))%Qc j).
Proof. exact fit_sequence_map_ok. Qed.
Print Assumptions C62_fit_map.
Theorem C62_fit_accepts : forall t states s, names_ok (length states) states -> 2 <= length states -> 2 <= length s -> (forall i, In i s -> i < length states) ->
  (forall a, t = SeqMap (Some a) -> forall i j, i < length states -> j < length states -> 1 <= a i j) -> exists c, fit_sequence t states s = Ok c.
Proof. exact fit_sequence_accepts. Qed.
Print Assumptions C62_fit_accepts.
Example C62_example :
  match fit_sequence (SeqMle None) states3 [0; 1; 0; 0; 1; 1] with
  | Ok c => map (map this) (ch_p c) = [[1 # 3; 2 # 3; 0]; [1 # 2; 1 # 2; 0]; [1 # 3; 1 # 3; 1 # 3]]%Q | _ => False end /\
  match fit_sequence (SeqMap (Some (fun i j => if Nat.eqb j 2 then 2 else 1))) states3 [0; 1; 0; 0; 1; 1] with
  | Ok c => map (map this) (ch_p c) = [[1 # 4; 1 # 2; 1 # 4]; [1 # 3; 1 # 3; 1 # 3]; [0; 0; 1]]%Q | _ => False end.
Proof. split; vm_compute; reflexivity. Qed.

(** ** C84 documented smoothing *)
Theorem C84_smoothing_partial : forall states s c, fit_sequence (SeqMle (Some true)) states s = Ok c ->
  forall i j, i < length states -> j < length states -> mget (ch_p c) i j = smoothed (Q2Qc (1 # 1000)) (length states) s i j.
Proof. exact fit_smoothed. Qed.
Print Assumptions C84_smoothing_partial.
Theorem C84_smoothing_default_refuted : exists states s c d, fit_sequence (SeqMle None) states s = Ok c /\ fit_sequence (SeqMle (Some true)) states s = Ok d /\
  mget (ch_p c) 0 0 <> mget (ch_p d) 0 0.
Proof. exact smoothing_not_default. Qed.
Print Assumptions C84_smoothing_default_refuted.
Theorem C84_smoothing_laplace_refuted : exists states s c i j, fit_sequence (SeqMle (Some true)) states s = Ok c /\ i < length states /\ j < length states /\
  mget (ch_p c) i j <> smoothed 1q (length states) s i j.
Proof. exact smoothing_not_add_one. Qed.
Print Assumptions C84_smoothing_laplace_refuted.
Example C84_example :
  match fit_sequence (SeqMle (Some true)) names2 [0; 1; 1] with
  | Ok c => map (map this) (ch_p c) = [[1 # 1002; 1001 # 1002]; [1 # 1002; 1001 # 1002]]%Q | _ => False end.
Proof. vm_compute. reflexivity. Qed.

(** ** C63 fit_function *)
Theorem C63_fit_function_partial : forall t states f o c, fit_function t states f o = Ok c ->
  let n := length states in let a := match o with None => 0q | Some i => fst i end in let b := match o with None => 1q | Some i => snd i end in
  let x := q_nodes t a b n in let w := q_weights t a b n in
  (forall xo wo, t = QOther xo wo -> forall j, j < n -> (0 < wo j)%Qc) ->
  (forall i j v, i < n -> j < n -> f i (x i) j (x j) = Some v -> (0 <= v)%Qc) ->
  valid_chain n c /\ ch_states c = states /\
  forall i j, i < n -> j < n -> mget (ch_p c) i j = renorm n (fun k => match f i (x i) k (x k) with Some v => v * w k | None => 0 end)%Qc j.
Proof. exact fit_function_ok. Qed.
Print Assumptions C63_fit_function_partial.
Theorem C63_fit_function_accepts : forall t states f o,
  let n := length states in let a := match o with None => 0q | Some i => fst i end in let b := match o with None => 1q | Some i => snd i end in
  names_ok n states -> 2 <= n -> (0 <= a)%Qc -> (a < b)%Qc -> (t = QSimpson -> Nat.even n = false) ->
  (forall i x j y, exists v, f i x j y = Some v /\ (0 <= v)%Qc) -> (forall xo wo, t = QOther xo wo -> forall j, j < n -> (0 < wo j)%Qc) ->
  exists c, fit_function t states f o = Ok c.
Proof. exact fit_function_accepts. Qed.
Print Assumptions C63_fit_function_accepts.
Theorem C63_nodes_partial : forall t a b n i, (0 <= a)%Qc -> (a < b)%Qc -> 2 <= n -> i < n -> (t = QNewton -> a = 0q) ->
  (forall x w, t = QOther x w -> (a <= x i /\ x i <= b)%Qc) -> (a <= q_nodes t a b n i)%Qc /\ (q_nodes t a b n i <= b)%Qc.
Proof. exact nodes_in. Qed.
Print Assumptions C63_nodes_partial.
Theorem C63_weights_newton : forall a b n, 2 <= n -> sumn n (q_weights QNewton a b n) = (b - a)%Qc.
Proof. exact newton_sum. Qed.
Print Assumptions C63_weights_newton.
Theorem C63_weights_trapezoid : forall a b n, 2 <= n -> sumn n (q_weights QTrapezoid a b n) = (b - a)%Qc.
Proof. exact trapezoid_sum. Qed.
Print Assumptions C63_weights_trapezoid.
Theorem C63_weights_simpson : forall a b n, 2 <= n -> Nat.even n = false -> sumn n (q_weights QSimpson a b n) = (b - a)%Qc.
Proof. exact simpson_sum. Qed.
Print Assumptions C63_weights_simpson.
Theorem C63_negative_refuted : exists t states f o c, fit_function t states f o = Ok c /\ t <> QNewton /\
  (exists i j, i < length states /\ j < length states /\ (mget (ch_p c) i j < 0)%Qc).
Proof. exact fit_function_negative. Qed.
Print Assumptions C63_negative_refuted.
Theorem C63_newton_nodes_refuted : exists states f a b c i, fit_function QNewton states f (Some (a, b)) = Ok c /\ i < length states /\
  (q_nodes QNewton a b (length states) i < a)%Qc.
Proof. exact newton_outside. Qed.
Print Assumptions C63_newton_nodes_refuted.
Theorem C63_newton_outside_refuted : exists states f g a b c d, (forall i x j y, (a <= x /\ x <= b /\ a <= y /\ y <= b)%Qc -> f i x j y = g i x j y) /\
  fit_function QNewton states f (Some (a, b)) = Ok c /\ fit_function QNewton states g (Some (a, b)) = Ok d /\ mget (ch_p c) 0 0 <> mget (ch_p d) 0 0.
Proof. exact newton_reads_outside. Qed.
Print Assumptions C63_newton_outside_refuted.
Example C63_example :
  match fit_function QSimpson states3 (fun i x j y => Some (x * y)%Qc) None with
  | Ok c => map (map this) (ch_p c) = [[1 # 3; 1 # 3; 1 # 3]; [0; 2 # 3; 1 # 3]; [0; 2 # 3; 1 # 3]]%Q | _ => False end /\
  map (fun i => this (q_nodes QSimpson 0q 1q 3 i)) [0; 1; 2] = [0; 1 # 2; 1]%Q.
Proof. split; vm_compute; reflexivity. Qed.
