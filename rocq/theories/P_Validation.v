(** P_Validation: property theorems about the arguments the library accepts. *)
From Verif Require Import S_Validation M_Validation L_Valid5 ExV.
Close Scope Q_scope.
Open Scope nat_scope.
Open Scope res_scope.

(** ** C01 constructor *)
Theorem C01_constructor_partial : forall caller p st o, user_caller caller ->
  (construct caller p st = Ok o <->
   exists n P l, 2 <= n /\ real_part_matrix p n n P /\ probabilities n n P /\ nearly_stochastic n n P
     /\ names_argument st n l /\ o = mkrobj (map (map Fin) P) l).
Proof. exact construct_user. Qed.
Print Assumptions C01_constructor_partial.
Theorem C01_complex_refuted : exists p o, construct "main" p pyNames = Ok o /\ has_entry p [0; 0] (Fin half, Fin (Q2Qc 3)).
Proof. exact complex_accepted. Qed.
Print Assumptions C01_complex_refuted.
Example C01_example : construct "main" pyOk pyNames = Ok (mkrobj (map (map Fin) [[half; half]; [Q2Qc 0; Q2Qc 1]]) ["a"; "b"]%string)
  /\ construct "main" pyOk PNone = Ok (mkrobj (map (map Fin) [[half; half]; [Q2Qc 0; Q2Qc 1]]) ["1"; "2"]%string)
  /\ construct "main" pyLow PNone = Err ValueErr /\ construct "main" pyNan PNone = Err ValueErr /\ construct "main" pyBad PNone = Err ValueErr
  /\ construct "main" pyOk (PList [PStr "a"; PStr "a"]) = Err ValueErr.
Proof. repeat split; vm_compute; reflexivity. Qed.

(** ** C02 constructor, whoever calls it *)
Theorem C02_caller_partial : forall caller p st o, user_caller caller -> construct caller p st = Ok o ->
  exists n P, r_p o = map (map Fin) P /\ wf n n P /\ probabilities n n P /\ nearly_stochastic n n P.
Proof. exact construct_user_valid. Qed.
Print Assumptions C02_caller_partial.
Theorem C02_caller_refuted : exists caller p st o i j, construct caller p st = Ok o /\ i < 2 /\ j < 2 /\
  prob01 (nth j (nth i (r_p o) []) NaN) = false.
Proof. exact bypass. Qed.
Print Assumptions C02_caller_refuted.
Example C02_example : user_caller "main" /\ user_caller "my_simulation".
Proof. split; intros H; vm_compute in H; repeat (destruct H as [H|H]; [discriminate|]); exact H. Qed.

(** ** C06 selections of states *)
Theorem C06_selection : forall v labels subset minimum r, labels_ok labels ->
  (v_labels_current v labels subset minimum = Ok r <-> selection labels subset minimum v r).
Proof. exact v_labels_current_iff. Qed.
Print Assumptions C06_selection.
Theorem C06_selection_sorted : forall labels subset minimum v r, labels_ok labels -> v_labels_current v labels subset minimum = Ok r ->
  StronglySorted lt r /\ forall k, In k r -> k < length labels.
Proof. exact selection_sorted. Qed.
Print Assumptions C06_selection_sorted.
Theorem C06_single : forall v labels k, labels_ok labels -> (v_label v labels = Ok k <-> designates1 labels v k).
Proof. exact v_label_designates. Qed.
Print Assumptions C06_single.
Example C06_example :
  v_labels_current (PList [PStr "d"; PStr "b"]) abcd true None = Ok [1; 3]
  /\ v_labels_current (PList [PInt 3; PInt 0; PInt 2]) abcd true (Some 2) = Ok [0; 2; 3]
  /\ v_labels_current (PList [PInt 3; PStr "a"]) abcd true None = Err TypeErr
  /\ v_labels_current (PList [PInt 3; PInt 3]) abcd true None = Err ValueErr
  /\ v_labels_current (PList [PInt 0; PInt 1; PInt 2; PInt 3]) abcd true None = Err ValueErr
  /\ v_label (PStr "c") abcd = Ok 2 /\ v_label (PInt (-1)) abcd = Err ValueErr.
Proof. repeat split; vm_compute; reflexivity. Qed.

(** ** C07 minimum length *)
Theorem C07_minimum_partial : forall labels v subset minimum r, labels_ok labels -> (forall k, ~ designates1 labels v k) ->
  v_labels_current v labels subset (Some minimum) = Ok r -> minimum <= length r.
Proof. exact minimum_partial. Qed.
Print Assumptions C07_minimum_partial.
Theorem C07_minimum_refuted : exists labels v r, labels_ok labels /\ v_labels_current v labels true (Some 2) = Ok r /\ length r < 2.
Proof. exact minimum_ignored. Qed.
Print Assumptions C07_minimum_refuted.
Example C07_example : v_labels_current (PList [PStr "d"]) abcd true (Some 2) = Err ValueErr
  /\ v_labels_current (PList [PStr "d"; PStr "a"]) abcd true (Some 2) = Ok [0; 3].
Proof. split; vm_compute; reflexivity. Qed.

(** ** C08 limits *)
Theorem C08_float : forall v lower upper x, v_float v lower upper = Ok x <->
  v = PFloat (Fin x) /\ above Qclt x lower /\ below Qclt x upper.
Proof. exact v_float_iff. Qed.
Print Assumptions C08_float.
Theorem C08_integer : forall v lower upper z, v_integer v lower upper = Ok z <->
  v = PInt z /\ above Z.lt z lower /\ below Z.lt z upper.
Proof. exact v_integer_iff. Qed.
Print Assumptions C08_integer.
Example C08_example : v_integer (PInt 2) (Some (2, false)%Z) None = Ok 2%Z /\ v_integer (PInt 2) (Some (2, true)%Z) None = Err ValueErr
  /\ v_float (fl half) (Some (Q2Qc 0, true)) (Some (Q2Qc 1, false)) = Ok half /\ v_float (fl (Q2Qc 0)) (Some (Q2Qc 0, true)) (Some (Q2Qc 1, false)) = Err ValueErr.
Proof. repeat split; vm_compute; reflexivity. Qed.

(** ** C09 vectors *)
Theorem C09_vector : forall v t size w, (match t with Unconstrained => exists n, size = Some n /\ 0 < n | _ => True end) ->
  (v_vector v t false size = Ok w <->
   exists n, 0 < n /\ match size with None => True | Some s => n = s end /\ real_part_vector v n w /\ vector_spec t n w).
Proof. exact v_vector_iff. Qed.
Print Assumptions C09_vector.
Theorem C09_status : forall v labels w, labels_ok labels -> 0 < length labels ->
  (v_status v labels = Ok w <->
   (exists k, designates1 labels v k /\ w = tab (length labels) (delta k))
   \/ (is_integer v = false /\ is_string v = false /\ real_part_vector v (length labels) w
       /\ (forall i, i < length labels -> (0 <= vget w i <= 1)%Qc) /\ nearly_one (sumn (length labels) (vget w)))).
Proof. exact v_status_iff. Qed.
Print Assumptions C09_status.
Example C09_example : v_vector (PList [fl half; fl half]) StochasticV false (Some 2) = Ok [half; half]
  /\ v_vector (PList [fl half; fl (Q2Qc (1 # 3))]) StochasticV false (Some 2) = Err ValueErr
  /\ v_vector (PList [fl half; fl (Q2Qc (1 # 3))]) Unconstrained false (Some 2) = Ok [half; Q2Qc (1 # 3)]
  /\ v_vector (PList [fl half; fl (Q2Qc (1 # 3))]) Annihilation false (Some 2) = Err ValueErr
  /\ v_status (PStr "b") abcd = Ok [Q2Qc 0; Q2Qc 1; Q2Qc 0; Q2Qc 0].
Proof. repeat split; vm_compute; reflexivity. Qed.

(** ** C10 partitions *)
Theorem C10_partitions : forall v labels blocks, labels_ok labels ->
  (v_partitions v labels = Ok blocks <->
   block_argument labels v blocks /\ concat blocks = seq 0 (length labels) /\ 2 <= length blocks < length labels).
Proof. exact v_partitions_iff. Qed.
Print Assumptions C10_partitions.
Example C10_example : v_partitions (PList [PList [PInt 0; PInt 1]; PList [PInt 2; PInt 3]]) abcd = Ok [[0; 1]; [2; 3]]
  /\ v_partitions (PList [PList [PInt 0; PInt 2]; PList [PInt 1; PInt 3]]) abcd = Err ValueErr.
Proof. split; vm_compute; reflexivity. Qed.

(** ** C85 hidden Markov model constructor *)
Theorem C85_hmm_constructor : forall caller p e st sy o, ~ In caller hmm_instance_generators ->
  (construct_hmm caller p e st sy = Ok o <->
   exists n k P E l m, 2 <= n /\ 2 <= k
     /\ real_part_matrix p n n P /\ probabilities n n P /\ nearly_stochastic n n P
     /\ real_part_matrix e n k E /\ probabilities n k E /\ nearly_stochastic n k E
     /\ hmm_names_argument "P" st n l /\ hmm_names_argument "E" sy k m /\ (forall s, In s l -> ~ In s m)
     /\ o = mkhobj P E l m).
Proof. exact construct_hmm_iff. Qed.
Print Assumptions C85_hmm_constructor.
Example C85_example :
  construct_hmm "main" pyOk pyOk pyNames PNone = Ok (mkhobj [[half; half]; [Q2Qc 0; Q2Qc 1]] [[half; half]; [Q2Qc 0; Q2Qc 1]] ["a"; "b"]%string ["E1"; "E2"]%string)
  /\ construct_hmm "main" pyOk pyOk pyNames pyNames = Err ValueErr.
Proof. split; vm_compute; reflexivity. Qed.

(** ** C86 from_matrix *)
Theorem C86_from_matrix : forall m st c, from_matrix_py m st = Ok c <->
  exists n M l, 2 <= n /\ real_part_matrix m n n M /\ nonneg_entries n n M /\ names_argument st n l /\ c = mkchain (normalize_matrix M) l.
Proof. exact from_matrix_py_iff. Qed.
Print Assumptions C86_from_matrix.
Theorem C86_from_matrix_lists : forall M st c, wf (nrows M) (nrows M) M -> 2 <= nrows M ->
  (from_matrix M st = Ok c <-> from_matrix_py (py_mat M) (py_states st) = Ok c).
Proof. exact from_matrix_typed. Qed.
Print Assumptions C86_from_matrix_lists.
Example C86_example : match from_matrix_py (PList [PList [PInt 2; PInt 2]; PList [PInt 0; PInt 3]]) pyNames with
  | Ok c => map (map this) (ch_p c) = [[1 # 2; 1 # 2]; [0; 1]]%Q /\ ch_states c = ["a"; "b"]%string | _ => False end
  /\ from_matrix_py (PList [PList [PInt (-2); PInt 2]; PList [PInt 0; PInt 3]]) pyNames = Err ValueErr
  /\ from_matrix_py pyNan pyNames = Err ValueErr.
Proof. repeat split; vm_compute; reflexivity. Qed.

(** ** C87 observed sequences *)
Theorem C87_sequence : forall v labels ks, labels_ok labels ->
  (v_sequence v labels = Ok ks <-> exists l, v = PList l /\ 2 <= length l /\ designates_list labels l ks).
Proof. exact v_sequence_iff. Qed.
Print Assumptions C87_sequence.
Theorem C87_sequences : forall v labels flex r, labels_ok labels -> fst (v_sequences v labels flex) = Ok r ->
  (exists l ks, flex = true /\ v = PList l /\ designates_list labels l ks /\ 2 <= length l /\ r = [ks])
  \/ (exists ls, v = PList ls /\ 2 <= length ls /\ Forall2 (fun x ks => exists l, x = PList l /\ 2 <= length l /\ designates_list labels l ks) ls r).
Proof. exact v_sequences_ok. Qed.
Print Assumptions C87_sequences.
Example C87_example : v_sequence (PList [PStr "b"; PStr "b"; PStr "a"]) abcd = Ok [1; 1; 0]
  /\ v_sequence (PList [PStr "b"; PStr "z"]) abcd = Err ValueErr
  /\ fst (v_sequences (PList [PInt 0; PInt 3]) abcd true) = Ok [[0; 3]]
  /\ fst (v_sequences (PList [PInt 0; PInt 3]) abcd false) = Err TypeErr.
Proof. repeat split; vm_compute; reflexivity. Qed.

(** ** C88 the caller's sequences are left alone *)
Theorem C88_sequences_unchanged_partial : forall ls labels flex, labels_ok labels -> (forall v, In v ls -> exists ks : list Z, v = PList (map PInt ks)) ->
  snd (v_sequences (PList ls) labels flex) = PList ls.
Proof. exact v_sequences_int_unchanged. Qed.
Print Assumptions C88_sequences_unchanged_partial.
Theorem C88_flat_unchanged_partial : forall v labels flex, (forall l, v = PList l -> forallb is_list l = false) -> snd (v_sequences v labels flex) = v.
Proof. exact v_sequences_flat_unchanged. Qed.
Print Assumptions C88_flat_unchanged_partial.
Theorem C88_sequences_refuted : exists labels v r after, labels_ok labels /\ v_sequences v labels true = (Ok r, after) /\ after <> v.
Proof. exact sequences_overwritten. Qed.
Print Assumptions C88_sequences_refuted.
Example C88_example : v_sequences (PList [PList [PInt 0; PInt 1]; PList [PInt 2; PInt 3]]) abcd true = (Ok [[0; 1]; [2; 3]], PList [PList [PInt 0; PInt 1]; PList [PInt 2; PInt 3]]).
Proof. vm_compute. reflexivity. Qed.

(** ** C89 boundary probabilities *)
Theorem C89_boundary_partial : forall v x, v_boundary_condition v = Ok (BNumber x) <->
  number_value v x /\ (x = NaN \/ exists q, x = Fin q /\ (0 <= q <= 1)%Qc).
Proof. exact v_boundary_number. Qed.
Print Assumptions C89_boundary_partial.
Theorem C89_boundary_refuted : v_boundary_condition (PFloat NaN) = Ok (BNumber NaN).
Proof. exact nan_boundary. Qed.
Print Assumptions C89_boundary_refuted.
Example C89_example : v_boundary_condition (fl half) = Ok (BNumber (Fin half)) /\ v_boundary_condition (PInt 2) = Err ValueErr.
Proof. split; vm_compute; reflexivity. Qed.

(** ** C90 blocks of a partition are not empty *)
Theorem C90_blocks_refuted : exists labels v blocks, labels_ok labels /\ v_partitions v labels = Ok blocks /\ In [] blocks.
Proof. exact empty_block_accepted. Qed.
Print Assumptions C90_blocks_refuted.

(** ** C91 other arguments *)
Theorem C91_hyperparameter : forall v size P, v_hyperparameter v size = Ok P <->
  real_part_matrix v size size P /\ forall i j, i < size -> j < size -> integral (mget P i j) /\ (1 <= mget P i j)%Qc.
Proof. exact v_hyperparameter_iff. Qed.
Print Assumptions C91_hyperparameter.
Theorem C91_mask : forall v n m M, v_mask v n m = Ok M <-> num_matrix v n m M /\ mask_spec n m M.
Proof. exact v_mask_iff. Qed.
Print Assumptions C91_mask.
Theorem C91_rewards : forall v size w, 0 < size -> (v_rewards v size = Ok w <-> real_part_vector v size w).
Proof. exact v_rewards_iff. Qed.
Print Assumptions C91_rewards.
Theorem C91_interval : forall v a b, v_interval v = Ok (a, b) <->
  exists x y, v = PTuple [x; y] /\ number_value x (Fin a) /\ number_value y (Fin b) /\ (0 <= a)%Qc /\ (a < b)%Qc.
Proof. exact v_interval_iff. Qed.
Print Assumptions C91_interval.
Theorem C91_time_points : forall v r, v_time_points v = Ok r <->
  match r with
  | TPoint k => v = PInt k /\ (0 <= k)%Z
  | TPoints ts => exists zs, v = PList (map PInt zs) /\ zs <> [] /\ NoDup zs /\ (forall z, In z zs -> (0 <= z)%Z)
                   /\ StronglySorted Z.lt ts /\ forall z, In z ts <-> In z zs
  end.
Proof. exact v_time_points_iff. Qed.
Print Assumptions C91_time_points.
Example C91_example :
  v_hyperparameter (PList [PList [PInt 1; PInt 2]; PList [PInt 3; PInt 1]]) 2 = Ok [[Q2Qc 1; Q2Qc 2]; [Q2Qc 3; Q2Qc 1]]
  /\ v_hyperparameter (PList [PList [PInt 0; PInt 2]; PList [PInt 3; PInt 1]]) 2 = Err ValueErr
  /\ v_mask (PList [PList [fl half; PFloat NaN]; PList [PFloat NaN; PFloat NaN]]) 2 2 = Ok [[Fin half; NaN]; [NaN; NaN]]
  /\ v_mask (PList [PList [fl half; fl (Q2Qc (2 # 3))]; PList [PFloat NaN; PFloat NaN]]) 2 2 = Err ValueErr
  /\ v_rewards (PList [PInt 3; PInt (-1)]) 2 = Ok [Q2Qc 3; Q2Qc (-1)]
  /\ v_interval (PTuple [PInt 0; fl half]) = Ok (Q2Qc 0, half) /\ v_interval (PTuple [PInt 1; fl half]) = Err ValueErr
  /\ v_time_points (PList [PInt 5; PInt 0; PInt 3]) = Ok (TPoints [0; 3; 5]%Z).
Proof. repeat split; vm_compute; reflexivity. Qed.
