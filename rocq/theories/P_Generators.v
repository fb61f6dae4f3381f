(** P_Generators: property theorems about chain generators and derived chains. *)
From Verif Require Import S_Gen M_Generators S_Gen2 L_Gen1 L_Gen2 L_Gen3 L_Gen4 L_Gen5 Dec L_GenR Ex.


(** ** C11 from_matrix *)
Theorem C11_from_matrix_stochastic : forall m st c, from_matrix m st = Ok c ->
  valid_chain (nrows m) c /\ names_requested st (nrows m) (ch_states c).
Proof. exact from_matrix_valid. Qed.
Print Assumptions C11_from_matrix_stochastic.
Theorem C11_from_matrix_zero_rows : forall m st c i j, from_matrix m st = Ok c -> i < nrows m -> j < nrows m ->
  (forall l, l < nrows m -> mget m i l = 0q) -> mget (ch_p c) i j = (1 / Qcn (nrows m))%Qc.
Proof. exact from_matrix_uniform. Qed.
Print Assumptions C11_from_matrix_zero_rows.
Theorem C11_from_matrix_total : forall m, 2 <= nrows m -> wf (nrows m) (nrows m) m ->
  (forall i j, i < nrows m -> j < nrows m -> (0 <= mget m i j)%Qc) -> exists c, from_matrix m None = Ok c.
Proof. exact from_matrix_total. Qed.
Print Assumptions C11_from_matrix_total.
Example C11_example : shows (from_matrix (qm [[2; 6; 0]; [0; 0; 0]; [1; 1; 2]]%Q) None)
  [[1 # 4; 3 # 4; 0]; [1 # 3; 1 # 3; 1 # 3]; [1 # 4; 1 # 4; 1 # 2]]%Q ["1"; "2"; "3"]%string.
Proof. vm_compute. split; reflexivity. Qed.

(** ** C12 relative weights *)
Theorem C12_from_matrix_proportional_partial : forall m st c i j, from_matrix m st = Ok c -> i < nrows m -> j < nrows m ->
  (Q2Qc (1 # 100000000) < sumn (nrows m) (fun l => mget m i l))%Qc ->
  (mget (ch_p c) i j * sumn (nrows m) (fun l => mget m i l) = mget m i j)%Qc.
Proof. exact from_matrix_proportional. Qed.
Print Assumptions C12_from_matrix_proportional_partial.
Example C12_example : is_ok (from_matrix (qm [[2; 6]; [0; 1 # 1000]]%Q) None) = true
  /\ (Q2Qc (1 # 100000000) < sumn 2 (fun l => mget (qm [[2; 6]; [0; 1 # 1000]]%Q) 1 l))%Qc.
Proof. split; vm_compute; reflexivity. Qed.
Theorem C12_tiny_weights_refuted : exists m c i j,
  from_matrix m None = Ok c /\ i < nrows m /\ j < nrows m /\ mget m i j = 0q /\
  (0 < sumn (nrows m) (fun l => mget m i l))%Qc /\ (0 < mget (ch_p c) i j)%Qc.
Proof. exact from_matrix_tiny. Qed.
Print Assumptions C12_tiny_weights_refuted.

(** ** C13 birth_death *)
Theorem C13_birth_death_stochastic : forall p q st c, birth_death p q st = Ok c -> stochastic (length p) (ch_p c).
Proof. exact bd_stochastic. Qed.
Print Assumptions C13_birth_death_stochastic.
Theorem C13_birth_death_support : forall p q st c i j, birth_death p q st = Ok c -> i < length p -> j < length p ->
  j <> i + 1 -> i <> j + 1 -> i <> j -> mget (ch_p c) i j = 0q.
Proof. exact bd_support. Qed.
Print Assumptions C13_birth_death_support.
Theorem C13_birth_death_entries_partial : forall p q st c, birth_death p q st = Ok c ->
  (forall i, i < length p -> not_tiny (vget p i) /\ not_tiny (vget q i) /\ not_tiny (1 - vget p i - vget q i)%Qc) ->
  forall i j, i < length p -> j < length p -> mget (ch_p c) i j = bd_cell p q i j.
Proof. exact bd_entries. Qed.
Print Assumptions C13_birth_death_entries_partial.
Example C13_example :
  let p := qv [1 # 2; 1 # 4; 0]%Q in let q := qv [0; 1 # 4; 1 # 3]%Q in
  shows (birth_death p q None) [[1 # 2; 1 # 2; 0]; [1 # 4; 1 # 2; 1 # 4]; [0; 1 # 3; 2 # 3]]%Q ["1"; "2"; "3"]%string
  /\ forall i, i < length p -> not_tiny (vget p i) /\ not_tiny (vget q i) /\ not_tiny (1 - vget p i - vget q i)%Qc.
Proof.
  split; [vm_compute; split; reflexivity|].
  intros [|[|[|i]]] Hi; [| | |exfalso; cbn in Hi; lia]; repeat split;
  try (right; vm_compute; reflexivity); left; apply Qceqb_eq; vm_compute; reflexivity.
Qed.
Theorem C13_tiny_probabilities_refuted : exists p q c i j, birth_death p q None = Ok c /\ i < length p /\ j < length p /\
  mget (ch_p c) i j <> bd_cell p q i j.
Proof. exact bd_tiny. Qed.
Print Assumptions C13_tiny_probabilities_refuted.

(** ** C72 chains have at least two states *)
Theorem C72_birth_death_size_partial : forall p q st c, birth_death p q st = Ok c -> 2 <= length p ->
  valid_chain (length p) c /\ names_requested st (length p) (ch_states c).
Proof. exact bd_valid. Qed.
Print Assumptions C72_birth_death_size_partial.
Theorem C72_birth_death_one_state_refuted : exists p q c, birth_death p q None = Ok c /\ ch_size c = 1.
Proof. exact bd_one_state. Qed.
Print Assumptions C72_birth_death_one_state_refuted.

(** ** C14 gamblers_ruin *)
Theorem C14_gamblers_ruin : forall size w st c, gamblers_ruin size w st = Ok c ->
  let n := Z.to_nat size in
  (3 <= size)%Z /\ valid_chain n c /\ names_requested st n (ch_states c) /\
  (forall j, j < n -> mget (ch_p c) 0 j = delta 0 j /\ mget (ch_p c) (n - 1) j = delta (n - 1) j) /\
  (forall i, 0 < i < n - 1 -> mget (ch_p c) i (i + 1) = w /\ mget (ch_p c) i (i - 1) = (1 - w)%Qc
      /\ forall j, j < n -> j <> i + 1 -> j <> i - 1 -> mget (ch_p c) i j = 0q).
Proof. exact gamblers_ruin_spec. Qed.
Print Assumptions C14_gamblers_ruin.
Theorem C14_gamblers_ruin_total : forall size w, (3 <= size)%Z -> (0 < w < 1)%Qc -> exists c, gamblers_ruin size w None = Ok c.
Proof. exact gamblers_ruin_total. Qed.
Print Assumptions C14_gamblers_ruin_total.
Example C14_example : shows (gamblers_ruin 4 (q (1 # 3)) None)
  [[1; 0; 0; 0]; [2 # 3; 0; 1 # 3; 0]; [0; 2 # 3; 0; 1 # 3]; [0; 0; 0; 1]]%Q ["1"; "2"; "3"; "4"]%string.
Proof. vm_compute. split; reflexivity. Qed.

(** ** C73 identity *)
Theorem C73_identity : forall size st c, identity size st = Ok c ->
  (2 <= size)%Z /\ valid_chain (Z.to_nat size) c /\ names_requested st (Z.to_nat size) (ch_states c) /\
  (forall i j, i < Z.to_nat size -> j < Z.to_nat size -> mget (ch_p c) i j = delta i j).
Proof. exact identity_spec. Qed.
Print Assumptions C73_identity.
Example C73_example : shows (identity 2 (Some ["a"; "b"]%string)) [[1; 0]; [0; 1]]%Q ["a"; "b"]%string.
Proof. vm_compute. split; reflexivity. Qed.

(** ** C15 urn_model *)
Theorem C15_urn_model : forall model n st c, urn_model model n st = Ok c ->
  let d := 2 * Z.to_nat n in
  (1 <= n)%Z /\ valid_chain (d + 1) c /\ names_requested st (d + 1) (ch_states c) /\
  forall i j, i < d + 1 -> j < d + 1 ->
    mget (ch_p c) i j = match model with
                        | Ehrenfest => ehrenfest_spec d i j
                        | BernoulliLaplace => bernoulli_laplace_spec d i j
                        end.
Proof. exact urn_model_spec. Qed.
Print Assumptions C15_urn_model.
Theorem C15_urn_model_total : forall model n, (1 <= n)%Z -> exists c, urn_model model n None = Ok c.
Proof. exact urn_model_total. Qed.
Print Assumptions C15_urn_model_total.
Example C15_example : shows (urn_model BernoulliLaplace 1 None)
  [[0; 1; 0]; [1 # 4; 1 # 2; 1 # 4]; [0; 1; 0]]%Q ["1"; "2"; "3"]%string.
Proof. vm_compute. split; reflexivity. Qed.

(** ** C16 population_genetics_model('moran') *)
Theorem C16_moran_stochastic_partial : forall n s u v st c,
  population_genetics_model Moran n s u v st = Ok c -> (s <= 1)%Qc ->
  valid_chain (Z.to_nat n + 1) c /\ names_requested st (Z.to_nat n + 1) (ch_states c) /\
  ch_p c = moran_raw (Z.to_nat n) s u v.
Proof. exact moran_valid. Qed.
Print Assumptions C16_moran_stochastic_partial.
Theorem C16_moran_total_partial : forall n s u v, (2 <= n <= 500)%Z -> (-(1) <= s <= 1)%Qc -> (0 <= u <= 1)%Qc -> (0 <= v <= 1)%Qc ->
  exists c, population_genetics_model Moran n s u v None = Ok c.
Proof. exact moran_total. Qed.
Print Assumptions C16_moran_total_partial.
Example C16_example : shows (population_genetics_model Moran 2 0 (q (1 # 2)) 0 None)
  [[1; 0; 0]; [1 # 4; 5 # 8; 1 # 8]; [0; 0; 1]]%Q ["1"; "2"; "3"]%string.
Proof. vm_compute. split; reflexivity. Qed.
Theorem C16_moran_negative_refuted : exists n s u v c, population_genetics_model Moran n s u v None = Ok c /\
  exists i j, i < ch_size c /\ j < ch_size c /\ (mget (ch_p c) i j < 0)%Qc.
Proof. exact moran_not_stochastic. Qed.
Print Assumptions C16_moran_negative_refuted.
Theorem C16_moran_arithmetic_error_refuted : exists n s u v,
  (2 <= n <= 500)%Z /\ (-(1) <= s)%Qc /\ (0 <= u <= 1)%Qc /\ (0 <= v <= 1)%Qc /\
  population_genetics_model Moran n s u v None = Err ArithErr.
Proof. exact moran_arith. Qed.
Print Assumptions C16_moran_arithmetic_error_refuted.

(** ** C70 Moran dynamics *)
Theorem C70_moran_up : forall n s u v st c i, population_genetics_model Moran n s u v st = Ok c -> (s <= 1)%Qc ->
  0 < i -> i < Z.to_nat n -> mget (ch_p c) i (i + 1) = moran_up (Z.to_nat n) i s u v.
Proof. exact moran_up_ok. Qed.
Print Assumptions C70_moran_up.
Theorem C70_moran_down_partial : forall n s u st c i, population_genetics_model Moran n s u u st = Ok c -> (s <= 1)%Qc ->
  0 < i -> i < Z.to_nat n -> mget (ch_p c) i (i - 1) = moran_down (Z.to_nat n) i s u u.
Proof. exact moran_down_ok. Qed.
Print Assumptions C70_moran_down_partial.
Example C70_example : is_ok (population_genetics_model Moran 3 (q (1 # 2)) (q (1 # 4)) (q (1 # 4)) None) = true.
Proof. vm_compute. reflexivity. Qed.
Theorem C70_moran_down_refuted : exists n s u v c i, population_genetics_model Moran n s u v None = Ok c /\ (s <= 1)%Qc /\
  0 < i /\ i < Z.to_nat n /\ mget (ch_p c) i (i - 1) <> moran_down (Z.to_nat n) i s u v.
Proof. exact moran_down_bad. Qed.
Print Assumptions C70_moran_down_refuted.

(** ** C74 population_genetics_model('wright-fisher') *)
Theorem C74_wright_fisher_stochastic : forall n s u v st c, population_genetics_model WrightFisher n s u v st = Ok c ->
  valid_chain (Z.to_nat n + 1) c /\ names_requested st (Z.to_nat n + 1) (ch_states c) /\
  ch_p c = wf_raw (Z.to_nat n) s u v.
Proof. exact wright_fisher_valid. Qed.
Print Assumptions C74_wright_fisher_stochastic.
Theorem C74_wright_fisher_entries : forall n s u v st c i j, population_genetics_model WrightFisher n s u v st = Ok c ->
  0 < i -> i < Z.to_nat n -> j <= Z.to_nat n ->
  let N := Z.to_nat n in
  let pm := (Qcn i / Qcn N * (1 - u) + (1 - Qcn i / Qcn N) * v)%Qc in
  let ps := Qcmin (pm * (1 + s) / (pm * (1 + s) + (1 - pm))) 1 in
  mget (ch_p c) i j = (Qcn (binom N j) * qpow ps j * qpow (1 - ps) (N - j))%Qc.
Proof. exact wright_fisher_entries. Qed.
Print Assumptions C74_wright_fisher_entries.
Theorem C74_wright_fisher_total : forall n s u v, (2 <= n <= 500)%Z -> (-(1) <= s)%Qc -> (0 <= u <= 1)%Qc -> (0 <= v <= 1)%Qc ->
  (Q2Qc 4 * Qcn (Z.to_nat n) * Qcmax u v <= 1)%Qc ->
  exists c, population_genetics_model WrightFisher n s u v None = Ok c.
Proof. exact wright_fisher_total. Qed.
Print Assumptions C74_wright_fisher_total.
Example C74_example : shows (population_genetics_model WrightFisher 2 1 0 0 None)
  [[1; 0; 0]; [1 # 9; 4 # 9; 4 # 9]; [0; 0; 1]]%Q ["1"; "2"; "3"]%string.
Proof. vm_compute. split; reflexivity. Qed.

(** ** C17-C19 approximation *)
Theorem C17_rouwenhorst : forall cdf sq quad size sigma rho st c,
  approximation cdf sq quad size Rouwenhorst sigma rho st = Ok c ->
  valid_chain (Z.to_nat size) c /\ names_requested st (Z.to_nat size) (ch_states c).
Proof. exact rouwenhorst_valid. Qed.
Print Assumptions C17_rouwenhorst.
Theorem C17_rouwenhorst_total : forall F sq quad size sigma rho, (2 <= size)%Z -> (0 < sigma)%Qc -> (-(1) <= rho <= 1)%Qc ->
  exists c, approximation F sq quad size Rouwenhorst sigma rho None = Ok c.
Proof. exact rouwenhorst_total. Qed.
Print Assumptions C17_rouwenhorst_total.
Example C17_example : shows (approximation (fun x => x) (fun x => x) (fun n _ => eye n) 3 Rouwenhorst 1 (q (1 # 2)) None)
  [[9 # 16; 3 # 8; 1 # 16]; [3 # 16; 5 # 8; 3 # 16]; [1 # 16; 3 # 8; 9 # 16]]%Q ["1"; "2"; "3"]%string.
Proof. vm_compute. split; reflexivity. Qed.
Theorem C17_rouwenhorst_rows : forall F sq quad size sigma rho st c i t,
  approximation F sq quad size Rouwenhorst sigma rho st = Ok c -> i < Z.to_nat size ->
  let n := Z.to_nat size in let z := ((1 + rho) / Q2Qc 2)%Qc in
  sumn n (fun j => mget (ch_p c) i j * qpow t j)%Qc = (qpow (z + (1 - z) * t) (n - 1 - i) * qpow (1 - z + z * t) i)%Qc.
Proof. exact rouwenhorst_rows. Qed.
Print Assumptions C17_rouwenhorst_rows.
Theorem C17_rouwenhorst_autocorrelation : forall F sq quad size sigma rho st c i,
  approximation F sq quad size Rouwenhorst sigma rho st = Ok c -> i < Z.to_nat size ->
  let n := Z.to_nat size in let y j := (Qcn j - Qcn (n - 1) / Q2Qc 2)%Qc in
  sumn n (fun j => mget (ch_p c) i j * y j)%Qc = (rho * y i)%Qc.
Proof. exact rouwenhorst_autocorrelation. Qed.
Print Assumptions C17_rouwenhorst_autocorrelation.
Example C17_rows_example :
  is_ok (approximation (fun x => x) (fun x => x) (fun n _ => eye n) 3 Rouwenhorst 1 (q (1 # 2)) None) = true /\ 1 < Z.to_nat 3.
Proof. split; [vm_compute; reflexivity|cbn; lia]. Qed.

Theorem C18_tauchen : forall F sq quad size sigma rho k st c,
  cdf_like F -> (forall x, (0 <= x)%Qc -> (0 <= sq x)%Qc) ->
  approximation F sq quad size (Tauchen k) sigma rho st = Ok c ->
  valid_chain (Z.to_nat size) c /\ names_requested st (Z.to_nat size) (ch_states c).
Proof. exact tauchen_valid. Qed.
Print Assumptions C18_tauchen.
Example C18_example :
  let F := fun x => if Qcltb x 0 then 0q else 1q in
  is_ok (approximation F (fun x => x) (fun n _ => eye n) 3 (Tauchen None) 1 0 None) = true
  /\ cdf_like F /\ (forall x, (0 <= x)%Qc -> (0 <= (fun x => x) x)%Qc).
Proof.
  split; [vm_compute; reflexivity|]. split; [split|auto].
  - intros x y Hxy. destruct (Qcltb_spec x 0), (Qcltb_spec y 0); try (apply Qcleb_le; reflexivity).
    exfalso. apply (Qclt_irr x). qclra.
  - intros x. destruct (Qcltb x 0); split; apply Qcleb_le; reflexivity.
Qed.
Theorem C18_tauchen_cells : forall F sq quad size sigma rho k st c i m,
  approximation F sq quad size (Tauchen k) sigma rho st = Ok c -> isclose rho 1 = false ->
  i < Z.to_nat size -> m + 1 < Z.to_nat size ->
  let n := Z.to_nat size in
  let b := (sq (sigma * sigma / (1 - rho * rho)) * match k with Some k => k | None => Q2Qc 3 end)%Qc in
  let x j := (- b + Qcn j * (Q2Qc 2 * b / Qcn (n - 1)))%Qc in
  sumn (m + 1) (fun j => mget (ch_p c) i j) = F (((x m + x (m + 1)%nat) / Q2Qc 2 - rho * x i) / sigma)%Qc.
Proof. exact tauchen_cells. Qed.
Print Assumptions C18_tauchen_cells.
Example C18_cells_example :
  is_ok (approximation (fun x => if Qcltb x 0 then 0q else 1q) (fun x => x) (fun n _ => eye n) 3 (Tauchen None) 1 0 None) = true
  /\ isclose 0 1 = false /\ 1 + 1 < Z.to_nat 3.
Proof. split; [vm_compute; reflexivity|]. split; [vm_compute; reflexivity|cbn; lia]. Qed.

Theorem C19_tauchen_total_partial : forall F sq quad size sigma rho k,
  (2 <= size)%Z -> (0 < sigma)%Qc -> (-(1) < rho)%Qc -> (rho <= 1)%Qc ->
  (1 <= opt_get (Q2Qc 3) k)%Qc -> exists c, approximation F sq quad size (Tauchen k) sigma rho None = Ok c.
Proof. exact tauchen_total. Qed.
Print Assumptions C19_tauchen_total_partial.
Theorem C19_tauchen_refuted : exists size sigma rho, (2 <= size)%Z /\ (0 < sigma)%Qc /\ (-(1) <= rho <= 1)%Qc /\
  forall F sq quad, approximation F sq quad size (Tauchen None) sigma rho None = Err ArithErr.
Proof. exact approximation_arith. Qed.
Print Assumptions C19_tauchen_refuted.

(** ** C20 random *)
Theorem C20_random_partial : forall size st zeros mask pick perm draw c,
  random size st zeros mask pick perm draw = Ok c ->
  let n := Z.to_nat size in
  let val := mval (the_mask n mask) in
  draws_ok n val pick perm draw ->
  2 <= n /\ names_ok n (ch_states c) /\ names_requested st n (ch_states c) /\
  wf n n (ch_p c) /\
  (forall i j, i < n -> j < n -> (0 <= mget (ch_p c) i j)%Qc) /\
  (forall i, i < n -> sumn n (fun j => mget (ch_p c) i j) = if row_complete n val i then mask_sum n val i else 1q) /\
  (forall i j x, i < n -> j < n -> val i j = Some x -> mget (ch_p c) i j = x) /\
  (zeros <= Z.of_nat (count_cells n (fun i j => match val i j with None => Qceqb (mget (ch_p c) i j) 0 | Some _ => false end)))%Z.
Proof. exact random_spec. Qed.
Print Assumptions C20_random_partial.
(** Complete rows are filled with zeros; besides those, exactly the requested number of free cells is zero. *)
Theorem C20_random_zeros : forall size st zeros mask pick perm draw c,
  random size st zeros mask pick perm draw = Ok c ->
  let n := Z.to_nat size in
  let val := mval (the_mask n mask) in
  draws_ok n val pick perm draw ->
  Z.of_nat (count_cells n (fun i j => match val i j with None => negb (row_complete n val i) && Qceqb (mget (ch_p c) i j) 0 | Some _ => false end)) = zeros /\
  (forall i j, i < n -> j < n -> row_complete n val i = true -> val i j = None -> mget (ch_p c) i j = 0q).
Proof. exact random_zeros. Qed.
Print Assumptions C20_random_zeros.
Theorem C20_random_stochastic_partial : forall size st zeros mask pick perm draw c,
  random size st zeros mask pick perm draw = Ok c ->
  let n := Z.to_nat size in
  let val := mval (the_mask n mask) in
  draws_ok n val pick perm draw ->
  (forall i, i < n -> row_complete n val i = true -> mask_sum n val i = 1q) ->
  valid_chain n c.
Proof. exact random_stochastic. Qed.
Print Assumptions C20_random_stochastic_partial.
Theorem C20_random_mask : forall size st zeros m pick perm draw c, random size st zeros (Some m) pick perm draw = Ok c -> mask_valid (Z.to_nat size) (Z.to_nat size) m.
Proof. exact random_mask_valid. Qed.
Print Assumptions C20_random_mask.
Theorem C20_random_total : forall size zeros mask pick perm draw,
  let n := Z.to_nat size in
  let val := mval (the_mask n mask) in
  (2 <= size)%Z -> (0 <= zeros <= Z.of_nat (zero_capacity n val))%Z ->
  given_mask_valid n n mask ->
  (forall i, i < n -> row_complete n val i = true \/ 0 < free_cells n val i) ->
  exists c, random size None zeros mask pick perm draw = Ok c.
Proof. exact random_total. Qed.
Print Assumptions C20_random_total.
Example C20_example :
  let mask := [[CVal (q (1 # 2)); CNan; CNan]; [CNan; CNan; CNan]; [CVal 1q; CNan; CNan]] in
  shows (random 3 None 2 (Some mask) (fun _ => 1) [1; 0; 2] (fun _ _ => q (1 # 2)))
    [[1 # 2; 0; 1 # 2]; [0; 1 # 2; 1 # 2]; [1; 0; 0]]%Q ["1"; "2"; "3"]%string
  /\ draws_ok 3 (mval mask) (fun _ => 1) [1; 0; 2] (fun _ _ => q (1 # 2)).
Proof.
  split; [vm_compute; split; reflexivity|]. split; [|split].
  - intros [|[|[|i]]] Hi H H2; [vm_compute in H2 |- *; lia|vm_compute; lia|vm_compute in H; discriminate|exfalso; lia].
  - vm_compute. apply perm_swap.
  - intros; split; reflexivity.
Qed.
Theorem C20_zero_draws_refuted : exists (draw : nat -> nat -> Qc) c, (forall i j, (0 <= draw i j)%Qc /\ (draw i j < 1)%Qc) /\
  random 2 None 0 None (fun _ => 0) [0; 1] draw = Ok c /\ sumn 2 (fun j => mget (ch_p c) 0 j) <> 1q.
Proof. exact random_zero_draws. Qed.
Print Assumptions C20_zero_draws_refuted.
Theorem C20_nearly_complete_rows_refuted : exists mask draw c, (forall i j, (0 < draw i j < 1)%Qc) /\
  random 2 None 0 (Some mask) (fun _ => 0) [0] draw = Ok c /\ sumn 2 (fun j => mget (ch_p c) 0 j) <> 1q.
Proof. exact random_near_complete. Qed.
Print Assumptions C20_nearly_complete_rows_refuted.

(** ** C75 random_distribution *)
Theorem C75_random_distribution : forall draws st c, random_distribution draws st = Ok c ->
  wf (nrows draws) (nrows draws) draws ->
  valid_chain (nrows draws) c /\ names_requested st (nrows draws) (ch_states c).
Proof. exact random_distribution_spec. Qed.
Print Assumptions C75_random_distribution.
Example C75_example : shows (random_distribution (qm [[-(3); 3]; [-(1); 0]]%Q) None)
  [[0; 1]; [1 # 2; 1 # 2]]%Q ["1"; "2"]%string.
Proof. vm_compute. split; reflexivity. Qed.

(** ** C21 dirichlet_process *)
Theorem C21_dirichlet_process : forall size draws diag shift, 2 <= size -> wf size size draws ->
  (forall i j, i < size -> j < size -> (0 < mget draws i j < 1)%Qc) ->
  (forall d, diag = Some d -> length d = size /\ forall i, i < size -> (0 <= vget d i)%Qc) ->
  stochastic size (mc_dirichlet_process size draws diag shift).
Proof. exact dirichlet_stochastic. Qed.
Print Assumptions C21_dirichlet_process.
Example C21_example :
  showm (mc_dirichlet_process 2 (qm [[1 # 2; 1 # 2]; [1 # 3; 1 # 3]]%Q) (Some (qv [1; 0]%Q)) true)
  = [[2 # 3; 1 # 3]; [2 # 5; 3 # 5]]%Q.
Proof. vm_compute. reflexivity. Qed.

Theorem C21_stick_breaking : forall size draws shift i j, wf size size draws -> i < size -> j < size ->
  mget (mc_dirichlet_process size draws None shift) i j =
  (stick (nth i draws []) (if shift then size - 1 - j else j) / sumn size (stick (nth i draws [])))%Qc.
Proof. exact dirichlet_stick. Qed.
Print Assumptions C21_stick_breaking.
Example C21_stick_example :
  let d := qm [[1 # 2; 1 # 3]; [1 # 3; 1 # 3]]%Q in
  wf 2 2 d /\ showm (mc_dirichlet_process 2 d None false) = [[3 # 4; 1 # 4]; [3 # 5; 2 # 5]]%Q.
Proof. split; [split; [reflexivity|intros r [<-|[<-|[]]]; reflexivity]|vm_compute; reflexivity]. Qed.

(** ** C22 merge_with *)
Example chains_valid : valid_chain 3 cA /\ valid_chain 3 cB.
Proof. split; apply valid_chainb_ok; vm_compute; reflexivity. Qed.
Theorem C22_merge_with : forall n c d g r, valid_chain n c -> valid_chain n d -> merge_with c d g = Ok r ->
  (0 < g)%Qc /\ (g < 1)%Qc /\ valid_chain n r /\ ch_states r = map (fun k => String.append "M" (dec k)) (seq 1 n) /\
  forall i j, i < n -> j < n -> mget (ch_p r) i j = ((1 - g) * mget (ch_p c) i j + g * mget (ch_p d) i j)%Qc.
Proof. exact merge_with_spec. Qed.
Print Assumptions C22_merge_with.
Theorem C22_merge_with_total : forall n c d g, valid_chain n c -> valid_chain n d -> (0 < g)%Qc -> (g < 1)%Qc ->
  exists r, merge_with c d g = Ok r.
Proof. exact merge_with_total. Qed.
Print Assumptions C22_merge_with_total.
Example C22_example : shows (merge_with cA cB (q (1 # 2)))
  [[1 # 4; 3 # 4; 0]; [1 # 6; 1 # 6; 2 # 3]; [1 # 2; 0; 1 # 2]]%Q ["M1"; "M2"; "M3"]%string.
Proof. vm_compute. split; reflexivity. Qed.

(** ** C23 to_lazy_chain *)
Theorem C23_to_lazy_chain : forall n c w r, valid_chain n c -> to_lazy_chain c w = Ok r ->
  weights_ok n w /\ valid_chain n r /\ ch_states r = ch_states c /\
  (forall i j, i < n -> j < n ->
     mget (ch_p r) i j = ((1 - weight_at w i) * mget (ch_p c) i j + (if Nat.eqb i j then weight_at w i else 0))%Qc).
Proof. exact to_lazy_chain_spec. Qed.
Print Assumptions C23_to_lazy_chain.
Theorem C23_to_lazy_chain_total : forall n c w, valid_chain n c -> weights_ok n w -> exists r, to_lazy_chain c w = Ok r.
Proof. exact to_lazy_chain_total. Qed.
Print Assumptions C23_to_lazy_chain_total.
Theorem C23_lazy_stationary : forall n c x r v, valid_chain n c -> to_lazy_chain c (WScalar x) = Ok r -> (x < 1)%Qc ->
  (stationary n (ch_p r) v <-> stationary n (ch_p c) v).
Proof. exact lazy_stationary. Qed.
Print Assumptions C23_lazy_stationary.
Example C23_example : shows (to_lazy_chain cA (WVector (qv [1 # 2; 0; 1 # 4]%Q)))
  [[3 # 4; 1 # 4; 0]; [0; 0; 1]; [3 # 4; 0; 1 # 4]]%Q ["a"; "b"; "c"]%string
  /\ is_ok (to_lazy_chain cA (WScalar (q (1 # 2)))) = true.
Proof. split; vm_compute; [split|]; reflexivity. Qed.

(** ** C24 to_bounded_chain *)
Theorem C24_to_bounded_chain : forall n c b r, valid_chain n c -> to_bounded_chain c b = Ok r ->
  (forall x, b = BNumber x -> (0 <= x <= 1)%Qc) /\ valid_chain n r /\ ch_states r = ch_states c /\
  (forall i j, 0 < i -> i < n - 1 -> j < n -> mget (ch_p r) i j = mget (ch_p c) i j) /\
  (forall j, j < n -> mget (ch_p r) 0 j =
     (match b with
     | BNumber x => if Nat.eqb j 0 then 1 - x else if Nat.eqb j 1 then x else 0
     | BAbsorbing => if Nat.eqb j 0 then 1 else 0
     | BReflecting => if Nat.eqb j 1 then 1 else 0
     end)%Qc) /\
  (forall j, j < n -> mget (ch_p r) (n - 1) j =
     (match b with
     | BNumber x => if Nat.eqb j (n - 2)%nat then 1 - x else if Nat.eqb j (n - 1)%nat then x else 0
     | BAbsorbing => if Nat.eqb j (n - 1)%nat then 1 else 0
     | BReflecting => if Nat.eqb j (n - 2)%nat then 1 else 0
     end)%Qc).
Proof. exact to_bounded_chain_spec. Qed.
Print Assumptions C24_to_bounded_chain.
Example C24_example : shows (to_bounded_chain cB (BNumber (q (1 # 4))))
  [[3 # 4; 1 # 4; 0]; [1 # 3; 1 # 3; 1 # 3]; [0; 3 # 4; 1 # 4]]%Q ["x"; "y"; "z"]%string.
Proof. vm_compute. split; reflexivity. Qed.

(** ** C25 to_nth_order *)
Theorem C25_to_nth_order : forall n c o r, valid_chain n c -> to_nth_order c o = Ok r ->
  (2 <= o)%Z /\ valid_chain n r /\ ch_states r = ch_states c /\
  forall i j, i < n -> j < n -> mget (ch_p r) i j = kstep n (ch_p c) (Z.to_nat o) i j.
Proof. exact to_nth_order_spec. Qed.
Print Assumptions C25_to_nth_order.
Example C25_example : shows (to_nth_order cA 2)
  [[1 # 4; 1 # 4; 1 # 2]; [1; 0; 0]; [1 # 2; 1 # 2; 0]]%Q ["a"; "b"; "c"]%string.
Proof. vm_compute. split; reflexivity. Qed.

(** ** C26 to_subchain *)
Theorem C26_to_subchain : forall n c S r, valid_chain n c -> S <> [] -> NoDup S -> (forall s, In s S -> s < n) ->
  to_subchain_typed c S = Ok r ->
  exists L, Sorted.StronglySorted lt L /\
    (forall x, In x L <-> exists s, In s S /\ reach n (edge (ch_p c)) s x) /\
    valid_chain (length L) r /\
    ch_states r = map (fun s => nth s (ch_states c) ""%string) L /\
    (forall i j, i < length L -> j < length L -> mget (ch_p r) i j = mget (ch_p c) (nth i L 0) (nth j L 0)).
Proof. exact to_subchain_spec. Qed.
Print Assumptions C26_to_subchain.
Theorem C26_to_subchain_total : forall n c S a b, valid_chain n c -> S <> [] -> NoDup S -> (forall s, In s S -> s < n) -> a <> b ->
  (exists s, In s S /\ reach n (edge (ch_p c)) s a) -> (exists s, In s S /\ reach n (edge (ch_p c)) s b) ->
  exists r, to_subchain_typed c S = Ok r.
Proof. exact to_subchain_total. Qed.
Print Assumptions C26_to_subchain_total.
Example C26_example : valid_chain 4 cC /\ shows (to_subchain_typed cC [3]) [[0; 1]; [1; 0]]%Q ["b"; "d"]%string.
Proof. split; [apply valid_chainb_ok; vm_compute; reflexivity|vm_compute; split; reflexivity]. Qed.

(** ** C28 lump *)
Theorem C28_lump_iff : forall n c parts, valid_chain n c -> 3 <= n -> blocks_of n parts ->
  ((exists r, lump_typed c parts = Ok r) <-> (forall B, In B parts -> B <> []) /\ lumpable (ch_p c) parts).
Proof. exact lump_iff. Qed.
Print Assumptions C28_lump_iff.
Theorem C28_lump_result : forall n c parts r, valid_chain n c -> blocks_of n parts -> lump_typed c parts = Ok r ->
  stochastic (length parts) (ch_p r) /\
  ch_states r = map (fun part => String.concat "," (map (fun s => nth s (ch_states c) ""%string) part)) parts /\
  forall b b' s, b < length parts -> b' < length parts -> In s (nth b parts []) -> mget (ch_p r) b b' = into (ch_p c) s (nth b' parts []).
Proof. exact lump_result. Qed.
Print Assumptions C28_lump_result.
Example C28_example : valid_chain 3 cL /\ blocks_of 3 [[0]; [1; 2]] /\
  shows (lump_typed cL [[0]; [1; 2]]) [[1 # 2; 1 # 2]; [1 # 3; 2 # 3]]%Q ["a"; "b,c"]%string.
Proof.
  split; [apply valid_chainb_ok; vm_compute; reflexivity|]. split; [|vm_compute; split; reflexivity].
  split; [cbn; repeat constructor; cbn; intuition lia|]. intros x; cbn; lia.
Qed.

(** ** C71 names of lumped chains *)
Theorem C71_lump_names_partial : forall n c parts r, valid_chain n c -> partition_of n parts -> lump_typed c parts = Ok r ->
  (forall s, In s (ch_states c) -> comma_free s) -> NoDup (ch_states r).
Proof. exact lump_names_distinct. Qed.
Print Assumptions C71_lump_names_partial.
Example C71_example : forall s, In s (ch_states cL) -> comma_free s.
Proof. intros s H. cbn in H. repeat destruct H as [<-|H]; try (split; [discriminate|exact I]). destruct H. Qed.
Theorem C71_lump_names_refuted : exists n c parts r, valid_chain n c /\ partition_of n parts /\ lump_typed c parts = Ok r /\
  ~ NoDup (ch_states r).
Proof. exact lump_names_collide. Qed.
Print Assumptions C71_lump_names_refuted.
