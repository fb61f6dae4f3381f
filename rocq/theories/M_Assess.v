(** M_Assess: model of /repo/pydtmc/assessments.py and of chi2_contingency
    (/repo/pydtmc/computations.py 126-155).  Model only.  The statistics with logarithms
    are real numbers, the others rationals.  Sequences are lists of positions and the
    significance is a finite number: the conversions of names and the types are in
    M_Validation (validate_sequence, validate_float).  The distribution function of the
    chi-squared law (scipy.stats.chi2.cdf) is an argument; None is nan. *)
From Verif Require Export M_Fitting.
From Coq Require Import Reals Qreals.
Close Scope Q_scope. Close Scope R_scope.
Open Scope nat_scope.
Open Scope res_scope.

(** Values of the statistic: a number or inf. *)
Inductive ext := EFin (x : R) | EInf.
(** (rejection, p_value, {'chi2': ..., 'dof': ...}); None stands for None and nan. *)
Record test := mktest { t_reject : option bool; t_pvalue : option R; t_chi2 : option ext; t_dof : option Z }.
Definition chi2_cdf := ext -> Z -> option R.
(** return None, float('nan'), {'chi2': float('nan'), 'dof': float('nan')} *)
Definition undetermined : test := mktest None None None None.
(** p_value < significance (False for nan) *)
Definition p_below (p : option R) (sig : Qc) : bool :=
  match p with None => false | Some p => if Rlt_dec p (Qc2R sig) then true else false end.
(** p_value = 1.0 - chi2.cdf(chi2, dof), or 0.0 if dof == 0 where the code tests it *)
Definition p_value (cdf : chi2_cdf) (zero_dof : bool) (chi2 : ext) (dof : Z) : option R :=
  if zero_dof && Z.eqb dof 0 then Some 0%R
  else match cdf chi2 dof with None => None | Some c => Some (1 - c)%R end.
Definition conclude (cdf : chi2_cdf) (zero_dof : bool) (sig : Qc) (chi2 : ext) (dof : Z) : test :=
  let p := p_value cdf zero_dof chi2 dof in
  mktest (Some (p_below p sig)) p (Some chi2) (Some dof).
(** validate_float(significance, lower_limit=(0.0, True), upper_limit=(0.2, False)) *)
Definition significance_ok (sig : Qc) : bool := Qcltb 0 sig && Qcleb sig (Q2Qc (1 # 5)).

(** computations.py 126-155 chi2_contingency with correction=True: the statistic only.
    None is an exception or nan: the callers treat both alike.  The total 0 makes the
    expected table nan. *)
Definition Qcsign (x : Qc) : Qc := if Qcltb 0 x then 1q else if Qcltb x 0 then (- 1q)%Qc else 0q.
Definition chi2_contingency (observed : mat) : option Qc :=
  let r := nrows observed in
  let c := ncols observed in
  if existsb (existsb (fun x => Qcltb x 0)) observed then None
  else
    let marginals_rows i := sumn c (fun j => mget observed i j) in
    let marginals_columns j := sumn r (fun i => mget observed i j) in
    let total := sumn r marginals_rows in
    let dof := (Z.of_nat (r * c) - Z.of_nat (r + c) + 1)%Z in
    if Qceqb total 0 then (if Z.eqb dof 0 then Some 0q else None)
    else
      let expected i j := (marginals_rows i * marginals_columns j / total)%Qc in
      if existsb (fun i => existsb (fun j => Qceqb (expected i j) 0) (seq 0 c)) (seq 0 r) then None
      else if Z.eqb dof 0 then Some 0q
      else
        let obs i j :=
          if Z.eqb dof 1
          then let diff := (expected i j - mget observed i j)%Qc in
               (mget observed i j + Qcmin (Q2Qc (1 # 2)) (Qcabs diff) * Qcsign diff)%Qc
          else mget observed i j in
        Some (sumn r (fun i => sumn c (fun j => (obs i j - expected i j) * (obs i j - expected i j) / expected i j)%Qc)).

(** The sum of the statistics of the tables; the first nan ends the loop *)
Fixpoint sum_opt (l : list (option Qc)) : option Qc :=
  match l with
  | [] => Some 0q
  | None :: _ => None
  | Some x :: l' => match sum_opt l' with None => None | Some y => Some (x + y)%Qc end
  end.

(** Number of the positions t < m satisfying a condition: ct[...] += 1 in a loop *)
Definition count_where (m : nat) (c : nat -> bool) : Qc := Qcn (length (filter c (seq 0 m))).

(** assessments.py 64-113 assess_first_order.  The comparison of names is one of
    positions, names being distinct. *)
Definition first_order_table (n : nat) (s : list nat) (state : nat) : mat :=
  mk n n (fun p f => count_where (length s - 2) (fun i =>
    Nat.eqb state (nth (i + 1) s 0) && (Nat.eqb p (nth i s 0) && Nat.eqb f (nth (i + 2) s 0)))).
Definition assess_first_order (cdf : chi2_cdf) (states : list string) (s : list nat) (sig : Qc) : res test :=
  st <- validate_labels_input states None ;;
  let n := length st in
  guard sequence_okb n s else ValueErr ;;
  guard significance_ok sig else ValueErr ;;
  match sum_opt (map (fun state => chi2_contingency (first_order_table n s state)) (seq 0 n)) with
  | None => Ok undetermined
  | Some chi2 => Ok (conclude cdf false sig (EFin (Qc2R chi2)) (Z.of_nat (n * ((n - 1) * (n - 1)))))
  end.

(** assessments.py 116-190 assess_homogeneity *)
Definition moves_mat (n : nat) (s : list nat) : mat := mk n n (fun i j => Qcn (pair_count (seq_moves s) i j)).
Definition mat_total (n : nat) (f : mat) : Qc := sumn n (fun i => sumn n (fun j => mget f i j)).
Definition rsumR (n : nat) (f : nat -> R) : R := fold_right (fun i a => (f i + a)%R) 0%R (seq 0 n).
Definition homogeneity_term (n : nat) (f pooled : mat) : R :=
  rsumR n (fun i => rsumR n (fun j =>
    if Qcltb 0 (mget f i j) && Qcltb 0 (mget pooled i j)
    then (Qc2R (mget f i j) * ln (Qc2R ((mat_total n pooled * mget f i j) / (mat_total n f * mget pooled i j))%Qc))%R
    else 0%R)).
Definition assess_homogeneity (cdf : chi2_cdf) (states : list string) (seqs : list (list nat)) (sig : Qc) : res test :=
  st <- validate_labels_input states None ;;
  let n := length st in
  guard Nat.leb 2 (length seqs) else ValueErr ;;
  guard forallb (sequence_okb n) seqs else ValueErr ;;
  guard significance_ok sig else ValueErr ;;
  let k := length seqs in
  if negb (existsb (fun i => existsb (fun j => negb (Nat.eqb i j) &&
       existsb (fun x => memn x (nth j seqs [])) (nth i seqs [])) (seq 0 k)) (seq 0 k))
  then Ok undetermined
  else
    let fs := map (moves_mat n) seqs in
    let pooled := fold_left madd fs (mk n n (fun _ _ => 0q)) in
    let chi2 := (2 * fold_right (fun f a => (homogeneity_term n f pooled + a)%R) 0%R fs)%R in
    Ok (conclude cdf false sig (EFin chi2) (Z.of_nat (n * (n - 1) * (k - 1)))).

(** assessments.py 193-281 assess_markov_property.  The distinct triples (pairs) are
    listed in the order of their last occurrence instead of the order of their
    texts: the order only matters for the order of a sum.  In _fnp_iteration the one
    index that occurs in both lists of rows is the row of the pair (a, b). *)
Definition triple := (nat * nat * nat)%type.
Definition triple_eqb (x y : triple) : bool :=
  let '(a, b, c) := x in let '(d, e, f) := y in Nat.eqb a d && Nat.eqb b e && Nat.eqb c f.
Definition pair_eqb (x y : nat * nat) : bool := Nat.eqb (fst x) (fst y) && Nat.eqb (snd x) (snd y).
Fixpoint distinct {A} (eqb : A -> A -> bool) (l : list A) : list A :=
  match l with [] => [] | x :: l' => if existsb (eqb x) l' then distinct eqb l' else x :: distinct eqb l' end.
Definition sample3 (s : list nat) : list triple :=
  tab (length s - length s mod 3 - 2) (fun i => (nth i s 0, nth (i + 1) s 0, nth (i + 2) s 0)).
Definition sample2 (s : list nat) : list (nat * nat) :=
  tab (length s - length s mod 3 - 2) (fun i => (nth i s 0, nth (i + 1) s 0)).
Definition fnp_iteration (set2 : list (nat * nat)) (p : mat) (t : triple) : res Qc :=
  let '(a, b, c) := t in
  match filter (fun r => Nat.eqb (fst r) a && Nat.eqb (snd r) b) (distinct pair_eqb set2) with
  | [r] => Ok (Qcn (length (filter (pair_eqb r) set2)) * mget p b c)%Qc
  | _ => Err ValueErr
  end.
Fixpoint markov_chi2 (set3 : list triple) (set2 : list (nat * nat)) (p : mat) (l : list triple) : res Qc :=
  match l with
  | [] => Ok 0q
  | t :: l' =>
      fnp <- fnp_iteration set2 p t ;;
      guard negb (Qceqb fnp 0) else ArithErr ;;
      let o := Qcn (length (filter (triple_eqb t) set3)) in
      y <- markov_chi2 set3 set2 p l' ;;
      Ok ((o - fnp) * (o - fnp) / fnp + y)%Qc
  end.
Definition label (st : list string) (i : nat) : string := nth i st ""%string.
Definition markov_dof (st : list string) (s : list nat) : Z :=
  let doubles := tab (length s - 1) (fun i => (label st (nth i s 0) ++ label st (nth (i + 1) s 0))%string) in
  let triples := tab (length s - 2) (fun i => (label st (nth i s 0) ++ label st (nth (i + 1) s 0) ++ label st (nth (i + 2) s 0))%string) in
  (Z.of_nat (length (distinct String.eqb triples)) - Z.of_nat (length (distinct String.eqb doubles)) +
   Z.of_nat (length (distinct String.eqb (map (label st) s))) - 1)%Z.
Definition assess_markov_property (cdf : chi2_cdf) (states : list string) (s : list nat) (sig : Qc) : res test :=
  st <- validate_labels_input states None ;;
  let n := length st in
  guard sequence_okb n s else ValueErr ;;
  guard significance_ok sig else ValueErr ;;
  let p := fit_mle n false s in
  chi2 <- markov_chi2 (sample3 s) (sample2 s) p (distinct triple_eqb (sample3 s)) ;;
  Ok (conclude cdf true sig (EFin (Qc2R chi2)) (markov_dof st s)).

(** assessments.py 284-361 assess_stationarity.  The number of blocks is a natural
    number; math.ceil((i + 1) / block_size) with block_size = k / blocks is exact. *)
Definition block_of (k blocks i : nat) : nat := ((i + 1) * blocks + k - 1) / k - 1.
Definition stationarity_counts (n : nat) (s : list nat) (blocks state : nat) : mat :=
  mk blocks n (fun p f => count_where (length s - 1) (fun i =>
    Nat.eqb (nth i s 0) state && (Nat.eqb p (block_of (length s) blocks i) && Nat.eqb f (nth (i + 1) s 0)))).
(** ct[argwhere(sum == 0), :] = 1 / n; ct /= sum *)
Definition stationarity_table (n : nat) (s : list nat) (blocks state : nat) : mat :=
  let ct := stationarity_counts n s blocks state in
  div_rows (mk blocks n (fun p f => if Qceqb (rowsum ct p) 0 then (1 / Qcn n)%Qc else mget ct p f)).
(** scipy.stats.chisquare(numpy.ravel(ct)) for a table with one row *)
Definition chisquare (o : mat) : option Qc :=
  let c := ncols o in
  let mean := (sumn c (fun j => mget o 0 j) / Qcn c)%Qc in
  Some (sumn c (fun j => (mget o 0 j - mean) * (mget o 0 j - mean) / mean)%Qc).
Definition assess_stationarity (cdf : chi2_cdf) (states : list string) (s : list nat) (blocks : nat) (sig : Qc) : res test :=
  st <- validate_labels_input states None ;;
  let n := length st in
  guard sequence_okb n s else ValueErr ;;
  guard Nat.leb 1 blocks else ValueErr ;;
  guard significance_ok sig else ValueErr ;;
  let chi2_func := if Nat.eqb blocks 1 then chisquare else chi2_contingency in
  match sum_opt (map (fun state => chi2_func (stationarity_table n s blocks state)) (seq 0 n)) with
  | None => Ok undetermined
  | Some chi2 => Ok (conclude cdf true sig (EFin (Qc2R chi2)) (Z.of_nat (n * (n - 1) * (blocks - 1))))
  end.

(** assessments.py 364-421 assess_theoretical_compatibility.  f_i is the sum of the
    column i; a quotient with f_i = 0 and f_ij > 0 is inf, and so is the statistic. *)
Definition assess_theoretical_compatibility (cdf : chi2_cdf) (mc : chain) (s : list nat) (sig : Qc) : res test :=
  let p := ch_p mc in
  let n := nrows p in
  guard sequence_okb n s else ValueErr ;;
  guard significance_ok sig else ValueErr ;;
  let f := moves_mat n s in
  if forallb (fun i => forallb (fun j => negb (Qceqb (mget p i j) 0) || Qceqb (mget f i j) 0) (seq 0 n)) (seq 0 n)
  then
    let fc i := sumn n (fun j => mget f j i) in
    let used i j := Qcltb 0 (mget p i j) && Qcltb 0 (mget f i j) in
    let chi2 :=
      if existsb (fun i => existsb (fun j => used i j && Qceqb (fc i) 0) (seq 0 n)) (seq 0 n) then EInf
      else EFin (2 * rsumR n (fun i => rsumR n (fun j =>
        if used i j then Qc2R (mget f i j) * ln (Qc2R (mget f i j / (fc i * mget p i j))%Qc) else 0)))%R in
    let nonzero := length (filter (fun x => negb (Qceqb x 0)) (concat p)) in
    let dof := (Z.of_nat (n * (n - 1)) - (Z.of_nat (n * n) - Z.of_nat nonzero))%Z in
    Ok (conclude cdf false sig chi2 dof)
  else Ok (mktest (Some true) (Some 0%R) None None).
