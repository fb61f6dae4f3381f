(** M_HmmRandom: model of HiddenMarkovModel.random (/repo/pydtmc/hidden_markov_model.py 918-973) and of
    hmm_random (/repo/pydtmc/generators.py 94-166).  Model only.
    Cells and draws as in mc_random (M_Generators): [pick i] is the integer drawn for row i, [perm] the
    permutation of range(zeros_required), [draw i j] the number in [0,1) written to cell (i, j). *)
From Verif Require Export M_Generators M_Hmm.
Close Scope R_scope.
Open Scope nat_scope.
Open Scope res_scope.

Definition cmk2 (rows cols : nat) (f : nat -> nat -> cell) : list (list cell) := tab rows (fun i => tab cols (f i)).
Record draws := mkdraws { dr_pick : nat -> nat; dr_perm : list nat; dr_value : nat -> nat -> Qc }.
(** generators.py 130-146 process_zeros.  The mask whose complete rows are filled with zeros is local to this
    function: only the positions of its NaN cells are returned. *)
Definition full_row (cols : nat) (mask : list (list cell)) (i : nat) : bool := isclose (sumn cols (fun j => cval (cget mask i j))) 1.
Definition completed (rows cols : nat) (mask : list (list cell)) : list (list cell) :=
  cmk2 rows cols (fun i j => if is_nan (cget mask i j) && full_row cols mask i then CVal 0q else cget mask i j).
Definition zeros_required (rows cols : nat) (mask : list (list cell)) : Z :=
  (Z.of_nat (length (flat_map (nan_cols cols (completed rows cols mask)) (seq 0 rows)))
   - Z.of_nat (length (filter (fun i => negb (full_row cols mask i)) (seq 0 rows))))%Z.
(** lines 97-128 process_matrix: starts again from the mask passed by the caller *)
Definition process_matrix (rows cols : nat) (mask : list (list cell)) (zeros : nat) (d : draws) : res mat :=
  let full := full_row cols mask in
  let unassigned0 := nan_cols cols (completed rows cols mask) in
  guard forallb (fun i => full i || Nat.ltb 0 (length (unassigned0 i))) (seq 0 rows) else ValueErr ;;
  let m2 := cmk2 rows cols (fun i j =>
              if negb (full i) && Nat.eqb j (nth (dr_pick d i) (unassigned0 i) 0) then CInf else cget mask i j) in
  let unassigned := flat_map (fun i => map (fun j => (i, j)) (nan_cols cols m2 i)) (seq 0 rows) in
  let zero_cells := map (fun x => nth x unassigned (0, 0)) (firstn zeros (dr_perm d)) in
  let m3 := cmk2 rows cols (fun i j =>
              if existsb (fun c => Nat.eqb (fst c) i && Nat.eqb (snd c) j) zero_cells then CVal 0q
              else match cget m2 i j with CInf => CNan | c => c end) in
  let p := mk rows cols (fun i j => if is_nan (cget m3 i j) then dr_value d i j else cval (cget m3 i j)) in
  Ok (mk rows cols (fun i j =>
        let s := sumn cols (fun l => if is_nan (cget m3 i l) then mget p i l else 0q) in
        let si := sumn cols (fun l => if is_nan (cget m3 i l) then 0q else mget p i l) in
        if Qcltb 0 s && is_nan (cget m3 i j) then (mget p i j * ((1 - si) / s))%Qc else mget p i j)).
(** validation.py 646-667 validate_mask for a rectangular mask *)
Definition mask_ok2 (rows cols : nat) (mask : list (list cell)) : bool :=
  Nat.eqb (length mask) rows && forallb (fun r => Nat.eqb (length r) cols) mask
  && forallb (forallb (fun c => match c with CNan => true | CInf => false | CVal x => in01 x end)) mask
  && forallb (fun i => Qcleb (sumn cols (fun j => cval (cget mask i j))) 1) (seq 0 rows).
Definition random_mask (rows cols : nat) (mask : option (list (list cell))) : list (list cell) :=
  match mask with None => cmk2 rows cols (fun _ _ => CNan) | Some m => m end.
(** hidden_markov_model.py 938-973, generators.py 148-166 (the errors are all ValueErr, so their order is immaterial) *)
Definition hmm_random (n k : Z) (states : option (list string)) (p_zeros : Z) (p_mask : option (list (list cell)))
    (symbols : option (list string)) (e_zeros : Z) (e_mask : option (list (list cell))) (dp de : draws) : res hmm :=
  guard Z.leb 2 n else ValueErr ;;
  guard Z.leb 2 k else ValueErr ;;
  let n := Z.to_nat n in
  let k := Z.to_nat k in
  st <- gen_states states n (create_labels n "P") ;;
  guard Z.leb 0 p_zeros else ValueErr ;;
  let pm := random_mask n n p_mask in
  guard mask_ok2 n n pm else ValueErr ;;
  sy <- gen_states symbols k (create_labels k "E") ;;
  guard Z.leb 0 e_zeros else ValueErr ;;
  let em := random_mask n k e_mask in
  guard mask_ok2 n k em else ValueErr ;;
  guard Z.leb p_zeros (zeros_required n n pm) else ValueErr ;;
  guard Z.leb e_zeros (zeros_required n k em) else ValueErr ;;
  p <- process_matrix n n pm (Z.to_nat p_zeros) dp ;;
  e <- process_matrix n k em (Z.to_nat e_zeros) de ;;
  hmm_init p e st sy.
