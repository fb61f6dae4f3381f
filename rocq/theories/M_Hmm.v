(** M_Hmm: model of the hidden Markov model part of /repo/pydtmc/measures.py,
    simulations.py, generators.py and fitting.py and of the methods of
    HiddenMarkovModel that call it.  Model only.

    States and symbols are positions (labels already resolved).  Two-dimensional
    arrays indexed by (state, time) are kept as the list of their columns. *)
From Verif Require Export M_Simulation.
From Coq Require Import Reals.
Close Scope R_scope.
Open Scope nat_scope.
Open Scope res_scope.

(** hidden_markov_model.py 145-172: matrices and names; a call of the constructor
    from an instance generator only checks that states and symbols have no name in
    common (line 162). *)
Record hmm := mkhmm { h_p : mat; h_e : mat; h_states : list string; h_symbols : list string }.
Definition mem_str (s : string) (l : list string) : bool := existsb (String.eqb s) l.
Definition hmm_init (p e : mat) (states symbols : list string) : res hmm :=
  guard negb (existsb (fun s => mem_str s symbols) states) else ValueErr ;;
  Ok (mkhmm p e states symbols).

(** ** Decoding: measures.py 58-114 *)

(** the cutoff 1e-300 of line 82 *)
Definition tiny300 : Qc := Q2Qc (1 # (Pos.pow 10 300)).

(** lines 72-80: one column of the forward array, before scaling *)
Definition fwd_col (n : nat) (p e : mat) (sym : nat) (f : vec) : vec :=
  tab n (fun s => (mget e s sym * sumn n (fun i => vget f i * mget p i s))%Qc).
(** lines 72-86: scaling factors and scaled columns for times 1, 2, ...; None as
    soon as a scaling factor is below the cutoff *)
Fixpoint fwd_loop (n : nat) (p e : mat) (f : vec) (symbols : list nat) : option (list (Qc * vec)) :=
  match symbols with
  | [] => Some []
  | sym :: rest =>
      let c := fwd_col n p e sym f in
      let s := sumn n (vget c) in
      if Qcltb s tiny300 then None
      else
        let c' := map (fun x => (x / s)%Qc) c in
        match fwd_loop n p e c' rest with
        | None => None
        | Some l => Some ((s, c') :: l)
        end
  end.
(** lines 88-99: columns of the backward array for the remaining (symbol, scaling
    factor) pairs, the last column being ones *)
Fixpoint bwd_loop (n : nat) (p e : mat) (l : list (nat * Qc)) : list vec :=
  match l with
  | [] => [tab n (fun _ => 1q)]
  | (sym, s) :: rest =>
      let t := bwd_loop n p e rest in
      let b := hd [] t in
      tab n (fun i => (1 / s * sumn n (fun j => mget p i j * vget b j * mget e j sym))%Qc) :: t
  end.
(** numpy.cumprod *)
Fixpoint cumprod (a : Qc) (l : list Qc) : list Qc :=
  match l with [] => [] | x :: l' => (a * x)%Qc :: cumprod (a * x)%Qc l' end.
Definition vmulp (u v : vec) : vec := map (fun x => (fst x * snd x)%Qc) (combine u v).

Definition vscale (c : Qc) (v : vec) : vec := map (fun x => (c * x)%Qc) v.

Record decoding := mkdec { d_log : R; d_post : list vec; d_back : list vec; d_fwd : list vec; d_scale : option (list Qc) }.
Definition sum_ln (l : list Qc) : R := fold_right (fun x a => (ln (Qc2R x) + a)%R) 0%R l.
Definition hmm_decode (p e : mat) (init : vec) (symbols : list nat) (use_scaling : bool) : option decoding :=
  let n := nrows p in
  match fwd_loop n p e init symbols with
  | None => None
  | Some l =>
      let sf := 1q :: map fst l in
      let fwd := init :: map snd l in
      let bwd := bwd_loop n p e (combine symbols (map fst l)) in
      let post := tl (map (fun x => vmulp (fst x) (snd x)) (combine bwd fwd)) in
      let lp := sum_ln sf in
      if use_scaling then Some (mkdec lp post bwd fwd (Some sf))
      else
        let bs := rev (1q :: cumprod 1q (rev (tl sf))) in
        let fs := cumprod 1q sf in
        Some (mkdec lp post (map (fun x => vscale (fst x) (snd x)) (combine bs bwd))
                (map (fun x => vscale (fst x) (snd x)) (combine fs fwd)) None)
  end.
(** hidden_markov_model.py 291-318 decode: an omitted status is uniform *)
Definition uniform (n : nat) : vec := tab n (fun _ => (1 / Qcn n)%Qc).
Definition decode (h : hmm) (symbols : list nat) (init : option vec) (use_scaling : bool) : option decoding :=
  let n := nrows (h_p h) in
  hmm_decode (h_p h) (h_e h) (match init with None => uniform n | Some v => v end) symbols use_scaling.

(** ** Prediction: simulations.py 45-105 *)

(** numpy.argmax: first maximal index *)
Fixpoint argmax_from (l : list Qc) (i bi : nat) (b : Qc) : nat :=
  match l with [] => bi | x :: l' => if Qcltb b x then argmax_from l' (S i) i x else argmax_from l' (S i) bi b end.
Definition argmax (l : list Qc) : nat := match l with [] => 0 | x :: l' => argmax_from l' 1 0 x end.

(** lines 47-57 (map) *)
Definition predict_map (p e : mat) (init : vec) (symbols : list nat) : option (R * list nat) :=
  match hmm_decode p e init symbols true with
  | None => None
  | Some d => Some (d_log d, map argmax (d_post d))
  end.

(** lines 59-98 (viterbi), in the probability domain: sums of logarithms are
    products and -inf is 0; the rounding of the candidates to 12 decimals (line 81)
    is not modelled (exact arithmetic).  [omega] is the previous row. *)
Definition vit_probs (n : nat) (p : mat) (omega : vec) (j : nat) : vec := tab n (fun i => (vget omega i * mget p i j)%Qc).
Definition vit_row (n : nat) (p e : mat) (sym : nat) (omega : vec) : vec :=
  tab n (fun j => let pr := vit_probs n p omega j in (vget pr (argmax pr) * mget e j sym)%Qc).
Definition vit_path (n : nat) (p : mat) (omega : vec) : list nat := tab n (fun j => argmax (vit_probs n p omega j)).
Definition all_zero (v : vec) : bool := forallb (fun x => Qceqb x 0) v.
Fixpoint vit_loop (n : nat) (p e : mat) (omega : vec) (symbols : list nat) : option (vec * list (list nat)) :=
  match symbols with
  | [] => Some (omega, [])
  | sym :: rest =>
      let o := vit_row n p e sym omega in
      if all_zero o then None
      else
        match vit_loop n p e o rest with
        | None => None
        | Some (r, paths) => Some (r, vit_path n p omega :: paths)
        end
  end.
(** lines 94-98: states[i - 1] = path[i, states[i]], from the last one backwards *)
Fixpoint vit_back (paths : list (list nat)) (last : nat) : list nat :=
  match paths with
  | [] => [last]
  | r :: rest => let st := vit_back rest last in nth (hd 0 st) r 0 :: st
  end.
(** the first component is the probability whose logarithm the code returns *)
Definition viterbi (p e : mat) (init : vec) (symbols : list nat) : res (option (Qc * list nat)) :=
  let n := nrows p in
  match symbols with
  | [] => Err IndexErr
  | sym0 :: _ =>
      let o0 := tab n (fun i => (vget init i * mget e i sym0)%Qc) in
      if all_zero o0 then Ok None
      else
        match vit_loop n p e o0 symbols with
        | None => Ok None
        | Some (o, paths) => let s := argmax o in Ok (Some (vget o s, vit_back (tl paths) s))
        end
  end.

(** ** Simulation: simulations.py 109-152 *)

(** lines 133-136 / 141-144: j = m-1, ..., 0: the first j with u > c j gives j + 1 *)
Fixpoint scan_down (c : nat -> Qc) (u : Qc) (m : nat) : nat :=
  match m with
  | O => 0
  | S j => if Qcltb (c j) u then S j else scan_down c u j
  end.
Fixpoint hsim_loop (n k : nat) (p e : mat) (fs fy : option nat) (pr er : nat -> Qc) (t steps cur : nat) : list (nat * nat) :=
  match steps with
  | O => []
  | S steps' =>
      let s := scan_down (cdf n (row p cur)) (pr t) (n - 1) in
      let y := scan_down (cdf k (row e s)) (er t) (k - 1) in
      if (match fs with Some f => Nat.eqb s f | None => false end) || (match fy with Some f => Nat.eqb y f | None => false end)
      then [(s, y)]
      else (s, y) :: hsim_loop n k p e fs fy pr er (S t) steps' s
  end.
(** [c0] is the uniform draw behind the first rng.choice, [pr] and [er] the two
    arrays of draws *)
Definition hmm_simulate (h : hmm) (steps init : nat) (fs fy : option nat) (c0 : Qc) (pr er : nat -> Qc) : list nat * list nat :=
  let n := nrows (h_p h) in
  let k := ncols (h_e h) in
  let l := (init, choice k (row (h_e h) init) c0) :: hsim_loop n k (h_p h) (h_e h) fs fy pr er 0 steps init in
  (map fst l, map snd l).

(** ** Restriction: generators.py 169-189 *)
Definition hmm_restrict (p e : mat) (states symbols : list string) (ss sy : list nat) : mat * mat * list string * list string :=
  let p_dec := Nat.ltb (length ss) (nrows p) in
  let e_dec := p_dec || Nat.ltb (length sy) (nrows e) in
  let p' := if p_dec then norm_any (mix p ss ss) else p in
  let e' := if e_dec then norm_any (mix e ss sy) else e in
  (p', e', map (fun s => nth s states ""%string) ss, map (fun s => nth s symbols ""%string) sy).
(** validation.py 514-589 validate_labels_current(value, labels, True, 2) for labels
    already looked up: a single label is accepted as it is, a list must have between
    2 and n - 1 distinct elements and is sorted *)
Inductive sel := SelOne (i : nat) | SelList (l : list nat).
Definition resolve_sel (n : nat) (s : sel) : res (list nat) :=
  match s with
  | SelOne i => guard Nat.ltb i n else ValueErr ;; Ok [i]
  | SelList l =>
      guard forallb (fun i => Nat.ltb i n) l else ValueErr ;;
      guard nodupb Nat.eqb l else ValueErr ;;
      guard Nat.leb 2 (length l) && Nat.leb (length l) (n - 1) else ValueErr ;;
      Ok (sort_nat l)
  end.
(** hidden_markov_model.py 416-446 restrict *)
Definition restrict (h : hmm) (states symbols : option sel) : res hmm :=
  guard match states, symbols with None, None => false | _, _ => true end else ValueErr ;;
  ss <- match states with None => Ok (seq 0 (nrows (h_p h))) | Some s => resolve_sel (nrows (h_p h)) s end ;;
  sy <- match symbols with None => Ok (seq 0 (ncols (h_e h))) | Some s => resolve_sel (ncols (h_e h)) s end ;;
  let '(p, e, sn, yn) := hmm_restrict (h_p h) (h_e h) (h_states h) (h_symbols h) ss sy in
  hmm_init p e sn yn.

(** ** Estimation: generators.py 63-91 *)
Definition pair_count (l : list (nat * nat)) (i j : nat) : nat :=
  length (filter (fun x => Nat.eqb (fst x) i && Nat.eqb (snd x) j) l).
Definition count_mat (n m : nat) (l : list (nat * nat)) : mat := mk n m (fun i j => Qcn (pair_count l i j)).
(** handle_nulls=False: rows summing to zero are divided by -inf: zeros *)
Definition div_rows_null (M : mat) : mat :=
  mk (nrows M) (ncols M) (fun i j => if Qceqb (rowsum M i) 0 then 0q else Qcabs (mget M i j / rowsum M i)%Qc).
Definition hmm_estimate (n k : nat) (ss sy : list nat) (handle_nulls : bool) : mat * mat :=
  let p := count_mat n n (zip (removelast ss) (tl ss)) in
  let e := count_mat n k (zip ss sy) in
  if handle_nulls then (norm_any p, norm_any e) else (div_rows_null p, div_rows_null e).
(** validation.py 857-886 validate_sequence for positions *)
Definition sequence_okb (n : nat) (l : list nat) : bool := Nat.leb 2 (length l) && forallb (fun i => Nat.ltb i n) l.
(** hidden_markov_model.py 578-611 estimate *)
Definition estimate (states symbols : list string) (ss sy : list nat) : res hmm :=
  st <- validate_labels_input states None ;;
  sb <- validate_labels_input symbols None ;;
  guard sequence_okb (length st) ss else ValueErr ;;
  guard sequence_okb (length sb) sy else ValueErr ;;
  guard negb (existsb (fun s => mem_str s sb) st) else ValueErr ;;
  guard Nat.eqb (length ss) (length sy) else ValueErr ;;
  let '(p, e) := hmm_estimate (length st) (length sb) ss sy true in
  hmm_init p e st sb.

(** ** Fitting: fitting.py 50-169 *)

(** lines 72-106 _fit_baum_welch; exp of a sum of logarithms is the product.
    The log-likelihood, used for the convergence test only, is left out. *)
Definition bw_pair (p e : mat) (o : nat) (s : Qc) (f b : vec) (u v : nat) : Qc :=
  (vget b v * vget f u * mget p u v * mget e v o / s)%Qc.
Definition fit_baum_welch (n k : nat) (p e : mat) (init : vec) (symbols : list nat) : option (mat * mat) :=
  match hmm_decode p e init symbols true with
  | None => None
  | Some d =>
      let z := length symbols in
      let fwd := d_fwd d in
      let bwd := d_back d in
      let sf := match d_scale d with Some s => s | None => [] end in
      let pc := mk n n (fun u v => sumn z (fun w =>
                  bw_pair p e (nth w symbols 0) (nth (S w) sf 0q) (nth w fwd []) (nth (S w) bwd []) u v)) in
      let ec := mk n k (fun u v => sumn z (fun w =>
                  if Nat.eqb (nth w symbols 0) v then (vget (nth (S w) bwd []) u * vget (nth (S w) fwd []) u)%Qc else 0q)) in
      Some (pc, ec)
  end.
(** lines 108-118 _fit_prediction *)
Definition fit_prediction (vit : bool) (n k : nat) (p e : mat) (init : vec) (symbols : list nat) : option (mat * mat) :=
  let pred := if vit then match viterbi p e init symbols with Ok (Some (_, st)) => Some st | _ => None end
              else match predict_map p e init symbols with Some (_, st) => Some st | None => None end in
  match pred with
  | None => None
  | Some st => Some (hmm_estimate n k st symbols false)
  end.
(** lines 133-144: accumulation over the observed sequences *)
Fixpoint fit_accumulate (f : list nat -> option (mat * mat)) (seqs : list (list nat)) (p e : mat) : mat * mat :=
  match seqs with
  | [] => (p, e)
  | s :: rest =>
      match f s with
      | None => fit_accumulate f rest p e
      | Some (pc, ec) => fit_accumulate f rest (madd p pc) (madd e ec)
      end
  end.
Definition zeros (n m : nat) : mat := mk n m (fun _ _ => 0q).
Inductive fit_type := FitBW | FitMap | FitViterbi.
Definition fit_func (ft : fit_type) (n k : nat) (p e : mat) (init : vec) (s : list nat) : option (mat * mat) :=
  match ft with
  | FitBW => fit_baum_welch n k p e init s
  | FitMap => fit_prediction false n k p e init s
  | FitViterbi => fit_prediction true n k p e init s
  end.
(** lines 128-167: at most 500 iterations.  [conv t] is the answer of
    _check_convergence at iteration t (it depends on floating-point logarithms and
    norms and is left arbitrary). *)
Fixpoint fit_loop (ft : fit_type) (n k : nat) (init : vec) (seqs : list (list nat)) (conv : nat -> bool) (fuel t : nat) (p e : mat) : res (mat * mat) :=
  match fuel with
  | O => Err ValueErr
  | S fuel' =>
      let '(pc, ec) := fit_accumulate (fit_func ft n k p e init) seqs (zeros n n) (zeros n k) in
      guard forallb (fun i => negb (Qceqb (rowsum pc i) 0)) (seq 0 n) else ValueErr ;;
      guard forallb (fun i => negb (Qceqb (rowsum ec i) 0)) (seq 0 n) else ValueErr ;;
      let p' := div_rows pc in
      let e' := div_rows ec in
      if conv t then Ok (p', e') else fit_loop ft n k init seqs conv fuel' (S t) p' e'
  end.
Definition hmm_fit (ft : fit_type) (p e : mat) (init : vec) (seqs : list (list nat)) (conv : nat -> bool) : res (mat * mat) :=
  fit_loop ft (nrows p) (ncols e) init seqs conv 500 0 p e.
(** hidden_markov_model.py 613-658 fit, for guesses that are transition and emission
    matrices (validate_transition_matrix / validate_emission_matrix compare the shape
    of the guesses with each other and with the number of states only; a symbol
    beyond the columns of the emission guess is an IndexError when it is decoded) *)
Definition fit (ft : fit_type) (states symbols : list string) (p e : mat) (seqs : list (list nat)) (init : option vec) (conv : nat -> bool) : res hmm :=
  st <- validate_labels_input states None ;;
  sb <- validate_labels_input symbols None ;;
  guard Nat.eqb (nrows p) (length st) else ValueErr ;;
  guard Nat.eqb (nrows e) (nrows p) else ValueErr ;;
  guard forallb (sequence_okb (length sb)) seqs else ValueErr ;;
  guard negb (existsb (fun s => mem_str s sb) st) else ValueErr ;;
  guard forallb (forallb (fun y => Nat.ltb y (ncols e))) seqs else IndexErr ;;
  r <- hmm_fit ft p e (match init with None => uniform (length st) | Some v => v end) seqs conv ;;
  hmm_init (fst r) (snd r) st sb.
