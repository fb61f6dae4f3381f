(** M_Generators: model of the chain generators (generators.py) and of the API
    methods that call them (markov_chain.py).  Model only, no proofs.

    Conventions.  Numbers are exact rationals (no rounding).  Arrays filled cell
    by cell in loops are written as [mk n m (fun i j => ...)], the value each
    cell has after the loop.  Numeric arguments are finite numbers: the NaN and
    infinity cases of the validators are in M_Validation. *)
From Verif Require Export M_Chain Gauss.
Open Scope res_scope.

Definition two : Qc := Q2Qc 2.
Definition half : Qc := Q2Qc (1 # 2).

(** /repo/pydtmc/markov_chain.py 2510-2544 from_matrix, typed argument: a nested
    list of finite numbers.  The guards are validate_matrix (validation.py
    670-693). *)
Definition normalize_matrix (m : mat) : mat :=
  mk (nrows m) (ncols m) (fun i j =>
    if isclose (rowsum m i) 0 then (1 / Qcn (ncols m))%Qc else (mget m i j / rowsum m i)%Qc).
Definition from_matrix (m : mat) (st : option (list string)) : res chain :=
  guard is2d (nrows m) (nrows m) m && Nat.leb 2 (nrows m) else ValueErr ;;
  guard mforall (Qcleb 0) m else ValueErr ;;
  states <- gen_states st (nrows m) (create_labels (nrows m) "") ;;
  Ok (mkchain (normalize_matrix m) states).

(** /repo/pydtmc/validation.py 1085-1124 validate_vector for a 1d vector of finite
    numbers. *)
Inductive vtype := Annihilation | Creation | StochasticV | Unconstrained.
Definition validate_vector (v : vec) (t : vtype) (size : option nat) : res vec :=
  guard negb (Nat.eqb (length v) 0) else ValueErr ;;
  guard match size with None => true | Some n => Nat.eqb (length v) n end else ValueErr ;;
  guard forallb in01 v else ValueErr ;;
  match t with
  | Annihilation => guard isclose (vget v 0) 0 else ValueErr ;; Ok v
  | Creation => guard isclose (vget v (length v - 1)) 0 else ValueErr ;; Ok v
  | StochasticV => guard isclose (lsum v) 1 else ValueErr ;; Ok v
  | Unconstrained => Ok v
  end.

(** /repo/pydtmc/generators.py 557-569 mc_birth_death *)
Definition mc_birth_death (p q : vec) : mat :=
  let n := length p in
  let r := tab n (fun i => 1 - vget q i - vget p i)%Qc in
  let m := mk n n (fun i j =>
             (if Nat.eqb i j then vget r i else 0q)
             + (if Nat.eqb j (S i) then vget p i else 0q)
             + (if Nat.eqb i (S j) then vget q i else 0q))%Qc in
  let m := mk n n (fun i j => if isclose (mget m i j) 0 then 0q else mget m i j) in
  norm_any m.

(** /repo/pydtmc/markov_chain.py 2176-2211 birth_death *)
Definition birth_death (p q : vec) (st : option (list string)) : res chain :=
  p <- validate_vector p Creation None ;;
  q <- validate_vector q Annihilation None ;;
  states <- gen_states st (length p) (create_labels (length p) "") ;;
  guard Nat.eqb (length p) (length q) else ValueErr ;;
  guard forallb (fun i => Qcleb (vget q i + vget p i) 1) (seq 0 (length p)) else ValueErr ;;
  Ok (mkchain (mc_birth_death p q) states).

(** /repo/pydtmc/generators.py 828-842 mc_gamblers_ruin *)
Definition mc_gamblers_ruin (size : nat) (w : Qc) : mat :=
  mk size size (fun i j =>
    if Nat.eqb i 0 then delta 0 j
    else if Nat.eqb i (size - 1) then delta (size - 1) j
    else if Nat.eqb (S j) i then (1 - w)%Qc
    else if Nat.eqb j (S i) then w
    else 0q).

(** /repo/pydtmc/markov_chain.py 2548-2577 gamblers_ruin *)
Definition gamblers_ruin (size : Z) (w : Qc) (st : option (list string)) : res chain :=
  guard Z.leb 3 size else ValueErr ;;
  guard Qcltb 0 w && Qcltb w 1 else ValueErr ;;
  let n := Z.to_nat size in
  states <- gen_states st n (create_labels n "") ;;
  Ok (mkchain (mc_gamblers_ruin n w) states).

(** /repo/pydtmc/markov_chain.py 2581-2602 identity *)
Definition identity (size : Z) (st : option (list string)) : res chain :=
  guard Z.leb 2 size else ValueErr ;;
  let n := Z.to_nat size in
  states <- gen_states st n (create_labels n "") ;;
  Ok (mkchain (eye n) states).

(** /repo/pydtmc/generators.py 1018-1061 mc_urn_model *)
Inductive urn := BernoulliLaplace | Ehrenfest.
Definition mc_urn_model (model : urn) (n : nat) : mat :=
  let dn := n * 2 in
  let size := dn + 1 in
  mk size size (fun i j =>
    let x := (Qcn i / Qcn dn)%Qc in
    if Nat.eqb i 0 then delta 1 j
    else if Nat.eqb i dn then delta (size - 2) j
    else match model with
    | BernoulliLaplace =>
        if Nat.eqb (S j) i then (x * x)%Qc
        else if Nat.eqb j i then (two * x * (1 - x))%Qc
        else if Nat.eqb j (S i) then ((1 - x) * (1 - x))%Qc
        else 0q
    | Ehrenfest =>
        if Nat.eqb (S j) i then x
        else if Nat.eqb j (S i) then (1 - x)%Qc
        else 0q
    end).

(** /repo/pydtmc/markov_chain.py 2742-2773 urn_model *)
Definition urn_model (model : urn) (n : Z) (st : option (list string)) : res chain :=
  guard Z.leb 1 n else ValueErr ;;
  let k := Z.to_nat n in
  states <- gen_states st (2 * k + 1) (create_labels (k * 2 + 1) "") ;;
  Ok (mkchain (mc_urn_model model k) states).

(** Binomial coefficient and pmf: scipy.stats.binom.pmf(k, n, p), exact. *)
Fixpoint binom (n k : nat) : nat :=
  match n, k with
  | _, O => 1
  | O, S _ => 0
  | S n', S k' => binom n' k' + binom n' (S k')
  end.
Fixpoint qpow (x : Qc) (k : nat) : Qc :=
  match k with O => 1q | S k' => (x * qpow x k')%Qc end.
Definition binom_pmf (n k : nat) (x : Qc) : Qc := (Qcn (binom n k) * qpow x k * qpow (1 - x) (n - k))%Qc.

(** /repo/pydtmc/generators.py 887-930 mc_population_genetics_model.
    Python float divisions by zero raise ZeroDivisionError ([ArithErr]).
    exp(logpmf) is taken as the exact pmf (ps in [0,1]; the log of a zero
    probability is -inf and exp gives 0). *)
Inductive popmodel := Moran | WrightFisher.
Definition moran_den (n : nat) (s : Qc) (i : nat) : Qc := ((1 - s) * Qcn i + Qcn (n - i))%Qc.
Definition moran_pm1 (n : nat) (s v : Qc) (i : nat) : Qc :=
  (Qcn i / Qcn n * (((1 - s) * Qcn i * v + Qcn (n - i) * (1 - v)) / moran_den n s i))%Qc.
Definition moran_pp1 (n : nat) (s u v : Qc) (i : nat) : Qc :=
  (Qcn (n - i) / Qcn n * (((1 - s) * Qcn i * (1 - u) + Qcn (n - i) * v) / moran_den n s i))%Qc.
Definition moran_raw (n : nat) (s u v : Qc) : mat :=
  mk (n + 1) (n + 1) (fun i j =>
    if Nat.eqb i 0 then delta 0 j
    else if Nat.eqb i n then delta n j
    else if Nat.eqb (S j) i then moran_pm1 n s v i
    else if Nat.eqb j i then (1 - moran_pm1 n s v i - moran_pp1 n s u v i)%Qc
    else if Nat.eqb j (S i) then moran_pp1 n s u v i
    else 0q).
Definition wf_pm (n : nat) (u v : Qc) (i : nat) : Qc :=
  let k := (Qcn i / Qcn n)%Qc in (k * (1 - u) + (1 - k) * v)%Qc.
Definition wf_den (n : nat) (s u v : Qc) (i : nat) : Qc :=
  let pm := wf_pm n u v i in (pm * (1 + s) - pm + 1)%Qc.
Definition wf_ps (n : nat) (s u v : Qc) (i : nat) : Qc :=
  Qcmin (wf_pm n u v i * (1 + s) / wf_den n s u v i) 1.
Definition wf_raw (n : nat) (s u v : Qc) : mat :=
  mk (n + 1) (n + 1) (fun i j =>
    if Nat.eqb i 0 then delta 0 j
    else if Nat.eqb i n then delta n j
    else binom_pmf n j (wf_ps n s u v i)).
Definition mc_population_genetics_model (model : popmodel) (n : nat) (s u v : Qc) : res mat :=
  match model with
  | Moran =>
      guard forallb (fun i => negb (Qceqb (moran_den n s i) 0)) (seq 1 (n - 1)) else ArithErr ;;
      Ok (div_rows (moran_raw n s u v))
  | WrightFisher =>
      guard forallb (fun i => negb (Qceqb (wf_den n s u v i) 0)) (seq 1 (n - 1)) else ArithErr ;;
      Ok (div_rows (wf_raw n s u v))
  end.

(** /repo/pydtmc/markov_chain.py 2606-2646 population_genetics_model *)
Definition population_genetics_model (model : popmodel) (n : Z) (s u v : Qc) (st : option (list string)) : res chain :=
  guard Z.leb 2 n && Z.leb n 500 else ValueErr ;;
  guard Qcleb (-(1))%Qc s else ValueErr ;;
  guard in01 u else ValueErr ;;
  guard in01 v else ValueErr ;;
  let k := Z.to_nat n in
  states <- gen_states st (k + 1) (create_labels (k + 1) "") ;;
  guard match model with
        | Moran => true
        | WrightFisher => negb (Qcltb 1 (Q2Qc 4 * Qcn k * Qcmax u v)%Qc)
        end else ValueErr ;;
  p <- mc_population_genetics_model model k s u v ;;
  Ok (mkchain p states).

(** /repo/pydtmc/generators.py 395-416 _rouwenhorst_matrix, recursion on
    rm_size = k + 2. *)
Fixpoint rouwenhorst (k : nat) (z : Qc) : mat :=
  match k with
  | O => [[z; 1 - z]; [1 - z; z]]%Qc
  | S k' =>
      let size := k + 2 in
      let th := rouwenhorst k' z in
      mk size size (fun i j =>
        let t1 := if Nat.ltb i (size - 1) && Nat.ltb j (size - 1) then (z * mget th i j)%Qc else 0q in
        let t2 := if Nat.ltb i (size - 1) && Nat.leb 1 j then ((1 - z) * mget th i (j - 1))%Qc else 0q in
        let t3 := if Nat.leb 1 i && Nat.ltb j (size - 1) then ((1 - z) * mget th (i - 1) j)%Qc else 0q in
        let t4 := if Nat.leb 1 i && Nat.leb 1 j then (z * mget th (i - 1) (j - 1))%Qc else 0q in
        let o := (t1 + t2 + t3 + t4)%Qc in
        if Nat.leb 1 i && Nat.ltb i (size - 1) then (o / two)%Qc else o)
  end.

(** /repo/pydtmc/generators.py 523-550, the Tauchen branch.  [cdf] stands for
    scipy.stats.norm.cdf and [sqrt] for numpy.sqrt (both are parameters of the
    model).  1e-8 is numpy's literal 1 - 1e-8. *)
Definition linspace (a b : Qc) (n i : nat) : Qc := (a + Qcn i * ((b - a) / Qcn (n - 1)))%Qc.
Definition mc_tauchen (cdf sqrt : Qc -> Qc) (size : nat) (sigma rho k : Qc) : res mat :=
  let rho := if isclose rho 1 then (1 - Q2Qc (1 # 100000000))%Qc else rho in
  guard negb (Qceqb (1 - rho * rho)%Qc 0) else ArithErr ;;
  let y_std := sqrt (sigma * sigma / (1 - rho * rho))%Qc in
  let x_max := (y_std * k)%Qc in
  let x_min := (- x_max)%Qc in
  let x := linspace x_min x_max size in
  let step := (half * ((x_max - x_min) / Qcn (size - 1)))%Qc in
  Ok (mk size size (fun i j =>
    let rx := (rho * x i)%Qc in
    if Nat.eqb j 0 then cdf ((x 0%nat - rx + step) / sigma)%Qc
    else if Nat.eqb j (size - 1) then (1 - cdf ((x (size - 1)%nat - rx - step) / sigma))%Qc
    else (cdf ((x j - rx + step) / sigma) - cdf ((x j - rx - step) / sigma))%Qc)).

(** /repo/pydtmc/generators.py 418-434, the Adda-Cooper branch: only the
    arithmetic that precedes the numerical integration.  sigma / (1-rho^2)^0.5
    raises ZeroDivisionError when rho is 1 or -1.  [quad_rows z_sigma] stands for
    the matrix produced by scipy.integrate.quad. *)
Definition mc_adda_cooper (quad_rows : nat -> Qc -> mat) (sqrt : Qc -> Qc) (size : nat) (sigma rho : Qc) : res mat :=
  guard negb (Qceqb (sqrt (1 - rho * rho)%Qc) 0) else ArithErr ;;
  Ok (quad_rows size (sigma / sqrt (1 - rho * rho))%Qc).

(** /repo/pydtmc/markov_chain.py 2118-2172 approximation for the types
    rouwenhorst, tauchen and adda-cooper (tauchen-hussey is not modelled). *)
Inductive approx := Rouwenhorst | Tauchen (k : option Qc) | AddaCooper.
Definition approximation (cdf sqrt : Qc -> Qc) (quad_rows : nat -> Qc -> mat)
    (size : Z) (a : approx) (sigma rho : Qc) (st : option (list string)) : res chain :=
  guard Z.leb 2 size else ValueErr ;;
  guard Qcltb 0 sigma else ValueErr ;;
  guard Qcleb (-(1))%Qc rho && Qcleb rho 1 else ValueErr ;;
  let n := Z.to_nat size in
  states <- gen_states st n (create_labels n "") ;;
  p <- match a with
       | Rouwenhorst => Ok (rouwenhorst (n - 2) ((1 + rho) / two)%Qc)
       | Tauchen ok =>
           let k := opt_get (Q2Qc 3) ok in
           guard Qcleb 1 k else ValueErr ;;
           mc_tauchen cdf sqrt n sigma rho k
       | AddaCooper => mc_adda_cooper quad_rows sqrt n sigma rho
       end ;;
  Ok (mkchain p states).

(** /repo/pydtmc/generators.py 797-810 _gem_allocation *)
Fixpoint gem_weights (allocated : Qc) (draws : list Qc) : list Qc :=
  match draws with
  | [] => []
  | d :: ds => let weight := ((1 - allocated) * d)%Qc in weight :: gem_weights (allocated + weight)%Qc ds
  end.
Definition gem_allocation (draws : list Qc) : list Qc :=
  let w := gem_weights 0q draws in map (fun x => x / lsum w)%Qc w.

(** /repo/pydtmc/generators.py 795-825 mc_dirichlet_process.  The random draws
    rng.beta(1, diffusion_factor, (size, size)) and rng.beta(bias, 1, size) are
    the arguments [draws] and [diagonal]. *)
Definition mc_dirichlet_process (size : nat) (draws : mat) (diagonal : option vec) (shift : bool) : mat :=
  let p := map gem_allocation draws in
  let p := if shift then map (@rev Qc) p else p in
  match diagonal with
  | None => p
  | Some d => div_rows (mk size size (fun i j => (mget p i j + (if Nat.eqb i j then vget d i else 0))%Qc))
  end.

(** /repo/pydtmc/markov_chain.py 1619-1646 merge_with *)
Definition merge_with (c other : chain) (gamma : Qc) : res chain :=
  guard Nat.eqb (ch_size other) (ch_size c) else ValueErr ;;
  guard Qcltb 0 gamma && Qcltb gamma 1 else ValueErr ;;
  let n := ch_size c in
  Ok (mkchain (mk n n (fun i j => ((1 - gamma) * mget (ch_p c) i j + gamma * mget (ch_p other) i j)%Qc))
              (create_labels n "M")).

(** /repo/pydtmc/generators.py 845-853 mc_lazy; markov_chain.py 2001-2024 *)
Definition mc_lazy (p : mat) (w : vec) : mat :=
  mk (nrows p) (nrows p) (fun i j =>
    ((1 - vget w i) * mget p i j + (if Nat.eqb i j then 1q else 0q) * vget w j)%Qc).
Inductive weights := WScalar (x : Qc) | WVector (v : vec).
Definition to_lazy_chain (c : chain) (w : weights) : res chain :=
  v <- match w with
       | WScalar x => let v := repeat x (ch_size c) in guard forallb in01 v else ValueErr ;; Ok v
       | WVector v => validate_vector v Unconstrained (Some (ch_size c))
       end ;;
  Ok (mkchain (mc_lazy (ch_p c) v) (ch_states c)).

(** /repo/pydtmc/generators.py 572-601 mc_bounded; markov_chain.py 1906-1931.
    last[-2] is index size-2. *)
Inductive bcond := BNumber (x : Qc) | BAbsorbing | BReflecting.
Definition mc_bounded (p : mat) (b : bcond) : mat :=
  let size := nrows p in
  let first j := match b with
    | BNumber x => if Nat.eqb j 0 then (1 - x)%Qc else if Nat.eqb j 1 then x else 0q
    | BAbsorbing => if Nat.eqb j 0 then 1q else 0q
    | BReflecting => if Nat.eqb j 1 then 1q else 0q
    end in
  let last j := match b with
    | BNumber x => if Nat.eqb j (size - 2) then (1 - x)%Qc else if Nat.eqb j (size - 1) then x else 0q
    | BAbsorbing => if Nat.eqb j (size - 1) then 1q else 0q
    | BReflecting => if Nat.eqb j (size - 2) then 1q else 0q
    end in
  mk size size (fun i j =>
    if Nat.eqb i (size - 1) then last j else if Nat.eqb i 0 then first j else mget p i j).
Definition to_bounded_chain (c : chain) (b : bcond) : res chain :=
  guard match b with BNumber x => negb (Qcltb x 0 || Qcltb 1 x) | _ => true end else ValueErr ;;
  Ok (mkchain (mc_bounded (ch_p c) b) (ch_states c)).

(** /repo/pydtmc/markov_chain.py 2038-2061 to_nth_order *)
Definition to_nth_order (c : chain) (order : Z) : res chain :=
  guard Z.leb 2 order else ValueErr ;;
  Ok (mkchain (mpow (ch_p c) (Z.to_nat order)) (ch_states c)).

(** /repo/pydtmc/generators.py 604-621 mc_canonical and markov_chain.py 1934-1948
    to_canonical_form, given the two index lists. *)
Definition list_max0 (l : list nat) : nat := fold_right Nat.max 0 l.
Definition list_min0 (l : list nat) : nat := match l with [] => 0 | x :: l' => fold_right Nat.min x l' end.
Definition mc_canonical (p : mat) (recurrent transient : list nat) : mat :=
  if Nat.eqb (length recurrent) 0 || Nat.eqb (length transient) 0 then p
  else if Nat.ltb (list_max0 transient) (list_min0 recurrent) then p
  else let indices := transient ++ recurrent in mix p indices indices.
Definition to_canonical_form_of (c : chain) (recurrent transient : list nat) : chain :=
  mkchain (mc_canonical (ch_p c) recurrent transient)
          (map (fun i => nth i (ch_states c) ""%string) (transient ++ recurrent)).

(** /repo/pydtmc/generators.py 857-884 mc_lump and markov_chain.py 1484-1511 lump,
    after validation of the partitions. *)
Definition lump_r (size : nat) (parts : list (list nat)) : mat :=
  mk size (length parts) (fun s index => if memn s (nth index parts []) then 1q else 0q).
Definition mc_lump (p : mat) (states : list string) (parts : list (list nat)) : res (mat * list string) :=
  let size := nrows p in
  let r := lump_r size parts in
  let rt := transpose r in
  match minv (mmul rt r) with
  | None => Err ValueErr
  | Some iv =>
      let k := mmul iv rt in
      let left := mmul (mmul (mmul r k) p) r in
      let right := mmul p r in
      guard meqb left right else ValueErr ;;
      Ok (mmul (mmul k p) r,
          map (fun part => String.concat "," (map (fun s => nth s states ""%string) part)) parts)
  end.
Definition lump_typed (c : chain) (parts : list (list nat)) : res chain :=
  guard negb (Nat.eqb (ch_size c) 2) else ValueErr ;;
  r <- mc_lump (ch_p c) (ch_states c) parts ;;
  Ok (mkchain (fst r) (snd r)).

(** /repo/pydtmc/generators.py 984-1015 mc_sub; [adj] is adjacency_matrix > 0
    (markov_chain.py 403-411).  The inner loop over x updates row j in place from
    row i; entry (i, x) is read before it can have been changed by the same loop,
    so each row update is simultaneous. *)
Definition bget (M : list (list bool)) (i j : nat) : bool := nth j (nth i M []) false.
Definition set_nth {A} (l : list A) (i : nat) (x : A) : list A :=
  firstn i l ++ match skipn i l with [] => [] | _ :: t => x :: t end.
Definition sub_row (size i j : nat) (c : list (list bool)) : list (list bool) :=
  set_nth c j (tab size (fun x => bget c j x || (bget c j i && bget c i x))).
Definition sub_closure (size : nat) (adj : list (list bool)) : list (list bool) :=
  fold_left (fun c i => fold_left (fun c j => sub_row size i j c) (seq 0 size) c) (seq 0 size) adj.

(** Iteration over the list sub_states while it grows (lines 998-1002): [k] is the
    position of the list iterator; fuel exhaustion is an error value. *)
Fixpoint sub_grow (fuel size : nat) (closure : list (list bool)) (k : nat) (l : list nat) : res (list nat) :=
  match nth_error l k with
  | None => Ok l
  | Some s =>
      match fuel with
      | O => Err FuelErr
      | S fuel' =>
          let l' := fold_left (fun l x => if bget closure s x && negb (memn x l) then l ++ [x] else l) (seq 0 size) l in
          sub_grow fuel' size closure (S k) l'
      end
  end.

(** sorted(...) of a list of integers *)
Fixpoint insert_nat (x : nat) (l : list nat) : list nat :=
  match l with [] => [x] | y :: l' => if Nat.leb x y then x :: l else y :: insert_nat x l' end.
Definition sort_nat (l : list nat) : list nat := fold_right insert_nat [] l.

Definition adjacency (p : mat) : list (list bool) := map (map (Qcltb 0)) p.

Definition mc_sub (p : mat) (states : list string) (adj : list (list bool)) (sub_states : list nat) : res (mat * list string) :=
  let size := nrows p in
  let closure := sub_closure size adj in
  l <- sub_grow (size + 1) size closure 0 sub_states ;;
  let l := sort_nat l in
  let q := div_rows (mix p l l) in
  guard negb (Nat.eqb (nrows q * ncols q) 1) else ValueErr ;;
  Ok (q, map (fun s => nth s states ""%string) l).

(** /repo/pydtmc/markov_chain.py 2064-2092 to_subchain after label resolution *)
Definition to_subchain_typed (c : chain) (sub_states : list nat) : res chain :=
  r <- mc_sub (ch_p c) (ch_states c) (adjacency (ch_p c)) sub_states ;;
  Ok (mkchain (fst r) (snd r)).

(** /repo/pydtmc/generators.py 934-981 mc_random.  A mask cell is NaN, infinity
    (the marker written in line 954) or a number.  Randomness: [pick i] is the
    integer drawn for row i in line 953 (rng.randint(0, k), 0 <= . < k; a call
    with k = 0 raises ValueError), [perm] the permutation of range(zeros_required)
    of line 959, [draw i j] the number in [0,1) that line 968 writes to cell
    (i, j). *)
Inductive cell := CNan | CInf | CVal (x : Qc).
Definition is_nan (c : cell) : bool := match c with CNan => true | _ => false end.
Definition cval (c : cell) : Qc := match c with CVal x => x | _ => 0q end.
Definition cget (M : list (list cell)) (i j : nat) : cell := nth j (nth i M []) CNan.
Definition cmk (n : nat) (f : nat -> nat -> cell) : list (list cell) := tab n (fun i => tab n (f i)).
Definition nan_cols (size : nat) (m : list (list cell)) (i : nat) : list nat :=
  filter (fun j => is_nan (cget m i j)) (seq 0 size).
Definition mc_random (size : nat) (zeros : nat) (mask : list (list cell))
    (pick : nat -> nat) (perm : list nat) (draw : nat -> nat -> Qc) : res mat :=
  let full i := isclose (sumn size (fun j => cval (cget mask i j))) 1 in
  let m1 := cmk size (fun i j => if is_nan (cget mask i j) && full i then CVal 0q else cget mask i j) in
  let total := length (flat_map (nan_cols size m1) (seq 0 size)) in
  let notfull := length (filter (fun i => negb (full i)) (seq 0 size)) in
  guard Z.leb (Z.of_nat zeros) (Z.of_nat total - Z.of_nat notfull) else ValueErr ;;
  guard forallb (fun i => full i || Nat.ltb 0 (length (nan_cols size m1 i))) (seq 0 size) else ValueErr ;;
  let m2 := cmk size (fun i j =>
              if negb (full i) && Nat.eqb j (nth (pick i) (nan_cols size m1 i) 0) then CInf else cget m1 i j) in
  let unassigned := flat_map (fun i => map (fun j => (i, j)) (nan_cols size m2 i)) (seq 0 size) in
  let zero_cells := map (fun k => nth k unassigned (0, 0)) (firstn zeros perm) in
  let m3 := cmk size (fun i j =>
              if existsb (fun c => Nat.eqb (fst c) i && Nat.eqb (snd c) j) zero_cells then CVal 0q
              else match cget m2 i j with CInf => CNan | c => c end) in
  let p := mk size size (fun i j => if is_nan (cget m3 i j) then draw i j else cval (cget m3 i j)) in
  Ok (mk size size (fun i j =>
        let s := sumn size (fun l => if is_nan (cget m3 i l) then mget p i l else 0q) in
        let si := sumn size (fun l => if is_nan (cget m3 i l) then 0q else mget p i l) in
        if Qcltb 0 s && is_nan (cget m3 i j) then (mget p i j * ((1 - si) / s))%Qc else mget p i j)).

(** /repo/pydtmc/markov_chain.py 2651-2692 random (mask guards: validation.py
    646-667). *)
Definition mask_ok (size : nat) (mask : list (list cell)) : bool :=
  Nat.eqb (length mask) size && forallb (fun r => Nat.eqb (length r) size) mask
  && forallb (forallb (fun c => match c with CNan => true | CInf => false | CVal x => in01 x end)) mask
  && forallb (fun i => Qcleb (sumn size (fun j => cval (cget mask i j))) 1) (seq 0 size).
Definition random (size : Z) (st : option (list string)) (zeros : Z) (mask : option (list (list cell)))
    (pick : nat -> nat) (perm : list nat) (draw : nat -> nat -> Qc) : res chain :=
  guard Z.leb 2 size else ValueErr ;;
  let n := Z.to_nat size in
  states <- gen_states st n (create_labels n "") ;;
  guard Z.leb 0 zeros else ValueErr ;;
  let mask := match mask with None => cmk n (fun _ _ => CNan) | Some m => m end in
  guard mask_ok n mask else ValueErr ;;
  p <- mc_random n (Z.to_nat zeros) mask pick perm draw ;;
  Ok (mkchain p states).

(** /repo/pydtmc/markov_chain.py 2697-2738 random_distribution: the drawn array
    after nan_to_num is the argument (finite numbers). *)
Definition random_distribution (draws : mat) (st : option (list string)) : res chain :=
  guard Nat.leb 2 (nrows draws) else ValueErr ;;
  states <- gen_states st (nrows draws) (create_labels (nrows draws) "") ;;
  Ok (mkchain (norm_any (mk (nrows draws) (nrows draws) (fun i j => Qcmax (mget draws i j) 0))) states).
