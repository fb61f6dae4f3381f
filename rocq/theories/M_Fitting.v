(** M_Fitting: model of the Markov chain part of /repo/pydtmc/fitting.py (lines
    170-330) and of MarkovChain.fit_function and fit_sequence.  Model only. *)
From Verif Require Export M_Hmm.
Open Scope nat_scope.
Open Scope res_scope.

(** ** fitting.py 289-330 mc_fit_sequence *)

(** lines 301-302 / 323-324: f[i, j] += 1 for the consecutive pairs of the sequence *)
Definition seq_moves (s : list nat) : list (nat * nat) := zip (removelast s) (tl s).

(** lines 296-320 (map): a hyperparameter matrix of integers *)
Definition fit_map (n : nat) (a : nat -> nat -> nat) (s : list nat) : mat :=
  norm_any (mk n n (fun i j =>
    let f k := pair_count (seq_moves s) i k in
    let rt := (sumn n (fun k => Qcn (f k)) + sumn n (fun k => Qcn (a i k)))%Qc in
    if Qceqb rt (Qcn n) then (1 / Qcn n)%Qc
    else ((Qcn (f j) + Qcn (a i j) - 1) / (rt - Qcn n))%Qc)).
(** lines 322-330 (mle), smoothing adds 0.001 to every count *)
Definition fit_mle (n : nat) (smooth : bool) (s : list nat) : mat :=
  norm_any (mk n n (fun i j => (Qcn (pair_count (seq_moves s) i j) + (if smooth then Q2Qc (1 # 1000) else 0))%Qc)).

(** markov_chain.py 2306-2347 fit_sequence for a sequence of positions; the fitting
    parameter of the other fitting type is a validation error, expressed by the type. *)
Inductive seq_fit := SeqMap (a : option (nat -> nat -> nat)) | SeqMle (smooth : option bool).
Definition fit_sequence (t : seq_fit) (states : list string) (s : list nat) : res chain :=
  st <- validate_labels_input states None ;;
  let n := length st in
  guard sequence_okb n s else ValueErr ;;
  match t with
  | SeqMap None => Ok (mkchain (fit_map n (fun _ _ => 1) s) st)
  | SeqMap (Some a) =>
      guard forallb (fun i => forallb (fun j => Nat.leb 1 (a i j)) (seq 0 n)) (seq 0 n) else ValueErr ;;
      Ok (mkchain (fit_map n a s) st)
  | SeqMle o => Ok (mkchain (fit_mle n (match o with None => false | Some b => b end) s) st)
  end.

(** ** fitting.py 173-286 mc_fit_function *)

(** The rules whose nodes and weights are rational are modelled; for the others
    (gauss-chebyshev, gauss-legendre, niederreiter) nodes and weights are arguments. *)
Inductive quadrature := QNewton | QSimpson | QTrapezoid | QOther (nodes weights : nat -> Qc).
(** numpy.linspace(a, b, n)[i] *)
Definition linspace (a b : Qc) (n i : nat) : Qc := (a + Qcn i * ((b - a) / Qcn (n - 1)))%Qc.
(** lines 241-264 *)
Definition q_nodes (t : quadrature) (a b : Qc) (n i : nat) : Qc :=
  match t with
  | QNewton => ((Qcn i + Q2Qc (1 # 2)) * ((b - a) / Qcn n))%Qc
  | QSimpson | QTrapezoid => linspace a b n i
  | QOther nodes _ => nodes i
  end.
Definition q_weights (t : quadrature) (a b : Qc) (n j : nat) : Qc :=
  match t with
  | QNewton => ((b - a) / Qcn n)%Qc
  | QSimpson =>
      ((linspace a b n 1 - linspace a b n 0) / Q2Qc 3 *
        (if Nat.eqb j 0 || Nat.eqb j (n - 1) then 1 else if Nat.even j then Q2Qc 2 else Q2Qc 4))%Qc
  | QTrapezoid =>
      ((linspace a b n 1 - linspace a b n 0) * (if Nat.eqb j 0 || Nat.eqb j (n - 1) then Q2Qc (1 # 2) else 1))%Qc
  | QOther _ w => w j
  end.
(** lines 266-286.  [f i x j y] is None when the call raises or its value is not a
    finite number.  A row with non-zero entries and sum zero is divided by zero
    (numpy gives infinities and NaN): an error here. *)
Definition fit_values (n : nat) (nodes weights : nat -> Qc) (f : nat -> Qc -> nat -> Qc -> option Qc) : res mat :=
  mapM (fun i => mapM (fun j => match f i (nodes i) j (nodes j) with
                                | None => Err ValueErr
                                | Some v => Ok (v * weights j)%Qc
                                end) (seq 0 n)) (seq 0 n).
Definition mc_fit_function (t : quadrature) (a b : Qc) (n : nat) (f : nat -> Qc -> nat -> Qc -> option Qc) : res mat :=
  p <- fit_values n (q_nodes t a b n) (q_weights t a b n) f ;;
  let p' := fill_any p in
  guard forallb (fun i => negb (Qceqb (rowsum p' i) 0)) (seq 0 n) else ArithErr ;;
  Ok (div_rows p').
(** markov_chain.py 2254-2302 fit_function, with the interval check of
    validation.py 466-487 and the trial call of validation.py 1031-1059; the chain is
    built without validation of the matrix (instance generator) *)
Definition fit_function (t : quadrature) (states : list string) (f : nat -> Qc -> nat -> Qc -> option Qc) (interval : option (Qc * Qc)) : res chain :=
  guard match f 1 1q 1 1q with Some _ => true | None => false end else ValueErr ;;
  st <- validate_labels_input states None ;;
  let '(a, b) := match interval with None => (0q, 1q) | Some i => i end in
  guard Qcleb 0 a && Qcleb 0 b && Qcltb a b else ValueErr ;;
  let n := length st in
  guard match t with QSimpson => negb (Nat.even n) | _ => true end else ValueErr ;;
  p <- mc_fit_function t a b n f ;;
  Ok (mkchain p st).
