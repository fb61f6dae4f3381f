(** M_Aggregate: model of aggregate (/repo/pydtmc/markov_chain.py 1018-1065) and of the two
    aggregation functions of /repo/pydtmc/generators.py 192-381.  Model only.

    numpy.linalg.eig and the Kullback-Leibler divergence are arguments:
    [signs A] says of each entry of the eigenvector of A for the eigenvalue of second largest
    modulus whether it is >= 0; [kld phi q] is the divergence of computations.py 298-312 for the
    groups phi and the matrix q, None standing for infinity and nan (never below anything).
    The matrix phi of zeros and ones is kept as the list of its columns, a column as a list of booleans.
    Exact arithmetic in place of doubles. *)
From Verif Require Export M_Measures.
Open Scope res_scope.

Definition groups := list (list bool).
(** np.flatnonzero(v > 0.0) *)
Definition members (v : list bool) : list nat := filter (fun i => nth i v false) (seq 0 (length v)).
Definition rank_in (v : list bool) (i : nat) : nat := length (filter (fun j => nth j v false) (seq 0 i)).
(** generators.py 234-238 and 332-336: v1[indices] = evector >= 0.0, v2[indices] = evector < 0.0 *)
Definition part (v sg : list bool) (keep : bool) : list bool :=
  tab (length v) (fun i => nth i v false && Bool.eqb (nth (rank_in v i) sg true) keep).
(** generators.py 221-225 and 321-325: ar = (p_sub + diag(pi_sub)^-1 p_sub^T diag(pi_sub)) / 2
    (numpy.linalg.solve raises LinAlgError when an entry of pi_sub is zero) *)
Definition reversibilised (p : mat) (pi : vec) (idx : list nat) : res mat :=
  guard forallb (fun i => negb (Qceqb (vget pi i) 0)) idx else ArithErr ;;
  let k := length idx in
  Ok (mk k k (fun a b => let i := nth a idx 0%nat in let j := nth b idx 0%nat in
        (Q2Qc (1 # 2) * (mget p i j + mget p j i / vget pi i * vget pi j))%Qc)).
Definition ind (b : bool) : Qc := if b then 1q else 0q.
(** generators.py 195-211 and 281-302 _calculate_q: phi^T diag(pi) p phi divided by phi_z^T diag(pi) phi_z,
    row by row; None when a divisor is zero (the matrix then contains nan) *)
Definition calc_q (p : mat) (pi : vec) (phi : groups) : option mat :=
  let n := nrows p in
  let z := length phi in
  let w a i := ind (nth i (nth a phi []) false) in
  let den a := sumn n (fun i => w a i * vget pi i * w a i)%Qc in
  if forallb (fun a => negb (Qceqb (den a) 0)) (seq 0 z)
  then Some (mk z z (fun a b => sumn n (fun i => sumn n (fun j => w a i * vget pi i * mget p i j * w b j)) / den a)%Qc)
  else None.
Definition kl_below (a b : option Qc) : bool :=
  match a, b with None, _ => false | Some _, None => true | Some x, Some y => Qcltb x y end.
(** generators.py 377 and 268: q /= np.sum(q, axis=1, keepdims=True); a zero row would become nan,
    an error value here *)
Definition norm_q (q : mat) : res mat :=
  let k := nrows q in
  guard forallb (fun i => negb (Qceqb (sumn k (mget q i)) 0)) (seq 0 k) else OtherErr ;;
  Ok (mk k k (fun i j => mget q i j / sumn k (mget q i))%Qc).

(** ** Bottom-up: generators.py 192-272 *)
(** lines 214-241 _create_bipartition_candidate *)
Definition bu_candidate (signs : mat -> list bool) (p : mat) (pi : vec) (phi : groups) (i : nat) : res (option groups) :=
  let v := nth i phi [] in
  if Nat.leb (length (members v)) 1 then Ok None
  else
    ar <- reversibilised p pi (members v) ;;
    let sg := signs ar in
    Ok (Some (firstn i phi ++ [part v sg true; part v sg false] ++ skipn (i + 1) phi)).
(** lines 251-263: phi_k, r_k, q *)
Fixpoint bu_scan (signs : mat -> list bool) (kld : groups -> mat -> option Qc) (p : mat) (pi : vec) (phi : groups)
    (is : list nat) (best : groups * option Qc * mat) : res (groups * option Qc * mat) :=
  match is with
  | [] => Ok best
  | i :: is' =>
      bc <- bu_candidate signs p pi phi i ;;
      match bc with
      | None => bu_scan signs kld p pi phi is' best
      | Some bc =>
          match calc_q p pi bc with
          | None => bu_scan signs kld p pi phi is' best
          | Some q =>
              let r := kld bc q in
              bu_scan signs kld p pi phi is' (if kl_below r (snd (fst best)) then (bc, r, q) else best)
          end
      end
  end.
(** lines 248-266: the while loop runs s - 1 times *)
Fixpoint bu_loop (signs : mat -> list bool) (kld : groups -> mat -> option Qc) (p : mat) (pi : vec) (k : nat) (phi : groups) (q : mat) : res mat :=
  match k with
  | O => Ok q
  | S k' =>
      r <- bu_scan signs kld p pi phi (seq 0 (length phi)) (phi, None, q) ;;
      bu_loop signs kld p pi k' (fst (fst r)) (snd r)
  end.
Definition bottom_up (signs : mat -> list bool) (kld : groups -> mat -> option Qc) (p : mat) (pi : vec) (s : nat) : res (mat * list string) :=
  let size := nrows p in
  q <- bu_loop signs kld p pi (s - 1) [repeat true size] (mk size size (fun _ _ => 1 / Qcn size)%Qc) ;;
  q <- norm_q q ;;
  Ok (q, create_labels (nrows q) "ASBU").

(** ** Top-down: generators.py 275-381 *)
(** lines 277-291 _calculate_invariant *)
Fixpoint invariant_loop (fuel : nat) (q : mat) (kappa theta : vec) : vec :=
  match fuel with
  | O => theta
  | S fuel' =>
      if existsb (fun i => Qcltb (Q2Qc (1 # 100000000)) (Qcabs (vget kappa i - vget theta i))) (seq 0 (length kappa))
      then let kappa' := tab (length kappa) (fun i => (vget kappa i + vget theta i) / Q2Qc (2 # 1))%Qc in
           invariant_loop fuel' q kappa' (vmul kappa' q)
      else theta
  end.
Definition calculate_invariant (q : mat) : vec :=
  let kappa := repeat (1 / Qcn (nrows q))%Qc (nrows q) in invariant_loop 1000 q kappa (vmul kappa q).
(** lines 312-349 _update_bipartition_candidates: the last column is split, parts with one element are dropped *)
Definition td_update (signs : mat -> list bool) (q : mat) (pi : vec) (phi : groups) : res groups :=
  let v := last phi [] in
  ar <- reversibilised q pi (members v) ;;
  let sg := signs ar in
  let v1 := part v sg true in
  let v2 := part v sg false in
  Ok (removelast phi ++ (if Nat.ltb 1 (length (members v1)) then [v1] else []) ++ (if Nat.ltb 1 (length (members v2)) then [v2] else [])).
(** lines 360-361: while np.any(np.sum(phi, axis=0) > 2.0) *)
Fixpoint td_split (fuel : nat) (signs : mat -> list bool) (q : mat) (pi : vec) (phi : groups) : res groups :=
  match fuel with
  | O => Err FuelErr
  | S fuel' =>
      if existsb (fun v => Nat.ltb 2 (length (members v))) phi
      then phi' <- td_update signs q pi phi ;; td_split fuel' signs q pi phi'
      else Ok phi
  end.
(** lines 294-300: the columns vi of eta are replaced by their maximum; eta[:, (vi0 + 1):(vi1 - 1)] is the slice of line 298 *)
Definition slice {A} (a b : nat) (l : list A) : list A := firstn (b - a) (skipn a l).
Definition union_of (n : nat) (eta : groups) (vi : list nat) : list bool :=
  tab n (fun i => existsb (fun a => nth i (nth a eta []) false) vi).
Definition td_merge (n : nat) (eta : groups) (v : list bool) : res groups :=
  match members v with
  | vi0 :: vi1 :: _ =>
      Ok (firstn vi0 eta ++ [union_of n eta (members v)] ++ slice (vi0 + 1) (vi1 - 1) eta ++ skipn (vi1 + 1) eta)
  | _ => Err IndexErr
  end.
(** lines 363-370: the candidates with their divergences; sorted in decreasing order (stable), the last one is taken *)
Fixpoint td_best (kld : groups -> mat -> option Qc) (p : mat) (pi : vec) (eta : groups) (phi : groups)
    (best : option (option Qc * mat * groups)) : res (option (option Qc * mat * groups)) :=
  match phi with
  | [] => Ok best
  | v :: phi' =>
      eta' <- td_merge (nrows p) eta v ;;
      match calc_q p pi eta' with
      | None => Err OtherErr
      | Some q =>
          let r := kld eta' q in
          td_best kld p pi eta phi'
            (match best with
             | None => Some (r, q, eta')
             | Some b => if kl_below (fst (fst b)) r then best else Some (r, q, eta')
             end)
      end
  end.
Fixpoint td_loop (signs : mat -> list bool) (kld : groups -> mat -> option Qc) (p : mat) (pi : vec) (rounds : nat) (first : bool) (q : mat) (eta : groups) : res mat :=
  match rounds with
  | O => Ok q
  | S rounds' =>
      let q_pi := if first then pi else calculate_invariant q in
      phi <- td_split (2 * nrows q + 2) signs q q_pi [repeat true (nrows q)] ;;
      b <- td_best kld p pi eta phi None ;;
      match b with
      | None => Err IndexErr
      | Some (_, q', eta') => td_loop signs kld p pi rounds' false q' eta'
      end
  end.
Definition top_down (signs : mat -> list bool) (kld : groups -> mat -> option Qc) (p : mat) (pi : vec) (s : nat) : res (mat * list string) :=
  let k := nrows p in
  q <- td_loop signs kld p pi (k - s) true p (tab k (fun i => tab k (Nat.eqb i))) ;;
  q <- norm_q q ;;
  Ok (q, create_labels (nrows q) "ASTD").

(** ** markov_chain.py 1018-1065 aggregate *)
Inductive agg_method := Adaptive | BottomUp | TopDown.
(** lines 1049-1053 (0.3 as an exact fraction) *)
Definition agg_choice (size s : nat) (a : agg_method) : agg_method :=
  match a with
  | Adaptive => if Nat.ltb size 30 then TopDown else if Qcleb (Qcn s / Qcn size)%Qc (Q2Qc (3 # 10)) then BottomUp else TopDown
  | _ => a
  end.
Definition aggregate (signs : mat -> list bool) (kld : groups -> mat -> option Qc) (m : mcenv) (s : Z) (a : agg_method) : res chain :=
  let size := en_size m in
  guard Z.leb 2 s && Z.leb s (Z.of_nat size - 1) else ValueErr ;;
  guard negb (Nat.eqb size 2) else ValueErr ;;
  e <- is_ergodic m ;;
  guard e else ValueErr ;;
  pi <- pi0 m ;;
  let s := Z.to_nat s in
  r <- (match agg_choice size s a with
        | BottomUp => bottom_up signs kld (en_p m) pi s
        | _ => top_down signs kld (en_p m) pi s
        end) ;;
  Ok (mkchain (fst r) (snd r)).
