(** M_Stationary: model of the computation of stationary distributions.  Model only. *)
From Verif Require Export M_Period.
Open Scope res_scope.

(** /repo/pydtmc/computations.py 271-296 gth_solve.  [gth_elim] is the loop of lines
    276-285 (one turn per recursive call, [fuel] turns left, [a] the work array);
    it returns the final array and the final value of n (lowered by the early break
    of lines 280-282). *)
Definition gth_scale (n : nat) (a : mat) (i : nat) : Qc :=
  sumn (n - S i) (fun t => mget a i (S i + t)).
Definition gth_update (n : nat) (a : mat) (i : nat) (scale : Qc) : mat :=
  mk n n (fun r c =>
    if Nat.ltb i r then
      if Nat.eqb c i then (mget a r i / scale)%Qc
      else if Nat.ltb i c then (mget a r c + mget a r i / scale * mget a i c)%Qc
      else mget a r c
    else mget a r c).
Fixpoint gth_elim (fuel n i : nat) (a : mat) : mat * nat :=
  match fuel with
  | O => (a, n)
  | S fuel' =>
      let scale := gth_scale n a i in
      if Qcleb scale 0 then (a, i + 1)
      else gth_elim fuel' n (S i) (gth_update n a i scale)
  end.
(** Lines 287-291: back substitution; [acc] holds x[n - length acc .. n-1]. *)
Fixpoint gth_back (fuel n : nat) (a : mat) (acc : vec) : vec :=
  match fuel with
  | O => acc
  | S fuel' =>
      let i := n - 1 - length acc in
      gth_back fuel' n a (sumn (length acc) (fun t => vget acc t * mget a (S i + t)%nat i)%Qc :: acc)
  end.
Definition gth_solve (p : mat) : vec :=
  let '(a, n) := gth_elim (nrows p - 1) (nrows p) 0 p in
  let x := gth_back (n - 1) n a [1q] in
  map (fun v => v / lsum x)%Qc x.

(** /repo/pydtmc/markov_chain.py 868-887 pi.  numpy.reshape and the assignment to
    s[index, indices] fail (ValueError) when gth_solve returned a shorter vector. *)
Definition stationary_distributions (p : mat) (comps : list (list nat)) : res (list vec) :=
  let n := nrows p in
  if is_irreducible comps then
    let s := gth_solve p in
    guard Nat.eqb (length s) n else ValueErr ;; Ok [s]
  else
    mapM (fun indices =>
      let s := gth_solve (mix p indices indices) in
      guard Nat.eqb (length s) (length indices) else ValueErr ;;
      Ok (tab n (fun j => match index_of Nat.eqb j indices with Some k => vget s k | None => 0q end)))
      (recurrent_classes_indices p comps).
