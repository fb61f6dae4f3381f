(** M_KL: model of kullback_leibler_divergence (/repo/pydtmc/computations.py 298-312), the divergence that
    ranks the candidates of aggregate (the argument kld of M_Aggregate).  Model only.

    The matrices are exact rationals, the logarithm is the real one; the matrix phi is kept as in M_Aggregate. *)
From Verif Require Export M_Simulation M_Aggregate.
From Coq Require Import Reals.
Close Scope R_scope. Open Scope nat_scope.

(** The largest double, 2^1024 - 2^971: numpy.nan_to_num puts it in place of infinity. *)
Definition biggest : R := IZR (2 ^ 1024 - 2 ^ 971).
(** np.nan_to_num(np.log2(a / b)) of lines 303 and 307: 0/0 and the logarithm of a negative number are nan, which
    becomes 0; a/0 is an infinity, its logarithm and that of 0 become the largest and the smallest double. *)
Definition num_log2 (a b : Qc) : R :=
  if Qceqb b 0 then (if Qcltb 0 a then biggest else 0%R)
  else if Qceqb a 0 then (- biggest)%R
  else if Qcltb (a / b)%Qc 0 then 0%R
  else (ln (Qc2R (a / b)%Qc) / ln 2)%R.
(** line 302: super_q = phi q phi^T *)
Definition super_q (phi : groups) (q : mat) (i j : nat) : Qc :=
  sumn (length phi) (fun b => sumn (length phi) (fun a => M_Aggregate.ind (nth i (nth a phi []) false) * mget q a b) * M_Aggregate.ind (nth j (nth b phi []) false))%Qc.
(** line 306: super_pi = pi phi phi^T *)
Definition super_pi (n : nat) (pi : vec) (phi : groups) (j : nat) : Qc :=
  sumn (length phi) (fun a => sumn n (fun i => vget pi i * M_Aggregate.ind (nth i (nth a phi []) false)) * M_Aggregate.ind (nth j (nth a phi []) false))%Qc.
(** np.sum of n numbers *)
Definition totR (n : nat) (f : nat -> R) : R := fold_right Rplus 0%R (map f (seq 0 n)).
(** lines 298-312 *)
Definition kl_divergence (p : mat) (pi : vec) (phi : groups) (q : mat) : R :=
  let n := nrows p in
  let theta i := totR n (fun j => Qc2R (mget p i j) * num_log2 (mget p i j) (super_q phi q i j))%R in
  let t := totR n (fun i => Qc2R (vget pi i) * theta i)%R in
  let u := totR n (fun i => Qc2R (vget pi i) * num_log2 (vget pi i) (super_pi n pi phi i))%R in
  (t - u)%R.
