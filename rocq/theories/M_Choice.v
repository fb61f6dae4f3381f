(** M_Choice: simulation with the argument check of numpy's choice.  Model only.
    M_Simulation leaves this check out. *)
From Verif Require Export M_Simulation M_Hmm.
Open Scope nat_scope.
Open Scope res_scope.

(** numpy/random/mtrand.pyx, RandomState.choice(n, size=1, p=w): atol = sqrt(eps) = 2^-26 and
    "if abs(kahan_sum(p) - 1.) > atol: raise ValueError('probabilities do not sum to 1')";
    then as [choice].  The entries of a row are not negative, the other check. *)
Definition sqrt_eps : Qc := Q2Qc (1 # 67108864).
Definition choice_checked (n : nat) (w : vec) (u : Qc) : res nat :=
  guard Qcleb (Qcabs (sumn n (vget w) - 1)) sqrt_eps else ValueErr ;;
  Ok (choice n w u).
(** simulations.py 214-233 mc_simulate *)
Fixpoint sim_loop_checked (p : mat) (final : option nat) (u : nat -> Qc) (k t cur : nat) : res (list nat) :=
  match k with
  | O => Ok []
  | S k' =>
      guard Nat.ltb cur (nrows p) else IndexErr ;;
      s <- choice_checked (nrows p) (row p cur) (u t) ;;
      if match final with Some f => Nat.eqb s f | None => false end then Ok [s]
      else rest <- sim_loop_checked p final u k' (S t) s ;; Ok (s :: rest)
  end.
(** markov_chain.py 1809-1838 simulate *)
Definition simulate_checked (p : mat) (steps : nat) (init : option nat) (final : option nat) (r : nat) (u : nat -> Qc) : res (list nat) :=
  guard Nat.leb 2 steps else ValueErr ;;
  let i := match init with Some i => i | None => Nat.modulo r (nrows p) end in
  guard Nat.ltb i (nrows p) else ValueErr ;;
  guard match final with Some f => Nat.ltb f (nrows p) | None => true end else ValueErr ;;
  rest <- sim_loop_checked p final u steps 0 i ;; Ok (i :: rest).
(** simulations.py 106-152 hmm_simulate: only the first symbol is drawn by choice *)
Definition hmm_simulate_checked (h : hmm) (steps init : nat) (fs fy : option nat) (c0 : Qc) (pr er : nat -> Qc) : res (list nat * list nat) :=
  _ <- choice_checked (ncols (h_e h)) (row (h_e h) init) c0 ;;
  Ok (hmm_simulate h steps init fs fy c0 pr er).
