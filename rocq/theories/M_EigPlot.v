(** M_EigPlot: model of plot_eigenvalues (/repo/pydtmc/plotting.py 236-324).  Model only: what is drawn, not how.
    numpy.linalg.eigvals(model.p) is the argument [ev], as in M_Spectral. *)
From Verif Require Export M_Spectral M_HmmMore.
From Coq Require Import Reals.
Close Scope R_scope.
Open Scope nat_scope.
Open Scope res_scope.

(** line 272 np.unique(np.append(evalues, 1)): every number once; the order, which has no effect on markers that
    are not joined by lines, is left out *)
Definition plotted_points (ev : list cx) : list cx := nodup cx_dec (ev ++ [oneC]).
(** lines 277-299: the inner radius of the ring "Spectral Gap", or none *)
Definition gap_ring (m : mcenv) (ev : list cx) : res (option R) :=
  b <- is_ergodic m ;;
  if b then
    let values := rsort (map cmod ev) in
    if forallb (fun x => iscloseR x 1) values then Ok None
    else
      match filter (fun x => negb (iscloseR x 1)) values with
      | [] => Err IndexErr
      | x :: r => let mu := last r x in Ok (if iscloseR mu 0 then None else Some mu)
      end
  else Ok None.
Definition plot_eigenvalues_mc (m : mcenv) (ev : list cx) : res (list cx * option R) :=
  r <- gap_ring m ev ;; Ok (plotted_points ev, r).
(** lines 263-266: a hidden Markov model is first made a chain; its matrix and state names are validated *)
Definition plot_eigenvalues_hmm (h : hmm) (nx : nxorder) (ev : list cx) : res (list cx * option R) :=
  p <- v_transition_matrix (float_array (h_p h)) None ;;
  st <- v_labels_input (PList (map PStr (h_states h))) (Some (nrows p)) ;;
  plot_eigenvalues_mc (mkenv p st nx true) ev.
