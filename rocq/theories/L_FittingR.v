(** L_FittingR: counterexamples for fitting. *)
From Verif Require Import S_Fitting M_Fitting L_Fitting ExH L_MeasuresR.
Close Scope Q_scope.
Open Scope nat_scope.
Open Scope res_scope.

Definition states3 : list string := ["A"; "B"; "C"]%string.
Definition names2 : list string := ["A"; "B"]%string.
(** f(x_index, x, y_index, y) = y - 1/4 *)
Definition f_neg (i : nat) (x : Qc) (j : nat) (y : Qc) : option Qc := Some (y - Q2Qc (1 # 4))%Qc.
Lemma fit_function_negative : exists t states f o c, fit_function t states f o = Ok c /\ t <> QNewton /\ (exists i j, i < length states /\ j < length states /\ (mget (ch_p c) i j < 0)%Qc).
Proof.
  exists QTrapezoid, names2, f_neg, None, (ok_or cA (fit_function QTrapezoid names2 f_neg None)).
  split; [vm_compute; reflexivity|]. split; [discriminate|]. exists 0, 0. split; [cbn; lia|]. split; [cbn; lia|]. apply Qcltb_lt. vm_compute. reflexivity.
Qed.
(** f = 1 for y < 1, 2 otherwise *)
Definition f_step (i : nat) (x : Qc) (j : nat) (y : Qc) : option Qc := Some (if Qcltb y 1q then 1q else Q2Qc 2).
Lemma newton_outside : exists states f a b c i, fit_function QNewton states f (Some (a, b)) = Ok c /\ i < length states /\ (q_nodes QNewton a b (length states) i < a)%Qc.
Proof.
  exists names2, f_step, 1q, (Q2Qc 2), (ok_or cA (fit_function QNewton names2 f_step (Some (1q, Q2Qc 2)))), 0.
  split; [vm_compute; reflexivity|]. split; [cbn; lia|]. apply Qcltb_lt. vm_compute. reflexivity.
Qed.
(** the rule reads the function outside the interval: functions that agree on the
    interval give different chains *)
Definition f_one (i : nat) (x : Qc) (j : nat) (y : Qc) : option Qc := Some (if Qcltb y 1q then Qcn (j + 1) else 1q).
Definition f_two (i : nat) (x : Qc) (j : nat) (y : Qc) : option Qc := Some 1q.
Lemma newton_reads_outside : exists states f g a b c d, (forall i x j y, (a <= x /\ x <= b /\ a <= y /\ y <= b)%Qc -> f i x j y = g i x j y) /\
  fit_function QNewton states f (Some (a, b)) = Ok c /\ fit_function QNewton states g (Some (a, b)) = Ok d /\ mget (ch_p c) 0 0 <> mget (ch_p d) 0 0.
Proof.
  exists names2, f_one, f_two, 1q, (Q2Qc 2), (ok_or cA (fit_function QNewton names2 f_one (Some (1q, Q2Qc 2)))), (ok_or cA (fit_function QNewton names2 f_two (Some (1q, Q2Qc 2)))).
  split.
  - intros i x j y (_ & _ & Hy & _). unfold f_one, f_two. destruct (Qcltb y 1q) eqn:E; [|reflexivity]. apply Qcltb_lt in E. exfalso. exact (Qcle_not_lt _ _ Hy E).
  - split; [vm_compute; reflexivity|]. split; [vm_compute; reflexivity|]. apply Qceqb_neq. vm_compute. reflexivity.
Qed.

(** smoothing is not add-one, and is not the default *)
Lemma smoothing_not_add_one : exists states s c i j, fit_sequence (SeqMle (Some true)) states s = Ok c /\ i < length states /\ j < length states /\
  mget (ch_p c) i j <> smoothed 1q (length states) s i j.
Proof.
  exists names2, [0; 1], (ok_or cA (fit_sequence (SeqMle (Some true)) names2 [0; 1])), 0, 0.
  split; [vm_compute; reflexivity|]. split; [cbn; lia|]. split; [cbn; lia|]. apply Qceqb_neq. vm_compute. reflexivity.
Qed.
Lemma smoothing_not_default : exists states s c d, fit_sequence (SeqMle None) states s = Ok c /\ fit_sequence (SeqMle (Some true)) states s = Ok d /\ mget (ch_p c) 0 0 <> mget (ch_p d) 0 0.
Proof.
  exists names2, [0; 1], (ok_or cA (fit_sequence (SeqMle None) names2 [0; 1])), (ok_or cA (fit_sequence (SeqMle (Some true)) names2 [0; 1])).
  split; [vm_compute; reflexivity|]. split; [vm_compute; reflexivity|]. apply Qceqb_neq. vm_compute. reflexivity.
Qed.
