(** P_TFun: how fit_function calls the transition function (theorems only). *)
From Coq Require Import Permutation.
From Verif Require Import M_TFun L_FittingR L_TFun.
Open Scope nat_scope.
Open Scope res_scope.

(** ** C170 the parameters of the transition function *)
Theorem C170_accepted_partial : forall f, function_ok f -> forall g, validate_transition_function f = Ok g -> g = f /\ Permutation (pf_pars f) [XIndex; XValue; YIndex; YValue].
Proof. exact accepted_names. Qed.
Print Assumptions C170_accepted_partial.
Theorem C170_in_order_partial : forall t states f o c, function_ok f -> pf_pars f = [XIndex; XValue; YIndex; YValue] -> fit_pyfun t states f o = Ok c ->
  exists g, (forall i x j y, g i x j y = by_name f i x j y) /\ fit_function t states g o = Ok c.
Proof. exact fit_in_order. Qed.
Print Assumptions C170_in_order_partial.
Theorem C170_order_refuted : exists f states c d, function_ok f /\ fit_pyfun QNewton states f None = Ok c /\ fit_function QNewton states (by_name f) None = Ok d /\ mget (ch_p c) 0 0 <> mget (ch_p d) 0 0.
Proof. exact order_ignored. Qed.
Print Assumptions C170_order_refuted.
Example C170_example : function_ok swapped /\ is_ok (validate_transition_function swapped) = true /\ is_ok (fit_pyfun QNewton names2 (mkpyfun [XIndex; XValue; YIndex; YValue] (pf_body swapped)) None) = true.
Proof. split; [exact swapped_ok|]. split; vm_compute; reflexivity. Qed.
