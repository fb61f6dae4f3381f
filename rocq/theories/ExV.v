(** ExV: argument values used in the examples and counterexamples about validation. *)
From Verif Require Export M_Validation.
Close Scope Q_scope.
Open Scope nat_scope.
Open Scope res_scope.

Definition half : Qc := Q2Qc (1 # 2).
Definition fl (q : Qc) : pyval := PFloat (Fin q).

(** [[0.5, 0.5], [0, 1]] and the names ['a', 'b'] *)
Definition pyOk : pyval := PList [PList [fl half; fl half]; PList [PInt 0; PInt 1]].
Definition pyNames : pyval := PList [PStr "a"; PStr "b"].
(** [[0.5+3j, 0.5], [0, 1]] *)
Definition pyCx : pyval := PList [PList [PComplex (Fin half, Fin (Q2Qc 3)); fl half]; PList [PInt 0; PInt 1]].
(** array([[7, nan], [-inf, 0]]) *)
Definition pyBad : pyval := PArr (mkarr [2; 2] KFloat (fun idx => match idx with
  | [0; 0] => (Fin (Q2Qc 7), Fin 0) | [0; 1] => (NaN, Fin 0) | [1; 0] => (NInf, Fin 0) | _ => (Fin 0, Fin 0) end)).
(** [[0.5, 0.4], [0, 1]], [[0.5, nan], [0, 1]] *)
Definition pyLow : pyval := PList [PList [fl half; fl (Q2Qc (2 # 5))]; PList [PInt 0; PInt 1]].
Definition pyNan : pyval := PList [PList [fl half; PFloat NaN]; PList [PInt 0; PInt 1]].

Definition abcd : list string := ["a"; "b"; "c"; "d"]%string.
