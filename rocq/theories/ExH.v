(** ExH: example data for the hidden Markov layer. *)
From Verif Require Export ExS M_Hmm.
(** two states, three symbols *)
Definition pH : mat := qm [[3 # 5; 2 # 5]; [3 # 10; 7 # 10]]%Q.
Definition eH : mat := qm [[1 # 2; 2 # 5; 1 # 10]; [1 # 10; 3 # 10; 3 # 5]]%Q.
Definition xU : vec := map q [1 # 2; 1 # 2]%Q.
Definition hH : hmm := mkhmm pH eH ["A"; "B"]%string ["u"; "v"; "w"]%string.
Definition obsH : list nat := [0; 1; 2]%nat.
(** a model with structural zeros: state 1 is only reached from state 0 *)
Definition pZ : mat := qm [[0; 1]; [1 # 2; 1 # 2]]%Q.
Definition eZ : mat := qm [[0; 1]; [1; 0]]%Q.
Definition hZ : hmm := mkhmm pZ eZ ["A"; "B"]%string ["u"; "v"]%string.
(** three states, two symbols *)
Definition p3 : mat := qm [[1 # 2; 1 # 4; 1 # 4]; [0; 1 # 2; 1 # 2]; [1; 0; 0]]%Q.
Definition e3 : mat := qm [[1 # 2; 1 # 2]; [1 # 3; 2 # 3]; [1; 0]]%Q.
Definition h3 : hmm := mkhmm p3 e3 ["A"; "B"; "C"]%string ["u"; "v"]%string.
(** a model on which starting weight and first emission compete *)
Definition pV : mat := qm [[3 # 5; 2 # 5]; [1 # 10; 9 # 10]]%Q.
Definition eV : mat := qm [[3 # 5; 2 # 5]; [9 # 20; 11 # 20]]%Q.
