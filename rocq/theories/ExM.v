(** ExM: concrete chain objects used in the examples about measures. *)
From Verif Require Export S_Measures Ex.

Definition env (c : chain) : mcenv := mkenv (ch_p c) (ch_states c) (nx_default (ch_p c)) true.
(** absorbing chain with two absorbing states *)
Definition cD : chain := mkchain (qm [[1; 0; 0; 0]; [1 # 2; 0; 1 # 2; 0]; [0; 1 # 2; 0; 1 # 2]; [0; 0; 0; 1]]%Q) ["a"; "b"; "c"; "d"]%string.
(** two recurrent classes and a transient state *)
Definition cE : chain := mkchain (qm [[1 # 2; 1 # 2; 0; 0]; [1 # 4; 3 # 4; 0; 0]; [1 # 4; 0; 1 # 2; 1 # 4]; [0; 0; 0; 1]]%Q) ["a"; "b"; "c"; "d"]%string.
(** real eigenvalues 1, 1, 0 *)
Definition pS : mat := qm [[1 # 2; 1 # 2; 0]; [1 # 2; 1 # 2; 0]; [0; 0; 1]]%Q.
Definition dS : rdl := mkrdl (qm [[1; 0; 1]; [1; 0; -1]; [0; 1; 0]]%Q) (qm [[1; 0; 0]; [0; 1; 0]; [0; 0; 0]]%Q) (qm [[1 # 2; 1 # 2; 0]; [0; 0; 1]; [1 # 2; -1 # 2; 0]]%Q).
Definition cS : chain := mkchain (qm [[3 # 4; 1 # 4]; [1 # 4; 3 # 4]]%Q) ["a"; "b"]%string.
Definition dT : rdl := mkrdl (qm [[1; 1]; [1; -1]]%Q) (qm [[1; 0]; [0; 1 # 2]]%Q) (qm [[1 # 2; 1 # 2]; [1 # 2; -1 # 2]]%Q).
(** cycle of four states; its eigenvalues are 1, i, -1, -i *)
Definition cF : chain := mkchain (qm [[0; 1; 0; 0]; [0; 0; 1; 0]; [0; 0; 0; 1]; [1; 0; 0; 0]]%Q) ["a"; "b"; "c"; "d"]%string.
Definition rF_re : mat := qm [[1; 1 # 2; 1 # 2; 1 # 2]; [1; 0; -1 # 2; 0]; [1; -1 # 2; 1 # 2; -1 # 2]; [1; 0; -1 # 2; 0]]%Q.
Definition rF_im : mat := qm [[0; 0; 0; 0]; [0; 1 # 2; 0; -1 # 2]; [0; 0; 0; 0]; [0; -1 # 2; 0; 1 # 2]]%Q.
Definition dF_re : mat := qm [[1; 0; 0; 0]; [0; 0; 0; 0]; [0; 0; -1; 0]; [0; 0; 0; 0]]%Q.
Definition dF_im : mat := qm [[0; 0; 0; 0]; [0; 1; 0; 0]; [0; 0; 0; 0]; [0; 0; 0; -1]]%Q.
Definition lF_re : mat := qm [[1 # 4; 1 # 4; 1 # 4; 1 # 4]; [1 # 2; 0; -1 # 2; 0]; [1 # 2; -1 # 2; 1 # 2; -1 # 2]; [1 # 2; 0; -1 # 2; 0]]%Q.
Definition lF_im : mat := qm [[0; 0; 0; 0]; [0; -1 # 2; 0; 1 # 2]; [0; 0; 0; 0]; [0; 1 # 2; 0; -1 # 2]]%Q.
Definition c3 : chain := mkchain (qm [[0; 1; 0]; [0; 0; 1]; [1; 0; 0]]%Q) ["a"; "b"; "c"]%string.
(** nearly absorbing state *)
Definition cG : chain := mkchain (qm [[199999 # 200000; 1 # 200000]; [0; 1]]%Q) ["a"; "b"]%string.
(** small transition probabilities *)
Definition cH : chain := mkchain (qm [[1 # 2; 1 # 2; 0]; [999999999 # 1000000000; 0; 1 # 1000000000]; [1; 0; 0]]%Q) ["a"; "b"; "c"]%string.
Definition cI : chain := mkchain (qm [[999999999 # 1000000000; 1 # 1000000000]; [1 # 2; 1 # 2]]%Q) ["a"; "b"]%string.
