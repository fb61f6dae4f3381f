(** Ex: concrete chains used in the non-vacuity examples. *)
From Verif Require Import M_Chain.

Definition q (x : Q) : Qc := Q2Qc x.
Definition cA : chain := mkchain (qm [[1 # 2; 1 # 2; 0]; [0; 0; 1]; [1; 0; 0]]%Q) ["a"; "b"; "c"]%string.
Definition cB : chain := mkchain (qm [[0; 1; 0]; [1 # 3; 1 # 3; 1 # 3]; [0; 0; 1]]%Q) ["x"; "y"; "z"]%string.
Definition cC : chain := mkchain (qm [[1 # 2; 1 # 2; 0; 0]; [0; 0; 0; 1]; [1; 0; 0; 0]; [0; 1; 0; 0]]%Q) ["a"; "b"; "c"; "d"]%string.
Definition cL : chain := mkchain (qm [[1 # 2; 1 # 4; 1 # 4]; [1 # 3; 1 # 3; 1 # 3]; [1 # 3; 2 # 3; 0]]%Q) ["a"; "b"; "c"]%string.
Definition cR : chain := mkchain (qm [[0; 0; 1]; [1 # 2; 1 # 2; 0]; [1; 0; 0]]%Q) ["a"; "b"; "c"]%string.
Definition cP : chain := mkchain (qm [[0; 1 # 2; 0; 1 # 2]; [1 # 3; 0; 2 # 3; 0]; [0; 1; 0; 0]; [1 # 2; 0; 1 # 2; 0]]%Q) ["s1"; "s2"; "s3"; "s4"]%string.
Definition cL4 : chain := mkchain (qm [[1 # 2; 1 # 4; 1 # 4; 0]; [1 # 4; 1 # 2; 0; 1 # 4]; [1 # 3; 1 # 3; 1 # 9; 2 # 9]; [1 # 6; 1 # 2; 2 # 9; 1 # 9]]%Q) ["a"; "b"; "c"; "d"]%string.
