(** ExS: example data for the simulation layer. *)
From Verif Require Export ExM.
Definition cU : chain := mkchain (qm [[0; 3 # 5; 2 # 5]; [2 # 5; 3 # 10; 3 # 10]; [0; 0; 1]]%Q) ["a"; "b"; "c"]%string.
Definition cW : chain := mkchain (qm [[1 # 4; 3 # 4; 0]; [0; 1 # 4; 3 # 4]; [3 # 4; 1 # 4; 0]]%Q) ["a"; "b"; "c"]%string.
(** draws 1/3, 0, 9/10, 1/2, 0, ... *)
Definition drawsA (t : nat) : Qc := nth t (map q [1 # 3; 0; 9 # 10; 1 # 2]%Q) 0q.
