(** ExL: concrete chains used in the examples about limits. *)
From Verif Require Export ExM.

(** slowly mixing chain *)
Definition cSlow : chain := mkchain (qm [[999 # 1000; 1 # 1000]; [1 # 1000; 999 # 1000]]%Q) ["a"; "b"]%string.
(** a transient state that is left with probability 1e-6 *)
Definition cV1 : chain := mkchain (qm [[999999 # 1000000; 1 # 1000000]; [0; 1]]%Q) ["a"; "b"]%string.
(** an absorbing state that is entered with probability 1e-9 *)
Definition cV2 : chain := mkchain (qm [[0; 1 # 1000000000; 999999999 # 1000000000]; [0; 1; 0]; [0; 0; 1]]%Q) ["a"; "b"; "c"]%string.
(** a transient state between two absorbing states, which it leaves with equal probabilities *)
Definition cV3 : chain := mkchain (qm [[1; 0; 0]; [1 # 4; 1 # 2; 1 # 4]; [0; 0; 1]]%Q) ["a"; "b"; "c"]%string.
Definition showo (o : option Qc) : option Q := match o with Some q => Some (this q) | None => None end.
(** two states that alternate *)
Definition cSwap : chain := mkchain (qm [[0; 1]; [1; 0]]%Q) ["a"; "b"]%string.
