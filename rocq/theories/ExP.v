(** ExP: concrete chains used in the examples about reversibility, symmetry and entropy. *)
From Verif Require Export ExL.

(** a rotation with a drift of 1e-6: not reversible *)
Definition cTilt : chain := mkchain (qm [[1 # 2; 250001 # 1000000; 249999 # 1000000]; [249999 # 1000000; 1 # 2; 250001 # 1000000]; [250001 # 1000000; 249999 # 1000000; 1 # 2]]%Q) ["a"; "b"; "c"]%string.
(** nearly symmetric *)
Definition cSym3 : chain := mkchain (qm [[0; 1 # 2; 1 # 2]; [500005008 # 1000000000; 499994992 # 1000000000; 0]; [500005008 # 1000000000; 0; 499994992 # 1000000000]]%Q) ["a"; "b"; "c"]%string.
(** columns that sum to one up to 1e-6 *)
Definition cCol : chain := mkchain (qm [[1 # 2; 1 # 2]; [500001 # 1000000; 499999 # 1000000]]%Q) ["a"; "b"]%string.
(** two states that are left with probability 1e-12 *)
Definition cQuiet : chain := mkchain (qm [[999999999999 # 1000000000000; 1 # 1000000000000]; [1 # 1000000000000; 999999999999 # 1000000000000]]%Q) ["a"; "b"]%string.
(** a birth and death chain, and a symmetric chain *)
Definition cBd : chain := mkchain (qm [[1 # 2; 1 # 2; 0]; [1 # 4; 1 # 4; 1 # 2]; [0; 1 # 3; 2 # 3]]%Q) ["a"; "b"; "c"]%string.
Definition cSymm : chain := mkchain (qm [[1 # 2; 1 # 3; 1 # 6]; [1 # 3; 1 # 3; 1 # 3]; [1 # 6; 1 # 3; 1 # 2]]%Q) ["a"; "b"; "c"]%string.
(** two absorbing states *)
Definition cTwo : chain := mkchain (qm [[1; 0]; [0; 1]]%Q) ["a"; "b"]%string.
