(** ExC: example chains for P_Classic. *)
From Verif Require Export S_Gen M_Generators L_PropsR.
Definition built (r : res chain) : chain := match r with Ok c => c | Err _ => mkchain [] [] end.
Definition rRouw : res chain := approximation (fun x => x) (fun x => x) (fun n _ => eye n) 3 Rouwenhorst 1 (Q2Qc (1 # 2)) None.
Definition rEhr : res chain := urn_model Ehrenfest 1 None.
Definition rBL : res chain := urn_model BernoulliLaplace 1 None.
Definition rRuin : res chain := gamblers_ruin 4 (Q2Qc (1 # 3)) None.
Definition rFair : res chain := gamblers_ruin 4 (Q2Qc (1 # 2)) None.
Definition rMoran : res chain := population_genetics_model Moran 3 (Q2Qc (1 # 2)) 0 0 None.
Definition rWf : res chain := population_genetics_model WrightFisher 3 0 0 0 None.
Definition bdp : vec := map Q2Qc [1 # 2; 1 # 4; 0]%Q.
Definition bdq : vec := map Q2Qc [0 # 1; 1 # 8; 1 # 2]%Q.
Definition rBd : res chain := birth_death bdp bdq None.
Lemma built_ok r : is_ok r = true -> r = Ok (built r).
Proof. destruct r; [reflexivity|discriminate]. Qed.
