(** P_Path: spellings of file paths (theorems only). *)
From Verif Require Import M_Disk L_Path.
Open Scope nat_scope.

(** ** C142 the format is taken from the extension (continued) *)
Theorem C142_spelling_partial : forall a b, path_of (a ++ slash :: slash :: b) = path_of (a ++ slash :: b) /\ path_of (a ++ slash :: dot :: slash :: b) = path_of (a ++ slash :: b).
Proof. exact path_spelling. Qed.
Print Assumptions C142_spelling_partial.
Theorem C142_last_component_partial : forall a b, (forall c, In c b -> c <> slash) -> b <> [] -> b <> [dot] ->
  p_name (path_of (a ++ slash :: b)) = b /\ p_dir (path_of (a ++ slash :: b)) = path_of (a ++ [slash]).
Proof. exact path_component. Qed.
Print Assumptions C142_last_component_partial.
Example C142_spelling_example : path_of (chars "/data/./model.csv") = path_of (chars "/data/model.csv") /\ p_name (path_of (chars "/data//model.csv")) = chars "model.csv".
Proof. split; reflexivity. Qed.
