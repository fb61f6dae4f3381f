(** P_Message: messages of validation errors (theorems only). *)
From Coq Require Import List String Ascii.
From Verif Require Import M_Message S_Message L_Message.
Import ListNotations.
Local Open Scope string_scope.

(** ** C181 a validation error names the rejected parameter *)
Theorem C181_statements_partial : forall parameter statement indentation ending pieces, In (parameter, statement) statements ->
  Forall (free "@") pieces ->
  create_validation_error (filled "@arg@" pieces) (Some [spaces indentation ++ statement ++ ending]) =
    RValidation (filled parameter pieces).
Proof. exact statement_message. Qed.
Print Assumptions C181_statements_partial.
Theorem C181_assignments_partial : forall parameter indentation rest pieces, name_chars parameter -> parameter <> "" ->
  Forall (free "@") pieces ->
  create_validation_error (filled "@arg@" pieces) (Some [spaces indentation ++ parameter ++ " = " ++ rest]) =
    RValidation (filled parameter pieces).
Proof. exact assigned_message. Qed.
Print Assumptions C181_assignments_partial.
Theorem C181_labels_refuted :
  create_validation_error (filled "@arg@" odd_pieces) (Some [odd_line]) =
    RValidation (filled "state" ["The """; """ parameter, when specified as a string, must match one of the following strings: state, b."]) /\
  create_validation_error (filled "@arg@" odd_pieces) (Some [odd_line]) <> RValidation (filled "state" odd_pieces).
Proof. exact label_swallowed. Qed.
Print Assumptions C181_labels_refuted.
Theorem C181_without_source_refuted : forall message, create_validation_error message None = RType.
Proof. exact (fun _ => eq_refl). Qed.
Print Assumptions C181_without_source_refuted.
Example C181_example :
  In ("other", "other = _validate_markov_chain(other, self.__size)") statements /\
  create_validation_error "The ""@arg@"" parameter is null or wrongly typed."
    (Some [spaces 12 ++ "other = _validate_markov_chain(other, self.__size)" ++ newline]) =
    RValidation "The ""other"" parameter is null or wrongly typed." /\
  create_validation_error "The ""@arg@"" parameter must be a non-empty string."
    (Some [spaces 12 ++ "file_path, file_extension = _validate_file_path(file_path, ['.csv', '.json', '.xml', '.txt'], True)" ++ newline]) =
    RValidation "The ""file_path"" parameter must be a non-empty string." /\
  name_chars "sequence1".
Proof.
  split; [|split; [vm_compute; reflexivity|split; [vm_compute; reflexivity|]]].
  - assert (H : existsb (fun st => String.eqb (fst st) "other" && String.eqb (snd st) "other = _validate_markov_chain(other, self.__size)")%bool statements = true) by (vm_compute; reflexivity).
    apply existsb_exists in H. destruct H as ([a b] & I & E). cbn [fst snd] in E. apply Bool.andb_true_iff in E.
    destruct E as [A B]. apply String.eqb_eq in A, B. subst. exact I.
  - apply name_charsb_ok. vm_compute. reflexivity.
Qed.
