(** M_Files: to_file and from_file.  Model only. *)
From Verif Require Export M_Xml.
Open Scope nat_scope.
Open Scope res_scope.

(** the format, inferred from the extension of the path *)
Inductive format := Csv | Json | Txt | Xml.

Section Files.
Variable show : num -> text.
Variable float : text -> option num.
Variable limit : nat.
Variable nul_ok : bool.

(** /repo/pydtmc/markov_chain.py 1960-1988 MarkovChain.to_file: the contents of the file *)
Definition to_file (f : format) (c : chain) : res text :=
  let d := to_dictionary c in
  match f with
  | Csv => write_csv_mc show d
  | Json => Ok (write_json show params_mc d)
  | Txt => Ok (write_txt show d)
  | Xml => Ok (write_xml show root_mc params_mc d)
  end.
(** /repo/pydtmc/markov_chain.py 2388-2461 MarkovChain.from_file, given the contents of
    an accessible file; validation.py 334-335 refuses an empty file *)
Definition read_file (f : format) (t : text) : res dict :=
  match f with
  | Csv => read_csv_mc float limit nul_ok t
  | Json => read_json float params_mc t
  | Txt => read_txt float params_mc t
  | Xml => read_xml float root_mc params_mc t
  end.
Definition from_file (f : format) (t : text) : res robj :=
  guard nonempty t else ValueErr ;;
  d <- read_file f t ;;
  chain_of_dict d.

(** /repo/pydtmc/hidden_markov_model.py 502-530 HiddenMarkovModel.to_file *)
Definition hmm_to_file (f : format) (o : hobj) : res text :=
  let d := hmm_to_dictionary o in
  match f with
  | Csv => write_csv_hmm show d
  | Json => Ok (write_json show params_hmm d)
  | Txt => Ok (write_txt show d)
  | Xml => Ok (write_xml show root_hmm params_hmm d)
  end.
(** /repo/pydtmc/hidden_markov_model.py 710-800 HiddenMarkovModel.from_file *)
Definition hmm_read_file (f : format) (t : text) : res dict :=
  match f with
  | Csv => read_csv_hmm float limit nul_ok t
  | Json => read_json float params_hmm t
  | Txt => read_txt float params_hmm t
  | Xml => read_xml float root_hmm params_hmm t
  end.
Definition hmm_from_file (f : format) (t : text) : res rhobj :=
  guard nonempty t else ValueErr ;;
  d <- hmm_read_file f t ;;
  hmm_of_dict d.
End Files.
