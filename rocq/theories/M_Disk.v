(** M_Disk: paths, their extensions, and what to_file and from_file do to the disk.
    Model only. *)
From Verif Require Export M_Files.
Open Scope nat_scope.
Open Scope res_scope.

(** ** Paths
    pathlib.PurePosixPath: whether it is absolute, and its components.  Symbolic links
    and the aliasing of paths through ".." or the working directory are not modelled:
    two different paths are two different files. *)
Record path := mkpath { p_abs : bool; p_parts : list text }.
Definition slash : ascii := "/".
Definition dot : ascii := ".".
(** the fields between the separators (str.split) *)
Fixpoint split (sep : ascii) (acc : text) (t : text) : list text :=
  match t with
  | [] => [rev acc]
  | c :: r => if Ascii.eqb c sep then rev acc :: split sep [] r else split sep (c :: acc) r
  end.
(** pathlib.Path(value): empty components and "." are dropped *)
Definition path_of (t : text) : path :=
  mkpath (match t with c :: _ => Ascii.eqb c slash | [] => false end)
         (filter (fun w => negb (text_eqb w [] || text_eqb w [dot])) (split slash [] t)).
(** Path.name: the last component *)
Definition p_name (p : path) : text := last (p_parts p) [].
(** os.path.dirname *)
Definition p_dir (p : path) : path := mkpath (p_abs p) (removelast (p_parts p)).

(** str.lstrip('.') *)
Fixpoint lstrip_dots (t : text) : text := match t with c :: r => if Ascii.eqb c dot then lstrip_dots r else t | [] => [] end.
(** pathlib PurePath.suffixes (CPython 3.6 to 3.13): none when the name ends with a dot;
    otherwise what follows each dot that is not a leading one, with its dot *)
Definition suffixes (name : text) : list text :=
  if match rev name with c :: _ => Ascii.eqb c dot | [] => false end then []
  else map (cons dot) (tl (split dot [] (lstrip_dots name))).
(** str.lower on the letters A..Z; other characters cannot become letters of the four
    extensions *)
Definition lower_char (c : ascii) : ascii :=
  if Nat.leb 65 (code c) && Nat.leb (code c) 90 then ascii_of_nat (code c + 32) else c.
Definition lower (t : text) : text := map lower_char t.
(** /repo/pydtmc/utilities.py 234-241 get_file_extension *)
Definition file_extension (name : text) : text := lower (concat (suffixes name)).

(** /repo/pydtmc/markov_chain.py 1974-1988 and 2431-2442 (and the same lines of
    hidden_markov_model.py): the accepted extensions and the format of each *)
Definition formats : list (text * format) :=
  [(chars ".csv", Csv); (chars ".json", Json); (chars ".xml", Xml); (chars ".txt", Txt)].
Definition format_of (name : text) : res format :=
  match find (fun e => text_eqb (fst e) (file_extension name)) formats with
  | Some e => Ok (snd e)
  | None => Err ValueErr
  end.

(** ** The disk
    The regular files with their contents, and what the operating system says about
    directories and permissions. *)
Definition path_eqb (p q : path) : bool :=
  Bool.eqb (p_abs p) (p_abs q) && (if list_eq_dec (list_eq_dec ascii_dec) (p_parts p) (p_parts q) then true else false).
Definition files := list (path * text).
Fixpoint contents (fs : files) (p : path) : option text :=
  match fs with [] => None | (q, t) :: r => if path_eqb q p then Some t else contents r p end.
Fixpoint store (fs : files) (p : path) (t : text) : files :=
  match fs with
  | [] => [(p, t)]
  | (q, u) :: r => if path_eqb q p then (q, t) :: r else (q, u) :: store r p t
  end.
Record system := mksystem {
  is_dir : path -> bool;       (* os.path.isdir *)
  can_write : path -> bool;    (* open(p, 'w') succeeds *)
  can_read : path -> bool;     (* open(p, 'r') succeeds on an existing file *)
  can_encode : ascii -> bool   (* the character exists in the locale's encoding, which open() uses *)
}.
(** what a call does to the disk, in order *)
Inductive effect :=
| Truncate (p : path)            (* open(p, mode='w') *)
| Append (p : path) (t : text).  (* the characters written before the file is closed *)
Definition apply (e : effect) (fs : files) : files :=
  match e with
  | Truncate p => store fs p []
  | Append p t => store fs p (match contents fs p with Some u => u | None => [] end ++ t)
  end.
Definition perform (es : list effect) (fs : files) : files := fold_left (fun fs e => apply e fs) es fs.
(** What a crash leaves: the effects before it have happened, and of the characters being
    written some first ones. *)
Inductive crash : files -> list effect -> files -> Prop :=
| crash_now fs es : crash fs es fs
| crash_torn fs p t k es : crash fs (Append p t :: es) (apply (Append p (firstn k t)) fs)
| crash_later fs e es fs' : crash (apply e fs) es fs' -> crash fs (e :: es) fs'.

Section Disk.
Variable show : num -> text.
Variable float : text -> option num.
Variable limit : nat.
Variable nul_ok : bool.
Variable sys : system.

(** /repo/pydtmc/validation.py 279-330 validate_file_path with write_permission: the
    extension, the parent directory of an absolute path, then open(file_path, 'w') *)
Definition check_write (p : path) : list effect * res format :=
  match format_of (p_name p) with
  | Err e => ([], Err e)
  | Ok f =>
      if negb (is_dir sys (p_dir p)) && p_abs p then ([], Err ValueErr)
      else if can_write sys p then ([Truncate p], Ok f)
      else ([], Err ValueErr)
  end.
(** /repo/pydtmc/validation.py 309-330 without write_permission (the test for an empty
    file is in from_file) *)
Definition check_read (fs : files) (p : path) : res (format * text) :=
  f <- format_of (p_name p) ;;
  match contents fs p with
  | None => Err ValueErr
  | Some t => guard can_read sys p else ValueErr ;; Ok (f, t)
  end.
(** The writers of /repo/pydtmc/files_io.py: open(file_path, 'w') empties the file again;
    a character that the encoding does not have makes write() raise before anything is
    written (UnicodeEncodeError, a ValueError; in a CSV file such characters can only be
    in the names, which are the first row). *)
Definition write_out (p : path) (t : text) : list effect * res unit :=
  if forallb (can_encode sys) t then ([Truncate p; Append p t], Ok tt) else ([Truncate p], Err ValueErr).
Definition save_text (p : path) (text_in : format -> res text) : list effect * res unit :=
  match check_write p with
  | (es, Err e) => (es, Err e)
  | (es, Ok f) => match text_in f with
                  | Err e => (es, Err e)
                  | Ok t => (es ++ fst (write_out p t), snd (write_out p t))
                  end
  end.
(** /repo/pydtmc/markov_chain.py 1960-1988 to_file *)
Definition save (p : path) (c : chain) : list effect * res unit := save_text p (fun f => to_file show f c).
(** /repo/pydtmc/markov_chain.py 2388-2461 from_file *)
Definition load (fs : files) (p : path) : res robj :=
  ft <- check_read fs p ;;
  from_file float limit nul_ok (fst ft) (snd ft).
(** /repo/pydtmc/hidden_markov_model.py 502-530 to_file, 710-800 from_file *)
Definition hmm_save (p : path) (o : hobj) : list effect * res unit := save_text p (fun f => hmm_to_file show f o).
Definition hmm_load (fs : files) (p : path) : res rhobj :=
  ft <- check_read fs p ;;
  hmm_from_file float limit nul_ok (fst ft) (snd ft).
End Disk.
