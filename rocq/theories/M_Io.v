(** M_Io: dictionaries, graphs and files.  Model only.

    Texts are lists of code points below 256; a file is the text of its characters
    (the encoding and the file system are not modelled: what is written is what is
    read).  The conversions float -> str and str -> float of Python are arguments
    ([show], [float]). *)
From Verif Require Export M_Validation.
From Coq Require Export Ascii.
Open Scope res_scope.

Definition text := list ascii.
Definition chars (s : string) : text := list_ascii_of_string s.
Definition str (t : text) : string := string_of_list_ascii t.

(** ** Dictionaries
    A Python dict from tuples of strings to floats: the entries in insertion order. *)
Definition key := list string.
Definition dict := list (key * num).
Definition key_eqb (a b : key) : bool := if list_eq_dec string_dec a b then true else false.
(** d[k] = v : an existing key keeps its position *)
Fixpoint dict_set (d : dict) (k : key) (v : num) : dict :=
  match d with
  | [] => [(k, v)]
  | (k', v') :: r => if key_eqb k' k then (k', v) :: r else (k', v') :: dict_set r k v
  end.
Definition dict_of (l : list (key * num)) : dict := fold_left (fun d e => dict_set d (fst e) (snd e)) l [].

(** numpy matrices of arbitrary floats *)
Definition nmat := list (list num).
Fixpoint setn {A} (n : nat) (x : A) (l : list A) : list A :=
  match l, n with
  | [], _ => []
  | _ :: r, 0 => x :: r
  | y :: r, S m => y :: setn m x r
  end.
Definition set2 (i j : nat) (x : num) (m : nmat) : nmat := setn i (setn j x (nth i m [])) m.
Definition nzeros (n m : nat) : nmat := repeat (repeat (Fin 0) m) n.
(** float addition *)
Definition num_add (a b : num) : num :=
  match a, b with
  | NaN, _ | _, NaN => NaN
  | PInf, NInf | NInf, PInf => NaN
  | PInf, _ | _, PInf => PInf
  | NInf, _ | _, NInf => NInf
  | Fin x, Fin y => Fin (x + y)%Qc
  end.
Definition num_sum (l : list num) : num := fold_left num_add l (Fin 0).
(** numpy.isclose(x, c) for a finite c *)
Definition num_isclose (x : num) (c : Qc) : bool := match x with Fin q => isclose q c | _ => false end.
(** numpy.allclose(numpy.sum(p, axis=1), numpy.ones(n)) *)
Definition rows_sum_to_one (p : nmat) : bool := forallb (fun r => num_isclose (num_sum r) 1) p.

(** /repo/pydtmc/markov_chain.py 1950-1958 MarkovChain.to_dictionary *)
Definition to_dictionary (c : chain) : dict :=
  let n := length (ch_states c) in
  let s i := nth i (ch_states c) EmptyString in
  dict_of (flat_map (fun i => map (fun j => ([s i; s j], Fin (mget (ch_p c) i j))) (seq 0 n)) (seq 0 n)).

(** list.index: ValueError when absent *)
Definition pos (l : list string) (s : string) : res nat :=
  match index_of String.eqb s l with Some i => Ok i | None => Err ValueErr end.

(** for (state_from, state_to), probability in d.items(): p[...] = probability *)
Fixpoint fill_mc (states : list string) (d : dict) (p : nmat) : res nmat :=
  match d with
  | [] => Ok p
  | ([a; b], v) :: r =>
      i <- pos states a ;;
      j <- pos states b ;;
      fill_mc states r (set2 i j v p)
  | _ :: _ => Err ValueErr
  end.
(** [key[0] for key in d.keys() if key[0] == key[1]] *)
Definition diagonal (d : dict) : list string :=
  flat_map (fun e => match fst e with [a; b] => if String.eqb a b then [a] else [] | _ => [] end) d.

(** /repo/pydtmc/markov_chain.py 2367-2384 (from_dictionary) and 2444-2461
    (from_file), which are identical: from the dictionary to the chain; the
    constructor, called by an instance generator, performs no validation. *)
Definition chain_of_dict (d : dict) : res robj :=
  let states := diagonal d in
  let size := length states in
  guard Nat.leb 2 size else ValueErr ;;
  p <- fill_mc states d (nzeros size size) ;;
  guard rows_sum_to_one p else ValueErr ;;
  Ok (mkrobj p states).

(** /repo/pydtmc/validation.py 170-229 validate_dictionary on a Python value: None
    when it is not a dict, otherwise its entries (keys and values are arbitrary). *)
Definition pydict := option (list (pyval * pyval)).
Definition as_key (v : pyval) : key := match v with PTuple l => map as_str l | _ => [] end.
Definition in_keys (k : key) (ks : list key) : bool := existsb (key_eqb k) ks.
Definition nth_s (i : nat) (k : key) : string := nth i k EmptyString.
(** the values: numbers, then finite numbers between 0 and 1 *)
Definition v_dict_values (entries : list (pyval * pyval)) : res dict :=
  guard forallb (fun e => is_number (snd e)) entries else ValueErr ;;
  guard forallb (fun e => prob01 (as_float (snd e))) entries else ValueErr ;;
  Ok (map (fun e => (as_key (fst e), as_float (snd e))) entries).
Definition v_dict_keys (len : nat) (v : pydict) : res (list (pyval * pyval)) :=
  match v with
  | None => Err ValueErr
  | Some entries =>
      guard negb (Nat.eqb (length entries) 0) else ValueErr ;;
      guard forallb (fun e => match fst e with
                              | PTuple l => Nat.eqb (length l) len && forallb is_string l
                              | _ => false
                              end) entries else ValueErr ;;
      Ok entries
  end.
Definition v_dictionary_mc (v : pydict) : res dict :=
  entries <- v_dict_keys 2 v ;;
  let ks := map (fun e => as_key (fst e)) entries in
  let labels := flat_map (fun k => [nth_s 0 k; nth_s 1 k]) ks in
  guard forallb (fun a => forallb (fun b => in_keys [a; b] ks) labels) labels else ValueErr ;;
  v_dict_values entries.
Definition v_dictionary_hmm (v : pydict) : res dict :=
  entries <- v_dict_keys 3 v ;;
  let ks := map (fun e => as_key (fst e)) entries in
  guard forallb (fun k => existsb (String.eqb (nth_s 0 k)) ["P"; "E"]%string) ks else ValueErr ;;
  let firsts := flat_map (fun k => nth_s 1 k :: (if String.eqb (nth_s 0 k) "P" then [nth_s 2 k] else [])) ks in
  let seconds := flat_map (fun k => if String.eqb (nth_s 0 k) "E" then [nth_s 2 k] else []) ks in
  guard forallb (fun a => forallb (fun b => in_keys ["P"%string; a; b] ks) firsts) firsts else ValueErr ;;
  guard forallb (fun a => forallb (fun b => in_keys ["E"%string; a; b] ks) seconds) firsts else ValueErr ;;
  v_dict_values entries.

(** /repo/pydtmc/markov_chain.py 2351-2384 MarkovChain.from_dictionary *)
Definition from_dictionary (v : pydict) : res robj :=
  d <- v_dictionary_mc v ;;
  chain_of_dict d.

(** The dictionary as a Python value. *)
Definition py_dict (d : dict) : pydict := Some (map (fun e => (PTuple (map PStr (fst e)), PFloat (snd e))) d).

(** ** Hidden Markov models *)
(** /repo/pydtmc/hidden_markov_model.py 483-500 to_dictionary *)
Definition hmm_to_dictionary (o : hobj) : dict :=
  let n := length (ho_states o) in
  let k := length (ho_symbols o) in
  let s i := nth i (ho_states o) EmptyString in
  let y j := nth j (ho_symbols o) EmptyString in
  dict_of (flat_map (fun i =>
    map (fun j => (["P"%string; s i; s j], Fin (mget (ho_p o) i j))) (seq 0 n) ++
    map (fun j => (["E"%string; s i; y j], Fin (mget (ho_e o) i j))) (seq 0 k)) (seq 0 n)).

(** A hidden Markov model whose matrices have not been validated. *)
Record rhobj := mkrhobj { rh_p : nmat; rh_e : nmat; rh_states : list string; rh_symbols : list string }.

Fixpoint fill_hmm (states symbols : list string) (d : dict) (p e : nmat) : res (nmat * nmat) :=
  match d with
  | [] => Ok (p, e)
  | ([ref; a; b], v) :: r =>
      if String.eqb ref "E" then
        i <- pos states a ;;
        j <- pos symbols b ;;
        fill_hmm states symbols r p (set2 i j v e)
      else
        i <- pos states a ;;
        j <- pos states b ;;
        fill_hmm states symbols r (set2 i j v p) e
  | _ :: _ => Err ValueErr
  end.
Definition hmm_diagonal (d : dict) : list string :=
  flat_map (fun e => match fst e with [r; a; b] => if String.eqb r "P" && String.eqb a b then [a] else [] | _ => [] end) d.
Definition hmm_symbols_of (first : string) (d : dict) : list string :=
  flat_map (fun e => match fst e with [r; a; b] => if String.eqb r "E" && String.eqb a first then [b] else [] | _ => [] end) d.

(** /repo/pydtmc/hidden_markov_model.py 678-707 (from_dictionary) and 767-800
    (from_file), which are identical *)
Definition hmm_of_dict (d : dict) : res rhobj :=
  let states := hmm_diagonal d in
  let n := length states in
  guard Nat.leb 2 n else ValueErr ;;
  let symbols := hmm_symbols_of (nth 0 states EmptyString) d in
  let k := length symbols in
  guard Nat.leb 2 k else ValueErr ;;
  pe <- fill_hmm states symbols d (nzeros n n) (nzeros n k) ;;
  guard rows_sum_to_one (fst pe) else ValueErr ;;
  guard rows_sum_to_one (snd pe) else ValueErr ;;
  Ok (mkrhobj (fst pe) (snd pe) states symbols).

(** /repo/pydtmc/hidden_markov_model.py 660-707 from_dictionary *)
Definition hmm_from_dictionary (v : pydict) : res rhobj :=
  d <- v_dictionary_hmm v ;;
  hmm_of_dict d.

(** ** Text files *)
Section Files.
(** str(x) of a float (its repr) and float(s) (None: ValueError) *)
Variable show : num -> text.
Variable float : text -> option num.

(** /repo/pydtmc/files_io.py 48-59: the names of the fields before the probability,
    with their admissible values (none listed: any) *)
Definition params_mc : list (string * list string) := [("state_from", []); ("state_to", [])]%string.
Definition params_hmm : list (string * list string) :=
  [("reference", ["E"; "P"]); ("element_from", []); ("element_to", [])]%string.
Definition allowed (p : string * list string) (s : string) : bool :=
  match snd p with [] => true | l => existsb (String.eqb s) l end.

Definition lf : ascii := "010".
Definition cr : ascii := "013".
Definition sp : ascii := " ".

(** /repo/pydtmc/files_io.py 410-423 write_txt *)
Definition write_txt (d : dict) : text :=
  concat (map (fun e => concat (map (fun a => chars a ++ [sp]) (fst e)) ++ show (snd e) ++ [lf]) d).

(** Reading in text mode: universal newlines, "\r\n" and "\r" become "\n" *)
Fixpoint universal (t : text) : text :=
  match t with
  | [] => []
  | c :: r => if Ascii.eqb c cr
              then match r with
                   | c' :: r' => if Ascii.eqb c' lf then lf :: universal r' else lf :: universal r
                   | [] => [lf]
                   end
              else c :: universal r
  end.
(** the lines of a text, without their "\n" (a last line may lack it) *)
Fixpoint lines (acc : text) (t : text) : list text :=
  match t with
  | [] => match acc with [] => [] | _ => [rev acc] end
  | c :: r => if Ascii.eqb c lf then rev acc :: lines [] r else lines (c :: acc) r
  end.
(** line.strip().split() *)
Fixpoint words (acc : text) (t : text) : list text :=
  match t with
  | [] => match acc with [] => [] | _ => [rev acc] end
  | c :: r => if is_space c
              then match acc with [] => words [] r | _ => rev acc :: words [] r end
              else words (c :: acc) r
  end.

(** the fields of one record against the parameters: the key, then the number *)
Fixpoint record (ps : list (string * list string)) (row : list text) : res (key * num) :=
  match ps, row with
  | [], [v] => match float v with Some x => Ok ([], x) | None => Err ValueErr end
  | p :: ps', w :: row' =>
      guard allowed p (str w) else ValueErr ;;
      kx <- record ps' row' ;;
      Ok (str w :: fst kx, snd kx)
  | _, _ => Err ValueErr
  end.
(** /repo/pydtmc/files_io.py 233-269 read_txt.  (In the code a non-numeric last field
    and a forbidden value are both reported as ValueError, whichever comes first.) *)
Fixpoint records (ps : list (string * list string)) (rows : list (list text)) (d : dict) : res dict :=
  match rows with
  | [] => Ok d
  | row :: r =>
      kx <- record ps row ;;
      records ps r (dict_set d (fst kx) (snd kx))
  end.
Definition read_txt (ps : list (string * list string)) (t : text) : res dict :=
  records ps (map (words []) (lines [] (universal t))) [].

(** ** CSV files *)
Definition comma : ascii := ",".
Definition quote : ascii := """".

(** csv.writer with QUOTE_MINIMAL, doublequote and lineterminator "\r\n" (CPython,
    _csv.c join_append_data): a field is quoted when it contains a comma, a quote or
    a line break; quotes are doubled.  A row consisting of one empty field is
    written as "". *)
Definition special (c : ascii) : bool := Ascii.eqb c comma || Ascii.eqb c quote || Ascii.eqb c cr || Ascii.eqb c lf.
Definition double_quotes (t : text) : text := flat_map (fun c => if Ascii.eqb c quote then [quote; quote] else [c]) t.
Definition csv_field (t : text) : text :=
  if existsb special t then quote :: double_quotes t ++ [quote] else t.
Fixpoint join (sep : ascii) (l : list text) : text :=
  match l with
  | [] => []
  | [t] => t
  | t :: r => t ++ sep :: join sep r
  end.
Definition csv_row (l : list text) : text :=
  match l with
  | [[]] => [quote; quote; cr; lf]
  | _ => join comma (map csv_field l) ++ [cr; lf]
  end.
Definition csv_write (rows : list (list text)) : text := concat (map csv_row rows).

(** csv.reader (CPython, _csv.c parse_process_char), default dialect, not strict.
    The fields of the current row and the characters of the current field are kept
    in reverse. *)
Inductive cst := StartRecord | StartField | InField | InQuoted | QuoteInQuoted | EatCrnl.
Record creader := mkcr { c_st : cst; c_field : text; c_fields : list text }.
Section Csv.
(** csv.field_size_limit(), and whether a NUL is accepted (Python 3.11 and later) *)
Variable limit : nat.
Variable nul_ok : bool.
Definition add_char (st : cst) (m : creader) (c : ascii) : res creader :=
  guard Nat.ltb (length (c_field m)) limit else OtherErr ;;
  Ok (mkcr st (c :: c_field m) (c_fields m)).
Definition save_field (st : cst) (m : creader) : creader := mkcr st [] (rev (c_field m) :: c_fields m).
Definition is_nl (c : ascii) : bool := Ascii.eqb c lf || Ascii.eqb c cr.
Definition csv_char (m : creader) (c : ascii) : res creader :=
  let start_field :=
    if is_nl c then Ok (save_field EatCrnl m)
    else if Ascii.eqb c quote then Ok (mkcr InQuoted (c_field m) (c_fields m))
    else if Ascii.eqb c comma then Ok (save_field StartField m)
    else add_char InField m c in
  match c_st m with
  | StartRecord => if is_nl c then Ok (mkcr EatCrnl (c_field m) (c_fields m)) else start_field
  | StartField => start_field
  | InField => if is_nl c then Ok (save_field EatCrnl m)
               else if Ascii.eqb c comma then Ok (save_field StartField m)
               else add_char InField m c
  | InQuoted => if Ascii.eqb c quote then Ok (mkcr QuoteInQuoted (c_field m) (c_fields m)) else add_char InQuoted m c
  | QuoteInQuoted => if Ascii.eqb c quote then add_char InQuoted m c
                     else if Ascii.eqb c comma then Ok (save_field StartField m)
                     else if is_nl c then Ok (save_field EatCrnl m)
                     else add_char InField m c
  | EatCrnl => guard is_nl c else OtherErr ;; Ok m
  end.
(** the end of a line *)
Definition csv_eol (m : creader) : creader :=
  match c_st m with
  | StartRecord => m
  | StartField | InField | QuoteInQuoted => save_field StartRecord m
  | InQuoted => m
  | EatCrnl => mkcr StartRecord (c_field m) (c_fields m)
  end.
Fixpoint csv_chars (m : creader) (t : text) : res creader :=
  match t with
  | [] => Ok m
  | c :: r => m' <- csv_char m c ;; csv_chars m' r
  end.
Definition fresh : creader := mkcr StartRecord [] [].
(** the rows of a sequence of lines *)
Fixpoint csv_lines (m : creader) (ls : list text) : res (list (list text)) :=
  match ls with
  | [] => match c_st m with
          | StartRecord => Ok []
          | InQuoted => Ok [rev (c_fields (save_field StartRecord m))]
          | _ => match c_field m with [] => Ok [] | _ => Ok [rev (c_fields (save_field StartRecord m))] end
          end
  | l :: r =>
      guard nul_ok || negb (existsb (Ascii.eqb "000") l) else OtherErr ;;
      m' <- csv_chars m l ;;
      let m'' := csv_eol m' in
      match c_st m'' with
      | StartRecord => rows <- csv_lines fresh r ;; Ok (rev (c_fields m'') :: rows)
      | _ => csv_lines m'' r
      end
  end.
(** the lines of a file opened with newline='': they end at "\n", "\r" or "\r\n" and
    keep their ends *)
Fixpoint raw_lines (acc : text) (t : text) : list text :=
  match t with
  | [] => match acc with [] => [] | _ => [rev acc] end
  | c :: r => if Ascii.eqb c lf then rev (c :: acc) :: raw_lines [] r
              else if Ascii.eqb c cr
                   then match r with
                        | c' :: r' => if Ascii.eqb c' lf then rev (c' :: c :: acc) :: raw_lines [] r'
                                      else rev (c :: acc) :: raw_lines [] r
                        | [] => [rev (c :: acc)]
                        end
                   else raw_lines (c :: acc) r
  end.
Definition csv_read (t : text) : res (list (list text)) := csv_lines fresh (raw_lines [] t).

(** /repo/pydtmc/files_io.py 359-387 write_csv (mc) *)
Definition write_csv_mc (d : dict) : res text :=
  let states := diagonal d in
  let size := length states in
  p <- fill_mc states d (nzeros size size) ;;
  Ok (csv_write (map chars states :: map (map show) p)).
(** /repo/pydtmc/files_io.py 338-357 and 374-387 write_csv (hmm); the test
    key[1] == states[0] on an empty list of states would raise IndexError *)
Definition tagged (tag : string) (s : string) : text := chars tag ++ chars s.
Definition write_csv_hmm (d : dict) : res text :=
  let states := hmm_diagonal d in
  let n := length states in
  guard negb (Nat.eqb n 0) else IndexErr ;;
  let symbols := hmm_symbols_of (nth 0 states EmptyString) d in
  let k := length symbols in
  pe <- fill_hmm states symbols d (nzeros n n) (nzeros n k) ;;
  Ok (csv_write ((map (tagged "P_") states ++ map (tagged "E_") symbols)
                 :: map (fun i => map show (nth i (fst pe) []) ++ map show (nth i (snd pe) [])) (seq 0 n))).

(** the cells of one data row *)
Definition nonempty (t : text) : bool := negb (Nat.eqb (length t) 0).
Fixpoint csv_cells (keys : list key) (row : list text) (d : dict) : res dict :=
  match keys, row with
  | k :: ks, w :: r => match float w with
                       | Some x => csv_cells ks r (dict_set d k x)
                       | None => Err ValueErr
                       end
  | _, _ => Ok d
  end.
Fixpoint csv_body (keys : string -> list key) (states : list string) (rows : list (list text)) (d : dict) : res dict :=
  match states, rows with
  | s :: states', row :: rows' =>
      guard Nat.eqb (length row) (length (keys s)) && forallb nonempty row else ValueErr ;;
      d' <- csv_cells (keys s) row d ;;
      csv_body keys states' rows' d'
  | _, _ => Ok d
  end.
(** /repo/pydtmc/files_io.py 128-179 read_csv (mc) *)
Definition read_csv_mc (t : text) : res dict :=
  data <- csv_read t ;;
  match data with
  | [] => Ok []
  | header :: rows =>
      guard forallb nonempty header else ValueErr ;;
      let states := map str header in
      guard nodupb String.eqb states else ValueErr ;;
      guard Nat.eqb (length states) (length rows) else ValueErr ;;
      csv_body (fun s => map (fun s' => [s; s']) states) states rows []
  end.
(** str.strip() *)
Fixpoint lstrip (t : text) : text := match t with [] => [] | c :: r => if is_space c then lstrip r else t end.
Definition strip (t : text) : text := rev (lstrip (rev (lstrip t))).
(** the header of an HMM file: the labels with their tags *)
Fixpoint hmm_header (header : list text) : res (list (string * string)) :=
  match header with
  | [] => Ok []
  | w :: r =>
      guard Nat.leb 3 (length w) else ValueErr ;;
      let l := strip w in
      let tag := str (firstn 2 l) in
      guard String.eqb tag "E_" || String.eqb tag "P_" else ValueErr ;;
      rest <- hmm_header r ;;
      Ok ((str (firstn 1 l), str (skipn 2 l)) :: rest)
  end.
(** /repo/pydtmc/files_io.py 68-126, 171-179 read_csv (hmm) *)
Definition read_csv_hmm (t : text) : res dict :=
  data <- csv_read t ;;
  match data with
  | [] => Ok []
  | header :: rows =>
      labels <- hmm_header header ;;
      let states := map snd (filter (fun l => String.eqb (fst l) "P") labels) in
      let symbols := map snd (filter (fun l => String.eqb (fst l) "E") labels) in
      guard nodupb String.eqb states && nodupb String.eqb symbols else ValueErr ;;
      guard Nat.eqb (length states) (length rows) else ValueErr ;;
      csv_body (fun s => map (fun l => [fst l; s; snd l]) labels) states rows []
  end.
End Csv.
End Files.
