(** M_Json: JSON files.  Model only. *)
From Verif Require Export M_Io.
Open Scope nat_scope.
Open Scope res_scope.

Definition code (c : ascii) : nat := nat_of_ascii c.
Definition hex (n : nat) : ascii := nth n (chars "0123456789abcdef"%string) "0"%char.

(** ** Writing
    json.dump with its default settings (CPython, Lib/json/encoder.py, ensure_ascii):
    the quote, the backslash and \n \r \t \f \b have short escapes, every other
    character outside ' '..'~' becomes \u followed by four lower-case hexadecimal digits. *)
Definition bs : ascii := "\".
Definition json_char (c : ascii) : text :=
  if Ascii.eqb c quote then [bs; quote]
  else if Ascii.eqb c bs then [bs; bs]
  else if Ascii.eqb c "010" then [bs; "n"%char]
  else if Ascii.eqb c "013" then [bs; "r"%char]
  else if Ascii.eqb c "009" then [bs; "t"%char]
  else if Ascii.eqb c "012" then [bs; "f"%char]
  else if Ascii.eqb c "008" then [bs; "b"%char]
  else if Nat.leb 32 (code c) && Nat.leb (code c) 126 then [c]
  else [bs; "u"%char; "0"%char; "0"%char; hex (code c / 16); hex (code c mod 16)].
Definition json_string (t : text) : text := quote :: flat_map json_char t ++ [quote].
(** texts joined by a two-character separator *)
Fixpoint join2 (sep : text) (l : list text) : text :=
  match l with
  | [] => []
  | [t] => t
  | t :: r => t ++ sep ++ join2 sep r
  end.
Definition comma_sp : text := [","; " "]%char.
Definition colon_sp : text := [":"; " "]%char.
Definition json_member (m : text * text) : text := json_string (fst m) ++ colon_sp ++ snd m.
Definition json_object (ms : list (text * text)) : text := "{"%char :: join2 comma_sp (map json_member ms) ++ ["}"%char].
Definition json_array (l : list text) : text := "["%char :: join2 comma_sp l ++ ["]"%char].

(** ** Reading
    json.load (CPython, Lib/json/decoder.py and scanner.py).  Code points above 255,
    which only \u escapes can produce, are outside the modelled texts (OtherErr). *)
Inductive json :=
| JNull
| JBool (b : bool)
| JNum (t : text)
| JConst (x : num)
| JStr (t : text)
| JArr (l : list json)
| JObj (l : list (text * json)).

Definition is_ws (c : ascii) : bool := Ascii.eqb c " " || Ascii.eqb c "009" || Ascii.eqb c "010" || Ascii.eqb c "013".
Fixpoint skip_ws (t : text) : text := match t with [] => [] | c :: r => if is_ws c then skip_ws r else t end.
Definition hex_val (c : ascii) : option nat :=
  let n := code c in
  if Nat.leb 48 n && Nat.leb n 57 then Some (n - 48)
  else if Nat.leb 97 n && Nat.leb n 102 then Some (n - 87)
  else if Nat.leb 65 n && Nat.leb n 70 then Some (n - 55)
  else None.
(** py_scanstring, strict: the characters up to the closing quote *)
Fixpoint scan_string (acc : text) (t : text) : res (text * text) :=
  match t with
  | [] => Err ValueErr
  | c :: r =>
      if Ascii.eqb c quote then Ok (rev acc, r)
      else if Ascii.eqb c bs then
        match r with
        | [] => Err ValueErr
        | e :: r' =>
            if Ascii.eqb e "u" then
              match r' with
              | h1 :: h2 :: h3 :: h4 :: r'' =>
                  match hex_val h1, hex_val h2, hex_val h3, hex_val h4 with
                  | Some a, Some b, Some x, Some y =>
                      guard Nat.eqb a 0 && Nat.eqb b 0 else OtherErr ;;
                      scan_string (ascii_of_nat (16 * x + y) :: acc) r''
                  | _, _, _, _ => Err ValueErr
                  end
              | _ => Err ValueErr
              end
            else if Ascii.eqb e quote || Ascii.eqb e bs || Ascii.eqb e "/" then scan_string (e :: acc) r'
            else if Ascii.eqb e "n" then scan_string ("010"%char :: acc) r'
            else if Ascii.eqb e "r" then scan_string ("013"%char :: acc) r'
            else if Ascii.eqb e "t" then scan_string ("009"%char :: acc) r'
            else if Ascii.eqb e "f" then scan_string ("012"%char :: acc) r'
            else if Ascii.eqb e "b" then scan_string ("008"%char :: acc) r'
            else Err ValueErr
        end
      else if Nat.ltb (code c) 32 then Err ValueErr
      else scan_string (c :: acc) r
  end.

Definition is_digit (c : ascii) : bool := Nat.leb 48 (code c) && Nat.leb (code c) 57.
Fixpoint span_digits (t : text) : text * text :=
  match t with
  | c :: r => if is_digit c then (c :: fst (span_digits r), snd (span_digits r)) else ([], t)
  | [] => ([], [])
  end.
(** NUMBER_RE: (-?(?:0|[1-9]\d* ))(\.\d+)?([eE][-+]?\d+)? *)
Definition num_int (t : text) : option (text * text) :=
  let '(sign, t1) := match t with c :: r => if Ascii.eqb c "-" then ([c], r) else ([], t) | [] => ([], []) end in
  match t1 with
  | c :: r => if Ascii.eqb c "0" then Some (sign ++ [c], r)
              else if is_digit c then Some (sign ++ c :: fst (span_digits r), snd (span_digits r))
              else None
  | [] => None
  end.
Definition num_frac (t : text) : text * text :=
  match t with
  | c :: r => if Ascii.eqb c "." then match fst (span_digits r) with
                                      | [] => ([], t)
                                      | ds => (c :: ds, snd (span_digits r))
                                      end
              else ([], t)
  | [] => ([], [])
  end.
Definition num_exp (t : text) : text * text :=
  match t with
  | c :: r =>
      if Ascii.eqb c "e" || Ascii.eqb c "E" then
        let '(sign, r1) := match r with s :: r' => if Ascii.eqb s "-" || Ascii.eqb s "+" then ([s], r') else ([], r) | [] => ([], []) end in
        match fst (span_digits r1) with
        | [] => ([], t)
        | ds => (c :: sign ++ ds, snd (span_digits r1))
        end
      else ([], t)
  | [] => ([], [])
  end.
Definition scan_number (t : text) : option (text * text) :=
  match num_int t with
  | Some (i, t1) => let '(f, t2) := num_frac t1 in let '(e, t3) := num_exp t2 in Some (i ++ f ++ e, t3)
  | None => None
  end.
(** a literal word *)
Fixpoint strip_prefix (p t : text) : option text :=
  match p, t with
  | [], _ => Some t
  | a :: p', c :: t' => if Ascii.eqb a c then strip_prefix p' t' else None
  | _ :: _, [] => None
  end.
Definition literals : list (string * json) :=
  [("null", JNull); ("true", JBool true); ("false", JBool false);
   ("NaN", JConst NaN); ("Infinity", JConst PInf); ("-Infinity", JConst NInf)]%string.
Fixpoint scan_literal (l : list (string * json)) (t : text) : option (json * text) :=
  match l with
  | [] => None
  | (w, v) :: r => match strip_prefix (chars w) t with Some t' => Some (v, t') | None => scan_literal r t end
  end.
(** an object is a dict: a repeated key keeps its place and takes the last value *)
Definition text_eqb (a b : text) : bool := if list_eq_dec ascii_dec a b then true else false.
Fixpoint obj_set (l : list (text * json)) (k : text) (v : json) : list (text * json) :=
  match l with
  | [] => [(k, v)]
  | (k', v') :: r => if text_eqb k' k then (k', v) :: r else (k', v') :: obj_set r k v
  end.
Fixpoint parse_value (fuel : nat) (t : text) : res (json * text) :=
  match fuel with
  | 0 => Err FuelErr
  | S f =>
      match t with
      | [] => Err ValueErr
      | c :: r =>
          if Ascii.eqb c quote then sr <- scan_string [] r ;; Ok (JStr (fst sr), snd sr)
          else if Ascii.eqb c "{" then
            match skip_ws r with
            | [] => Err ValueErr
            | c' :: r' => if Ascii.eqb c' "}" then Ok (JObj [], r') else parse_members f [] (c' :: r')
            end
          else if Ascii.eqb c "[" then
            match skip_ws r with
            | [] => Err ValueErr
            | c' :: r' => if Ascii.eqb c' "]" then Ok (JArr [], r') else parse_elements f [] (c' :: r')
            end
          else match scan_literal (firstn 3 literals) t with
               | Some vr => Ok vr
               | None => match scan_number t with
                         | Some (w, r') => Ok (JNum w, r')
                         | None => match scan_literal (skipn 3 literals) t with
                                   | Some vr => Ok vr
                                   | None => Err ValueErr
                                   end
                         end
               end
      end
  end
with parse_members (fuel : nat) (acc : list (text * json)) (t : text) : res (json * text) :=
  match fuel with
  | 0 => Err FuelErr
  | S f =>
      match t with
      | c :: r =>
          guard Ascii.eqb c quote else ValueErr ;;
          kr <- scan_string [] r ;;
          match skip_ws (snd kr) with
          | c2 :: r2 =>
              guard Ascii.eqb c2 ":" else ValueErr ;;
              vr <- parse_value f (skip_ws r2) ;;
              let acc' := obj_set acc (fst kr) (fst vr) in
              match skip_ws (snd vr) with
              | c3 :: r3 => if Ascii.eqb c3 "}" then Ok (JObj acc', r3)
                            else if Ascii.eqb c3 "," then parse_members f acc' (skip_ws r3)
                            else Err ValueErr
              | [] => Err ValueErr
              end
          | [] => Err ValueErr
          end
      | [] => Err ValueErr
      end
  end
with parse_elements (fuel : nat) (acc : list json) (t : text) : res (json * text) :=
  match fuel with
  | 0 => Err FuelErr
  | S f =>
      vr <- parse_value f t ;;
      let acc' := acc ++ [fst vr] in
      match skip_ws (snd vr) with
      | c :: r => if Ascii.eqb c "]" then Ok (JArr acc', r)
                  else if Ascii.eqb c "," then parse_elements f acc' (skip_ws r)
                  else Err ValueErr
      | [] => Err ValueErr
      end
  end.
(** json.loads: nothing but white space may follow; JSONDecodeError is a ValueError.
    The fuel exceeds the number of calls: each consumes a character. *)
Definition json_load (t : text) : res json :=
  vr <- parse_value (S (2 * length t)) (skip_ws t) ;;
  match skip_ws (snd vr) with [] => Ok (fst vr) | _ => Err ValueErr end.

Section JsonFiles.
Variable show : num -> text.
Variable float : text -> option num.

(** /repo/pydtmc/files_io.py 389-407 write_json *)
Definition write_json (ps : list (string * list string)) (d : dict) : text :=
  let names := map fst ps in
  json_array (map (fun e => json_object (combine (map chars names) (map (fun s => json_string (chars s)) (fst e))
                                         ++ [(chars "probability", show (snd e))])) d).

Fixpoint get (l : list (text * json)) (k : text) : option json :=
  match l with [] => None | (k', v) :: r => if text_eqb k' k then Some v else get r k end.
(** the values of one object against the parameters *)
Fixpoint json_fields (ps : list (string * list string)) (obj : list (text * json)) : res key :=
  match ps with
  | [] => Ok []
  | p :: ps' =>
      match get obj (chars (fst p)) with
      | Some (JStr s) =>
          guard negb (Nat.eqb (length s) 0) else ValueErr ;;
          guard allowed p (str s) else ValueErr ;;
          k <- json_fields ps' obj ;;
          Ok (str s :: k)
      | _ => Err ValueErr
      end
  end.
(** isinstance(value, (float, int, ...)) and float(value): booleans are ints *)
Definition json_number (v : option json) : res num :=
  match v with
  | Some (JNum t) => match float t with Some x => Ok x | None => Err ValueErr end
  | Some (JConst x) => Ok x
  | Some (JBool b) => Ok (Fin (if b then 1 else 0)%Qc)
  | _ => Err ValueErr
  end.
(** /repo/pydtmc/files_io.py 200-228: the loop over the objects.  The comparison of the
    sorted keys with the sorted parameters (both without repetition) is: as many, and
    all parameters are keys. *)
Fixpoint json_records (ps : list (string * list string)) (l : list json) (d : dict) : res dict :=
  match l with
  | [] => Ok d
  | JObj obj :: r =>
      let wanted := map (fun p => chars (fst p)) ps ++ [chars "probability"] in
      guard Nat.eqb (length obj) (length wanted)
            && forallb (fun k => existsb (text_eqb k) (map fst obj)) wanted else ValueErr ;;
      k <- json_fields ps obj ;;
      x <- json_number (get obj (chars "probability")) ;;
      json_records ps r (dict_set d k x)
  | _ :: _ => Err ValueErr
  end.
(** /repo/pydtmc/files_io.py 182-230 read_json *)
Definition read_json (ps : list (string * list string)) (t : text) : res dict :=
  v <- json_load (universal t) ;;
  match v with JArr l => json_records ps l [] | _ => Err ValueErr end.
End JsonFiles.
