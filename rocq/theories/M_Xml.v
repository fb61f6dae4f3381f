(** M_Xml: XML files.  Model only. *)
From Verif Require Export M_Json.
Open Scope nat_scope.
Open Scope res_scope.

(** ** Writing *)
(** xml.etree.ElementTree _escape_attrib (Python 3.9 and later) *)
Definition xml_escape (c : ascii) : text :=
  if Ascii.eqb c "&" then chars "&amp;"
  else if Ascii.eqb c "<" then chars "&lt;"
  else if Ascii.eqb c ">" then chars "&gt;"
  else if Ascii.eqb c quote then chars "&quot;"
  else if Ascii.eqb c "013" then chars "&#13;"
  else if Ascii.eqb c "010" then chars "&#10;"
  else if Ascii.eqb c "009" then chars "&#09;"
  else [c].
Definition xml_attr (kv : text * text) : text :=
  " "%char :: fst kv ++ "="%char :: quote :: flat_map xml_escape (snd kv) ++ [quote].
Definition xml_item (attrs : list (text * text)) : text := chars "<Item" ++ flat_map xml_attr attrs ++ chars " />".
(** ElementTree.write(buffer, 'utf-8', True) of the root with its items *)
Definition xml_decl : text := chars "<?xml version='1.0' encoding='utf-8'?>" ++ [lf].
Definition xml_document (root : text) (items : list (list (text * text))) : text :=
  xml_decl ++
  match items with
  | [] => "<"%char :: root ++ chars " />"
  | _ => "<"%char :: root ++ ">"%char :: concat (map xml_item items) ++ chars "</" ++ root ++ [">"%char]
  end.
(** str.replace: the occurrences are searched from the left and do not overlap; [skip]
    is the number of characters of the last occurrence still to be dropped *)
Fixpoint replace_from (skip : nat) (old new t : text) : text :=
  match t with
  | [] => []
  | c :: r =>
      match skip with
      | S k => replace_from k old new r
      | 0 => match strip_prefix old t with
             | Some _ => new ++ replace_from (length old - 1) old new r
             | None => c :: replace_from 0 old new r
             end
      end
  end.
Definition replace (old new t : text) : text := replace_from 0 old new t.
(** /repo/pydtmc/files_io.py 450-453: the four replacements *)
Definition xml_layout (root t : text) : text :=
  let t1 := replace (chars "?>") (chars " standalone='yes' ?>") t in
  let t2 := replace ("<"%char :: root ++ [">"%char]) ("<"%char :: root ++ [">"%char; lf]) t1 in
  let t3 := replace (chars "<Item") ("009"%char :: chars "<Item") t2 in
  replace (quote :: chars " />") (quote :: chars "/>" ++ [lf]) t3.

(** ** Reading
    The subset of XML 1.0 that matters here, as expat reads it: a declaration, one
    element with nested elements; comments, processing instructions, document types
    and CDATA sections are outside the modelled texts (OtherErr).  A name is any run of
    characters other than white space, '=', '/', '<', '>', '&' and quotes; the text
    between elements is skipped (the reader ignores it) without decoding references. *)
Inductive xml := XEl (tag : text) (attrs : list (text * text)) (children : list xml).
Definition xml_char (c : ascii) : bool := Nat.leb 32 (code c) || Ascii.eqb c "009" || Ascii.eqb c "010" || Ascii.eqb c "013".
(** a reference without its '&' and ';' *)
Definition dec_value (t : text) : option nat :=
  match t with
  | [] => None
  | _ => fold_left (fun a c => match a with Some n => if is_digit c then Some (10 * n + (code c - 48)) else None | None => None end) t (Some 0)
  end.
Definition hex_value (t : text) : option nat :=
  match t with
  | [] => None
  | _ => fold_left (fun a c => match a, hex_val c with Some n, Some d => Some (16 * n + d) | _, _ => None end) t (Some 0)
  end.
Definition char_ref (n : option nat) : res ascii :=
  match n with
  | Some v => guard Nat.ltb v 256 else OtherErr ;; guard xml_char (ascii_of_nat v) else ValueErr ;; Ok (ascii_of_nat v)
  | None => Err ValueErr
  end.
Definition entity (e : text) : res ascii :=
  if text_eqb e (chars "amp") then Ok "&"%char
  else if text_eqb e (chars "lt") then Ok "<"%char
  else if text_eqb e (chars "gt") then Ok ">"%char
  else if text_eqb e (chars "quot") then Ok quote
  else if text_eqb e (chars "apos") then Ok "'"%char
  else match e with
       | h :: r => if Ascii.eqb h "#" then
                     match r with
                     | x :: r' => if Ascii.eqb x "x" then char_ref (hex_value r') else char_ref (dec_value r)
                     | [] => Err ValueErr
                     end
                   else Err ValueErr
       | [] => Err ValueErr
       end.
(** the value of an attribute up to its quote; [ent] holds a pending reference in
    reverse; white space is normalised to a space *)
Fixpoint scan_attr (q : ascii) (ent : option text) (acc : text) (t : text) : res (text * text) :=
  match t with
  | [] => Err ValueErr
  | c :: r =>
      match ent with
      | Some e => if Ascii.eqb c ";" then x <- entity (rev e) ;; scan_attr q None (x :: acc) r
                  else scan_attr q (Some (c :: e)) acc r
      | None => if Ascii.eqb c q then Ok (rev acc, r)
                else if Ascii.eqb c "<" then Err ValueErr
                else if Ascii.eqb c "&" then scan_attr q (Some []) acc r
                else if is_ws c then scan_attr q None (" "%char :: acc) r
                else scan_attr q None (c :: acc) r
      end
  end.
Definition name_char (c : ascii) : bool :=
  negb (is_ws c || Ascii.eqb c "=" || Ascii.eqb c "/" || Ascii.eqb c "<" || Ascii.eqb c ">" || Ascii.eqb c "&" || Ascii.eqb c quote || Ascii.eqb c "'").
Fixpoint span_name (t : text) : text * text :=
  match t with
  | c :: r => if name_char c then (c :: fst (span_name r), snd (span_name r)) else ([], t)
  | [] => ([], [])
  end.
Definition xml_name (t : text) : res (text * text) :=
  match fst (span_name t) with
  | [] => Err ValueErr
  | n => Ok (n, snd (span_name t))
  end.
(** the attributes and the end of a start tag: [true] for "/>" *)
Fixpoint parse_attrs (fuel : nat) (acc : list (text * text)) (t : text) : res (list (text * text) * bool * text) :=
  match fuel with
  | 0 => Err FuelErr
  | S f =>
      match skip_ws t with
      | [] => Err ValueErr
      | c :: r =>
          if Ascii.eqb c ">" then Ok (acc, false, r)
          else if Ascii.eqb c "/" then
            match r with
            | c' :: r' => guard Ascii.eqb c' ">" else ValueErr ;; Ok (acc, true, r')
            | [] => Err ValueErr
            end
          else
            guard negb (Nat.eqb (length (c :: r)) (length t)) else ValueErr ;;
            nr <- xml_name (c :: r) ;;
            match skip_ws (snd nr) with
            | e :: r1 =>
                guard Ascii.eqb e "=" else ValueErr ;;
                match skip_ws r1 with
                | q :: r2 =>
                    guard Ascii.eqb q quote || Ascii.eqb q "'" else ValueErr ;;
                    vr <- scan_attr q None [] r2 ;;
                    guard negb (existsb (text_eqb (fst nr)) (map fst acc)) else ValueErr ;;
                    parse_attrs f (acc ++ [(fst nr, fst vr)]) (snd vr)
                | [] => Err ValueErr
                end
            | [] => Err ValueErr
            end
      end
  end.
Fixpoint to_tag (t : text) : text := match t with [] => [] | c :: r => if Ascii.eqb c "<" then t else to_tag r end.
(** an element after its '<', and the content of an element up to its end tag *)
Fixpoint parse_element (fuel : nat) (t : text) : res (xml * text) :=
  match fuel with
  | 0 => Err FuelErr
  | S f =>
      match t with
      | c :: _ =>
          if Ascii.eqb c "!" || Ascii.eqb c "?" then Err OtherErr
          else
            nr <- xml_name t ;;
            ar <- parse_attrs (S (length (snd nr))) [] (snd nr) ;;
            if snd (fst ar) then Ok (XEl (fst nr) (fst (fst ar)) [], snd ar)
            else
              cr <- parse_content f (fst nr) [] (snd ar) ;;
              Ok (XEl (fst nr) (fst (fst ar)) (fst cr), snd cr)
      | [] => Err ValueErr
      end
  end
with parse_content (fuel : nat) (tag : text) (acc : list xml) (t : text) : res (list xml * text) :=
  match fuel with
  | 0 => Err FuelErr
  | S f =>
      match to_tag t with
      | _ :: c :: r =>
          if Ascii.eqb c "/" then
            match strip_prefix tag r with
            | Some r' => match skip_ws r' with
                         | g :: r'' => guard Ascii.eqb g ">" else ValueErr ;; Ok (acc, r'')
                         | [] => Err ValueErr
                         end
            | None => Err ValueErr
            end
          else
            er <- parse_element f (c :: r) ;;
            parse_content f tag (acc ++ [fst er]) (snd er)
      | _ => Err ValueErr
      end
  end.
Fixpoint after (pat t : text) : option text :=
  match strip_prefix pat t with
  | Some r => Some r
  | None => match t with [] => None | _ :: r => after pat r end
  end.
Definition xml_load (t0 : text) : res xml :=
  guard forallb xml_char t0 else ValueErr ;;
  let t := universal t0 in
  match (match strip_prefix (chars "<?xml") t with Some r => after (chars "?>") r | None => Some t end) with
  | None => Err ValueErr
  | Some t1 =>
      match skip_ws t1 with
      | c :: r =>
          guard Ascii.eqb c "<" else ValueErr ;;
          er <- parse_element (S (2 * length t)) r ;;
          match skip_ws (snd er) with [] => Ok (fst er) | _ => Err ValueErr end
      | [] => Err ValueErr
      end
  end.
(** Element.iter(): the element and its descendants in document order *)
Fixpoint xml_iter (e : xml) : list (text * list (text * text)) :=
  match e with XEl t a cs => (t, a) :: flat_map xml_iter cs end.

Section XmlFiles.
Variable show : num -> text.
Variable float : text -> option num.

Definition xml_attrs (ps : list (string * list string)) (e : key * num) : list (text * text) :=
  combine (map (fun p => chars (fst p)) ps) (map chars (fst e)) ++ [(chars "probability", show (snd e))].
(** /repo/pydtmc/files_io.py 426-456 write_xml *)
Definition write_xml (root : text) (ps : list (string * list string)) (d : dict) : text :=
  xml_layout root (xml_document root (map (xml_attrs ps) d)).

Fixpoint get_attr (l : list (text * text)) (k : text) : option text :=
  match l with [] => None | (k', v) :: r => if text_eqb k' k then Some v else get_attr r k end.
Fixpoint xml_fields (ps : list (string * list string)) (attrs : list (text * text)) : res key :=
  match ps with
  | [] => Ok []
  | p :: ps' =>
      match get_attr attrs (chars (fst p)) with
      | Some s => guard allowed p (str s) else ValueErr ;; k <- xml_fields ps' attrs ;; Ok (str s :: k)
      | None => Err ValueErr
      end
  end.
Definition xml_number (v : option text) : res num :=
  match v with
  | Some t => match float t with Some x => Ok x | None => Err ValueErr end
  | None => Err ValueErr
  end.
(** /repo/pydtmc/files_io.py 291-331: the loop over the elements (the comparison of the
    sorted keys is the one of [json_records]) *)
Fixpoint xml_records (root : text) (ps : list (string * list string)) (l : list (text * list (text * text))) (d : dict) : res dict :=
  match l with
  | [] => Ok d
  | (tag, attrs) :: r =>
      if text_eqb tag root then xml_records root ps r d
      else
        guard text_eqb tag (chars "Item") else ValueErr ;;
        let wanted := map (fun p => chars (fst p)) ps ++ [chars "probability"] in
        guard Nat.eqb (length attrs) (length wanted)
              && forallb (fun k => existsb (text_eqb k) (map fst attrs)) wanted else ValueErr ;;
        let stripped := map (fun kv => (fst kv, strip (snd kv))) attrs in
        guard forallb (fun kv => nonempty (snd kv)) stripped else ValueErr ;;
        k <- xml_fields ps stripped ;;
        x <- xml_number (get_attr stripped (chars "probability")) ;;
        xml_records root ps r (dict_set d k x)
  end.
(** /repo/pydtmc/files_io.py 273-333 read_xml: whatever the parser raises becomes a
    ValueError (OtherErr marks the texts outside the model) *)
Definition read_xml (root : text) (ps : list (string * list string)) (t : text) : res dict :=
  match xml_load t with
  | Err FuelErr => Err FuelErr
  | Err OtherErr => Err OtherErr
  | Err _ => Err ValueErr
  | Ok (XEl tag attrs cs) =>
      guard text_eqb tag root else ValueErr ;;
      xml_records root ps (xml_iter (XEl tag attrs cs)) []
  end.
End XmlFiles.
Definition root_mc : text := chars "MarkovChain".
Definition root_hmm : text := chars "HiddenMarkovModel".
