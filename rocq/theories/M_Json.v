(** JSON text: Bbn.to_json and Bbn.from_json (graph/dag.py) with the parts of Python's json module they use.

    Strings are sequences of code points below 256. Floats are written by [show] (float.__repr__) and read by [read]
    (float()). Of json.loads: NaN and Infinity are not read, an escape of a code point of 256 or more
    is not read, and a number is any run of the characters of numbers, an integer if it has no point and no exponent. *)
From Coq Require Import DecimalString.
From Verif Require Import Py M_Graph M_Node M_Pptc M_Serde.
Local Open Scope char_scope.
Local Open Scope list_scope.

Inductive json := JsInt (z : Z) | JsFloat (q : Qc) | JsStr (s : string) | JsBool (b : bool) | JsNull | JsList (l : list json) | JsObj (l : list (string * json)).

Definition chars : string -> list ascii := list_ascii_of_string.
Definition dquote : ascii := "034".
Definition bslash : ascii := "092".
Definition newline : ascii := "010".
Definition hexdigit (n : nat) : ascii := ascii_of_nat (if Nat.ltb n 10 then 48 + n else 87 + n).
(** json.encoder.py_encode_basestring_ascii: what is not a printable ASCII character is escaped *)
Definition esc (c : ascii) : list ascii :=
  let n := nat_of_ascii c in
  if Ascii.eqb c dquote then [bslash; dquote]
  else if Ascii.eqb c bslash then [bslash; bslash]
  else if Nat.eqb n 10 then [bslash; "n"]
  else if Nat.eqb n 13 then [bslash; "r"]
  else if Nat.eqb n 9 then [bslash; "t"]
  else if Nat.eqb n 12 then [bslash; "f"]
  else if Nat.eqb n 8 then [bslash; "b"]
  else if Nat.leb 32 n && Nat.leb n 126 then [c]
  else [bslash; "u"; "0"; "0"; hexdigit (n / 16); hexdigit (n mod 16)].
Definition quoted (s : string) : list ascii := dquote :: flat_map esc (chars s) ++ [dquote].

Section Codec.
  Context (show : Qc -> string) (read : string -> option Qc).

  (** json.dumps(v, indent=[indent]): between items, and at both ends of a list or an object, with an indent *)
  Definition line (indent : option nat) (lvl : nat) : list ascii := match indent with Some k => newline :: repeat " " (k * lvl) | None => [] end.
  Definition between (indent : option nat) (lvl : nat) : list ascii := match indent with Some k => "," :: line indent lvl | None => [","; " "] end.
  (** json.encoder._make_iterencode *)
  Fixpoint dump (indent : option nat) (lvl : nat) (v : json) : list ascii :=
    match v with
    | JsInt z => chars (str_of_Z z)
    | JsFloat q => chars (show q)
    | JsStr s => quoted s
    | JsBool b => chars (if b then "true" else "false")
    | JsNull => chars "null"
    | JsList [] => ["["; "]"]
    | JsList (x :: l) =>
        "[" :: line indent (S lvl) ++ dump indent (S lvl) x ++ flat_map (fun y => between indent (S lvl) ++ dump indent (S lvl) y) l ++ line indent lvl ++ ["]"]
    | JsObj [] => ["{"; "}"]
    | JsObj ((k, x) :: l) =>
        "{" :: line indent (S lvl) ++ quoted k ++ ":" :: " " :: dump indent (S lvl) x ++
        flat_map (fun y => match y with (k, y) => between indent (S lvl) ++ quoted k ++ ":" :: " " :: dump indent (S lvl) y end) l ++ line indent lvl ++ ["}"]
    end.
  Definition dumps (indent : option nat) (v : json) : string := string_of_list_ascii (dump indent 0 v).

  (** ** json.loads *)
  Definition space (c : ascii) : bool := let n := nat_of_ascii c in Nat.eqb n 32 || Nat.eqb n 9 || Nat.eqb n 10 || Nat.eqb n 13.
  Fixpoint skip (s : list ascii) : list ascii := match s with c :: t => if space c then skip t else s | [] => [] end.
  Definition unhex (c : ascii) : option nat :=
    let n := nat_of_ascii c in
    if Nat.leb 48 n && Nat.leb n 57 then Some (n - 48)
    else if Nat.leb 97 n && Nat.leb n 102 then Some (n - 87)
    else if Nat.leb 65 n && Nat.leb n 70 then Some (n - 55) else None.
  (** json.decoder.py_scanstring, after the opening quote; control characters are not allowed *)
  Fixpoint scan (s : list ascii) : option (list ascii * list ascii) :=
    let more (c : ascii) (r : option (list ascii * list ascii)) := match r with Some (t, s) => Some (c :: t, s) | None => None end in
    match s with
    | [] => None
    | c :: s =>
        if Ascii.eqb c dquote then Some ([], s)
        else if Ascii.eqb c bslash then
          match s with
          | [] => None
          | e :: s1 =>
              if Ascii.eqb e "u" then
                match s1 with
                | h1 :: h2 :: h3 :: h4 :: s2 =>
                    match unhex h1, unhex h2, unhex h3, unhex h4 with
                    | Some 0, Some 0, Some a, Some b => more (ascii_of_nat (16 * a + b)) (scan s2)
                    | _, _, _, _ => None
                    end
                | _ => None
                end
              else if Ascii.eqb e dquote then more dquote (scan s1)
              else if Ascii.eqb e bslash then more bslash (scan s1)
              else if Ascii.eqb e "/" then more "/" (scan s1)
              else if Ascii.eqb e "n" then more newline (scan s1)
              else if Ascii.eqb e "r" then more "013" (scan s1)
              else if Ascii.eqb e "t" then more "009" (scan s1)
              else if Ascii.eqb e "f" then more "012" (scan s1)
              else if Ascii.eqb e "b" then more "008" (scan s1)
              else None
          end
        else if Nat.ltb (nat_of_ascii c) 32 then None
        else more c (scan s)
    end.
  Definition digitb (c : ascii) : bool := let n := nat_of_ascii c in Nat.leb 48 n && Nat.leb n 57.
  (** marks of a float *)
  Definition pointed (c : ascii) : bool := Ascii.eqb c "." || Ascii.eqb c "e" || Ascii.eqb c "E".
  Definition numeric (c : ascii) : bool := digitb c || Ascii.eqb c "-" || Ascii.eqb c "+" || pointed c.
  Fixpoint span (s : list ascii) : list ascii * list ascii := match s with c :: t => if numeric c then (c :: fst (span t), snd (span t)) else ([], s) | [] => ([], []) end.
  Definition number (s : list ascii) : option (json * list ascii) :=
    let (t, r) := span s in
    let x := string_of_list_ascii t in
    if existsb pointed t then match read x with Some q => Some (JsFloat q, r) | None => None end
    else match int_of_str x with Ok z => Some (JsInt z, r) | Err _ => None end.
  (** json.scanner.py_make_scanner: true, false and null *)
  Fixpoint drop_word (w s : list ascii) : option (list ascii) :=
    match w, s with [], _ => Some s | a :: w, c :: s => if Ascii.eqb a c then drop_word w s else None | _, [] => None end.
  Definition literal (s : list ascii) : option (json * list ascii) :=
    match drop_word (chars "null") s, drop_word (chars "true") s, drop_word (chars "false") s with
    | Some r, _, _ => Some (JsNull, r)
    | None, Some r, _ => Some (JsBool true, r)
    | None, None, Some r => Some (JsBool false, r)
    | None, None, None => None
    end.
  (** json.scanner.py_make_scanner, json.decoder.JSONArray, json.decoder.JSONObject *)
  Fixpoint value (fuel : nat) (s : list ascii) : option (json * list ascii) :=
    match fuel with
    | O => None
    | S f =>
        match skip s with
        | [] => None
        | c :: t =>
            if Ascii.eqb c dquote then match scan t with Some (x, r) => Some (JsStr (string_of_list_ascii x), r) | None => None end
            else if Ascii.eqb c "[" then
              match skip t with
              | d :: r => if Ascii.eqb d "]" then Some (JsList [], r) else match items f t with Some (l, r) => Some (JsList l, r) | None => None end
              | [] => None
              end
            else if Ascii.eqb c "{" then
              match skip t with
              | d :: r => if Ascii.eqb d "}" then Some (JsObj [], r)
                          else match members f t with Some (l, r) => Some (JsObj (fold_left (fun d kv => dset d (fst kv) (snd kv)) l []), r) | None => None end
              | [] => None
              end
            else match literal (c :: t) with Some x => Some x | None => number (c :: t) end
        end
    end
  with items (fuel : nat) (s : list ascii) : option (list json * list ascii) :=
    match fuel with
    | O => None
    | S f =>
        match value f s with
        | None => None
        | Some (x, r) =>
            match skip r with
            | [] => None
            | d :: r => if Ascii.eqb d "]" then Some ([x], r)
                        else if Ascii.eqb d "," then match items f r with Some (l, r) => Some (x :: l, r) | None => None end
                        else None
            end
        end
    end
  with members (fuel : nat) (s : list ascii) : option (list (string * json) * list ascii) :=
    match fuel with
    | O => None
    | S f =>
        match skip s with
        | [] => None
        | c :: t =>
            if Ascii.eqb c dquote then
              match scan t with
              | None => None
              | Some (k, r) =>
                  match skip r with
                  | [] => None
                  | d :: r =>
                      if Ascii.eqb d ":" then
                        match value f r with
                        | None => None
                        | Some (x, r) =>
                            match skip r with
                            | [] => None
                            | d :: r => if Ascii.eqb d "}" then Some ([(string_of_list_ascii k, x)], r)
                                        else if Ascii.eqb d "," then match members f r with Some (l, r) => Some ((string_of_list_ascii k, x) :: l, r) | None => None end
                                        else None
                            end
                        end
                      else None
                  end
              end
            else None
        end
    end.
  (** json.JSONDecoder.decode: nothing but white space may follow; JSONDecodeError is a ValueError *)
  Definition loads (s : string) : res json :=
    match value (S (String.length s)) (chars s) with
    | Some (v, r) => match skip r with [] => Ok v | _ => Err ValueError end
    | None => Err ValueError
    end.

  (** ** networks *)
  (** node.py:72-78, variable.py:38-44 *)
  Definition node_json (d : nodedict) : json :=
    JsObj [("probs"%string, JsList (map JsFloat (nd_probs d)));
           ("variable"%string, JsObj [("id"%string, JsInt (nd_id d)); ("name"%string, JsStr (nd_name d)); ("values"%string, JsList (map JsStr (nd_values d)))])].
  (** json.encoder: the key of a member *)
  Definition key_text (k : pykey) : string := match k with KInt z => str_of_Z z | KStr s => s end.
  (** dag.py:230-247 *)
  Definition bbn_json (d : bbndict) : json :=
    JsObj [("nodes"%string, JsObj (map (fun p => (key_text (fst p), node_json (snd p))) (bd_nodes d)));
           ("edges"%string, JsList (map (fun e => JsObj [("pa"%string, JsInt (fst e)); ("ch"%string, JsInt (snd e))]) (bd_edges d)))].
  (** d[k] *)
  Definition member (v : json) (k : string) : res json := match v with JsObj l => dgetE l k | _ => Err TypeError end.
  Definition as_int (v : json) : res Z := match v with JsInt z => Ok z | _ => Err TypeError end.
  Definition as_str (v : json) : res string := match v with JsStr s => Ok s | _ => Err TypeError end.
  Definition as_num (v : json) : res Qc := match v with JsFloat q => Ok q | JsInt z => Ok (Q2Qc (inject_Z z)) | _ => Err TypeError end.
  Definition as_list (v : json) : res (list json) := match v with JsList l => Ok l | _ => Err TypeError end.
  Definition as_obj (v : json) : res (list (string * json)) := match v with JsObj l => Ok l | _ => Err AttributeError end.
  (** dag.py:258-262. The library does not check the types of the parts; here they are checked where they are read. *)
  Definition json_node (v : json) : res nodedict :=
    x <- member v "variable" ;; i <- member x "id" ;; i <- as_int i ;; n <- member x "name" ;; n <- as_str n ;;
    vs <- member x "values" ;; vs <- as_list vs ;; vs <- mapM as_str vs ;;
    ps <- member v "probs" ;; ps <- as_list ps ;; ps <- mapM as_num ps ;;
    Ok (mkND ps i n vs).
  (** dag.py:264-274 *)
  Definition json_dict (v : json) : res bbndict :=
    ns <- member v "nodes" ;; ns <- as_obj ns ;; ns <- mapM (fun p => d <- json_node (snd p) ;; Ok (KStr (fst p), d)) ns ;;
    es <- member v "edges" ;; es <- as_list es ;;
    es <- mapM (fun e => pa <- member e "pa" ;; pa <- as_int pa ;; ch <- member e "ch" ;; ch <- as_int ch ;; Ok (pa, ch)) es ;;
    Ok (mkBD ns es).
  (** dag.py:284-295 to_json: the text of the file *)
  Definition to_json (b : bbn) : string := dumps (Some 2) (bbn_json (bbn_to_dict b)).
  (** dag.py:297-308 from_json, of the text of the file *)
  Definition from_json (s : string) : res bbn := v <- loads s ;; d <- json_dict v ;; bbn_from_dict d.
End Codec.
