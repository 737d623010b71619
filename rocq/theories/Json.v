(** Grammars as JSON: the code that serde's derive macros generate for the four data types, and the
    part of serde_json it meets.  The crate's feature "serde" (Cargo.toml:61-81, on by default)
    switches the derives on.

    External contract: the generated code and serde_json's text format are modelled from their
    documentation.  The content of errors is left out.  serde_json reads typed values and text in
    one pass; here the text is first read into a tree.  The two accept the same texts: a value that
    no field wants is skipped with the checks of [read_value]. *)
From Verif Require Export Syntax.
From Coq Require String.
Import String.StringSyntax.

(** A JSON value.  A string is [None] if its escapes leave a surrogate code point unpaired; numbers
    are kept as text.  Members of objects keep their order and duplicates. *)
Inductive json : Type :=
| JNull
| JBool (b : bool)
| JNumber (t : str)
| JString (o : option str)
| JArray (l : list json)
| JObject (l : list (option str * json)).

(** ** Serialization *)

(** An enum variant with one value (externally tagged), src/term.rs:21-28. *)
Definition ser_term (t : term) : json :=
  match t with
  | Terminal s => JObject [(Some (lit "Terminal"), JString (Some s))]
  | Nonterminal s => JObject [(Some (lit "Nonterminal"), JString (Some s))]
  end.
(** A struct with named fields in the order of the declaration, src/expression.rs:14-18,
    src/production.rs:17-23, src/grammar.rs:312-316. *)
Definition ser_expression (e : expression) : json := JObject [(Some (lit "terms"), JArray (map ser_term e))].
Definition ser_production (p : production) : json :=
  JObject [(Some (lit "lhs"), ser_term (p_lhs p)); (Some (lit "rhs"), JArray (map ser_expression (p_rhs p)))].
Definition ser_grammar (g : grammar) : json := JObject [(Some (lit "productions"), JArray (map ser_production g))].

(** ** Deserialization *)

(** [Vec<A>]: an array only. *)
Fixpoint de_list {A} (de : json -> option A) (l : list json) : option (list A) :=
  match l with
  | [] => Some []
  | v :: l => match de v with
              | Some a => match de_list de l with Some l' => Some (a :: l') | None => None end
              | None => None
              end
  end.
Definition de_vec {A} (de : json -> option A) (v : json) : option (list A) :=
  match v with JArray l => de_list de l | _ => None end.

(** An enum: an object with one member, whose key is the variant.  (A plain string would be a
    variant without a value, which the type does not have.) *)
Definition de_term (v : json) : option term :=
  match v with
  | JObject [(Some k, JString (Some s))] =>
      if str_eqb k (lit "Terminal") then Some (Terminal s)
      else if str_eqb k (lit "Nonterminal") then Some (Nonterminal s)
      else None
  | _ => None
  end.

(** A struct with one field, from an object: the generated [visit_map].  [field] is the value found
    so far; a second one is an error; other keys are skipped, but must be strings. *)
Fixpoint visit_map1 {A} (name : str) (de : json -> option A) (l : list (option str * json)) (field : option A) : option A :=
  match l with
  | [] => field
  | (Some k, v) :: l =>
      if str_eqb k name then
        match field with
        | Some _ => None
        | None => match de v with Some a => visit_map1 name de l (Some a) | None => None end
        end
      else visit_map1 name de l field
  | (None, _) :: _ => None
  end.
(** A struct is read from an object ([visit_map]) or from an array of its fields ([visit_seq]). *)
Definition de_struct1 {A} (name : str) (de : json -> option A) (v : json) : option A :=
  match v with
  | JObject l => visit_map1 name de l None
  | JArray [v] => de v
  | _ => None
  end.

(** The same with two fields. *)
Fixpoint visit_map2 {A B} (name1 name2 : str) (de1 : json -> option A) (de2 : json -> option B)
  (l : list (option str * json)) (field1 : option A) (field2 : option B) : option (A * B) :=
  match l with
  | [] => match field1, field2 with Some a, Some b => Some (a, b) | _, _ => None end
  | (Some k, v) :: l =>
      if str_eqb k name1 then
        match field1 with
        | Some _ => None
        | None => match de1 v with Some a => visit_map2 name1 name2 de1 de2 l (Some a) field2 | None => None end
        end
      else if str_eqb k name2 then
        match field2 with
        | Some _ => None
        | None => match de2 v with Some b => visit_map2 name1 name2 de1 de2 l field1 (Some b) | None => None end
        end
      else visit_map2 name1 name2 de1 de2 l field1 field2
  | (None, _) :: _ => None
  end.
Definition de_struct2 {A B} (name1 name2 : str) (de1 : json -> option A) (de2 : json -> option B) (v : json) : option (A * B) :=
  match v with
  | JObject l => visit_map2 name1 name2 de1 de2 l None None
  | JArray [v1; v2] =>
      match de1 v1 with
      | Some a => match de2 v2 with Some b => Some (a, b) | None => None end
      | None => None
      end
  | _ => None
  end.

Definition de_expression (v : json) : option expression := de_struct1 (lit "terms") (de_vec de_term) v.
Definition de_production (v : json) : option production :=
  option_map (fun ab => mkProd (fst ab) (snd ab)) (de_struct2 (lit "lhs") (lit "rhs") de_term (de_vec de_expression) v).
Definition de_grammar (v : json) : option grammar := de_struct1 (lit "productions") (de_vec de_production) v.

(** ** Writing JSON text *)

(** A digit of a [\u] escape, lower case. *)
Definition hex_digit (n : N) : char := if N.ltb n 10 then (48 + n)%N else (87 + n)%N.
(** serde_json's escapes: the quote, the backslash and the control characters below U+0020. *)
Definition write_char (c : char) : str :=
  if N.eqb c 34 then lit "\" ++ [34%N]
  else if N.eqb c 92 then lit "\\"
  else if N.eqb c 8 then lit "\b"
  else if N.eqb c 9 then lit "\t"
  else if N.eqb c 10 then lit "\n"
  else if N.eqb c 12 then lit "\f"
  else if N.eqb c 13 then lit "\r"
  else if N.ltb c 32 then lit "\u00" ++ [hex_digit (c / 16); hex_digit (c mod 16)]
  else [c].
Definition write_string (s : str) : str := [34%N] ++ flat_map write_char s ++ [34%N].

(** Parts separated by [sep]. *)
Fixpoint write_sep (sep : str) (l : list str) : str :=
  match l with
  | [] => []
  | [s] => s
  | s :: l => s ++ sep ++ write_sep sep l
  end.
(** [serde_json::to_string].  (A string that is [None] is never written.) *)
Definition write_key (k : option str) : str := match k with Some s => write_string s | None => [] end.
Fixpoint write_json (v : json) : str :=
  match v with
  | JNull => lit "null"
  | JBool true => lit "true"
  | JBool false => lit "false"
  | JNumber t => t
  | JString o => write_key o
  | JArray l => lit "[" ++ write_sep (lit ",") (map write_json l) ++ lit "]"
  | JObject l => lit "{" ++ write_sep (lit ",") (map (fun kv => write_key (fst kv) ++ lit ":" ++ write_json (snd kv)) l) ++ lit "}"
  end.
(** [serde_json::to_string_pretty]: every element and member on a line of its own, two spaces per
    level, nothing between the brackets of an empty array or object. *)
Fixpoint indent (n : nat) : str := match n with 0 => [10%N] | S n => indent n ++ lit "  " end.
Definition pretty_list (open close : str) (n : nat) (l : list str) : str :=
  match l with
  | [] => open ++ close
  | _ => open ++ indent (S n) ++ write_sep (lit "," ++ indent (S n)) l ++ indent n ++ close
  end.
Fixpoint write_pretty (n : nat) (v : json) : str :=
  match v with
  | JNull => lit "null"
  | JBool true => lit "true"
  | JBool false => lit "false"
  | JNumber t => t
  | JString o => write_key o
  | JArray l => pretty_list (lit "[") (lit "]") n (map (write_pretty (S n)) l)
  | JObject l => pretty_list (lit "{") (lit "}") n (map (fun kv => write_key (fst kv) ++ lit ": " ++ write_pretty (S n) (snd kv)) l)
  end.

(** ** Reading JSON text *)

(** Space, tab, line feed, carriage return. *)
Definition json_space (c : char) : bool := N.eqb c 32 || N.eqb c 9 || N.eqb c 10 || N.eqb c 13.
Fixpoint skip_space (s : str) : str :=
  match s with
  | [] => []
  | c :: r => if json_space c then skip_space r else s
  end.

Definition hex_value (c : char) : option N :=
  if N.leb 48 c && N.leb c 57 then Some (c - 48)%N
  else if N.leb 65 c && N.leb c 70 then Some (c - 55)%N
  else if N.leb 97 c && N.leb c 102 then Some (c - 87)%N
  else None.
(** The four digits after [\u]. *)
Definition read_hex4 (s : str) : option (N * str) :=
  match s with
  | a :: b :: c :: d :: r =>
      match hex_value a, hex_value b, hex_value c, hex_value d with
      | Some a, Some b, Some c, Some d => Some ((((a * 16 + b) * 16 + c) * 16 + d)%N, r)
      | _, _, _, _ => None
      end
  | _ => None
  end.
Definition high_surrogate (n : N) : bool := N.leb 55296 n && N.ltb n 56320.
Definition low_surrogate (n : N) : bool := N.leb 56320 n && N.ltb n 57344.
(** The character after a backslash. *)
Definition simple_escape (c : char) : option char :=
  if N.eqb c 34 then Some 34%N
  else if N.eqb c 92 then Some 92%N
  else if N.eqb c 47 then Some 47%N
  else if N.eqb c 98 then Some 8%N
  else if N.eqb c 102 then Some 12%N
  else if N.eqb c 110 then Some 10%N
  else if N.eqb c 114 then Some 13%N
  else if N.eqb c 116 then Some 9%N
  else None.
(** The value of an unpaired [\u] escape is no text, but does not end the string. *)
Definition put (c : option char) (x : option (option str * str)) : option (option str * str) :=
  match x with
  | Some (o, r) => Some (match c, o with Some c, Some s => Some (c :: s) | _, _ => None end, r)
  | None => None
  end.
(** The rest of a string after the opening quote: its content and what follows it. *)
Fixpoint read_string (fuel : nat) (s : str) : option (option str * str) :=
  match fuel with
  | 0 => None
  | S fuel =>
      match s with
      | [] => None
      | c :: r =>
          if N.eqb c 34 then Some (Some [], r)
          else if N.eqb c 92 then
            match r with
            | [] => None
            | e :: r =>
                if N.eqb e 117 then
                  match read_hex4 r with
                  | None => None
                  | Some (u, r) =>
                      if high_surrogate u then
                        match r with
                        | b :: e :: r' =>
                            if N.eqb b 92 && N.eqb e 117 then
                              match read_hex4 r' with
                              | Some (w, r'') =>
                                  if low_surrogate w
                                  then put (Some (65536 + (u - 55296) * 1024 + (w - 56320))%N) (read_string fuel r'')
                                  else put None (read_string fuel r)
                              | None => None
                              end
                            else put None (read_string fuel r)
                        | _ => put None (read_string fuel r)
                        end
                      else if low_surrogate u then put None (read_string fuel r)
                      else put (Some u) (read_string fuel r)
                  end
                else match simple_escape e with Some c => put (Some c) (read_string fuel r) | None => None end
            end
          else if N.ltb c 32 then None
          else put (Some c) (read_string fuel r)
      end
  end.

Definition json_digit (c : char) : bool := N.leb 48 c && N.leb c 57.
Fixpoint read_digits (s : str) : str * str :=
  match s with
  | c :: r => if json_digit c then let (d, r') := read_digits r in (c :: d, r') else ([], s)
  | [] => ([], [])
  end.
(** Digits, at least one. *)
Definition read_digits1 (s : str) : option (str * str) :=
  match read_digits s with ([], _) => None | x => Some x end.
(** A number: sign, integer part without leading zero, fraction, exponent. *)
Definition read_int (s : str) : option (str * str) :=
  match s with
  | c :: r => if N.eqb c 48 then Some ([c], r) else read_digits1 s
  | [] => None
  end.
Definition read_frac (s : str) : option (str * str) :=
  match s with
  | c :: r => if N.eqb c 46 then match read_digits1 r with Some (d, r) => Some (c :: d, r) | None => None end else Some ([], s)
  | [] => Some ([], [])
  end.
Definition read_exp (s : str) : option (str * str) :=
  match s with
  | c :: r =>
      if N.eqb c 101 || N.eqb c 69 then
        match r with
        | g :: r' =>
            if N.eqb g 43 || N.eqb g 45
            then match read_digits1 r' with Some (d, r) => Some (c :: g :: d, r) | None => None end
            else match read_digits1 r with Some (d, r) => Some (c :: d, r) | None => None end
        | [] => None
        end
      else Some ([], s)
  | [] => Some ([], [])
  end.
Definition read_unsigned (s : str) : option (str * str) :=
  match read_int s with
  | None => None
  | Some (a, r) =>
      match read_frac r with
      | None => None
      | Some (b, r) => match read_exp r with Some (c, r) => Some (a ++ b ++ c, r) | None => None end
      end
  end.
Definition read_number (s : str) : option (str * str) :=
  match s with
  | c :: r => if N.eqb c 45 then match read_unsigned r with Some (t, r) => Some (c :: t, r) | None => None end else read_unsigned s
  | [] => None
  end.
(** A given text; what follows it. *)
Fixpoint read_lit (t s : str) : option str :=
  match t with
  | [] => Some s
  | c :: t => match s with d :: s => if N.eqb c d then read_lit t s else None | [] => None end
  end.

(** A value after optional space; the elements of an array up to [ ] ], and the members of an object
    up to [ } ], at least one. *)
Fixpoint read_value (fuel : nat) (s : str) : res (option (json * str)) :=
  match fuel with
  | 0 => OutOfFuel
  | S fuel =>
      match skip_space s with
      | [] => Ok None
      | c :: r =>
          if N.eqb c 34 then Ok (match read_string (S (length r)) r with Some (o, r) => Some (JString o, r) | None => None end)
          else if N.eqb c 91 then
            match skip_space r with
            | d :: r' =>
                if N.eqb d 93 then Ok (Some (JArray [], r'))
                else let* x := read_items fuel r in Ok (match x with Some (l, r) => Some (JArray l, r) | None => None end)
            | [] => Ok None
            end
          else if N.eqb c 123 then
            match skip_space r with
            | d :: r' =>
                if N.eqb d 125 then Ok (Some (JObject [], r'))
                else let* x := read_members fuel r in Ok (match x with Some (l, r) => Some (JObject l, r) | None => None end)
            | [] => Ok None
            end
          else if N.eqb c 110 then Ok (match read_lit (lit "ull") r with Some r => Some (JNull, r) | None => None end)
          else if N.eqb c 116 then Ok (match read_lit (lit "rue") r with Some r => Some (JBool true, r) | None => None end)
          else if N.eqb c 102 then Ok (match read_lit (lit "alse") r with Some r => Some (JBool false, r) | None => None end)
          else Ok (match read_number (c :: r) with Some (t, r) => Some (JNumber t, r) | None => None end)
      end
  end
with read_items (fuel : nat) (s : str) : res (option (list json * str)) :=
  match fuel with
  | 0 => OutOfFuel
  | S fuel =>
      let* x := read_value fuel s in
      match x with
      | None => Ok None
      | Some (v, r) =>
          match skip_space r with
          | c :: r =>
              if N.eqb c 93 then Ok (Some ([v], r))
              else if N.eqb c 44 then
                let* y := read_items fuel r in Ok (match y with Some (l, r) => Some (v :: l, r) | None => None end)
              else Ok None
          | [] => Ok None
          end
      end
  end
with read_members (fuel : nat) (s : str) : res (option (list (option str * json) * str)) :=
  match fuel with
  | 0 => OutOfFuel
  | S fuel =>
      match skip_space s with
      | [] => Ok None
      | c :: r =>
          if N.eqb c 34 then
            match read_string (S (length r)) r with
            | None => Ok None
            | Some (k, r) =>
                match skip_space r with
                | [] => Ok None
                | c :: r =>
                    if N.eqb c 58 then
                      let* x := read_value fuel r in
                      match x with
                      | None => Ok None
                      | Some (v, r) =>
                          match skip_space r with
                          | c :: r =>
                              if N.eqb c 125 then Ok (Some ([(k, v)], r))
                              else if N.eqb c 44 then
                                let* y := read_members fuel r in Ok (match y with Some (l, r) => Some ((k, v) :: l, r) | None => None end)
                              else Ok None
                          | [] => Ok None
                          end
                      end
                    else Ok None
                end
            end
          else Ok None
      end
  end.

(** [serde_json::from_str]: a value and nothing but space after it. *)
Definition json_fuel (s : str) : nat := 2 * length s + 2.
Definition read_json (s : str) : res (option json) :=
  let* x := read_value (json_fuel s) s in
  Ok (match x with Some (v, r) => match skip_space r with [] => Some v | _ => None end | None => None end).

(** [serde_json::to_string(&grammar)], [to_string_pretty], [from_str::<Grammar>]. *)
Definition grammar_to_json (g : grammar) : str := write_json (ser_grammar g).
Definition grammar_to_json_pretty (g : grammar) : str := write_pretty 0 (ser_grammar g).
Definition grammar_from_json (s : str) : res (option grammar) :=
  let* x := read_json s in Ok (match x with Some v => de_grammar v | None => None end).
