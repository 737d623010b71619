(** Specification of JSON: which text denotes which value (RFC 8259), and which value denotes which
    grammar.  From Json.v it uses only the type [json]. *)
From Verif Require Export Json.
From Coq Require String.
Import String.StringSyntax.

(** ** Text *)

Definition space (w : str) : Prop := forall c, In c w -> In c [32; 9; 10; 13]%N.
Definition digit (c : char) : Prop := (48 <= c <= 57)%N.

(** The digits of hexadecimal notation with their values. *)
Definition hex (c : char) (n : N) : Prop :=
  (48 <= c <= 57 /\ n = c - 48 \/ 65 <= c <= 70 /\ n = c - 55 \/ 97 <= c <= 102 /\ n = c - 87)%N.
(** A [\u] escape and its value. *)
Definition unit_text (u : N) (s : str) : Prop :=
  exists a b c d x y z t, s = lit "\u" ++ [a; b; c; d] /\ hex a x /\ hex b y /\ hex c z /\ hex d t /\
    (u = x * 4096 + y * 256 + z * 16 + t)%N.
Definition high (u : N) : Prop := (55296 <= u < 56320)%N.
Definition low (u : N) : Prop := (56320 <= u < 57344)%N.

(** A character and its short escape. *)
Definition escapes : list (char * char) :=
  [(34, 34); (92, 92); (47, 47); (98, 8); (102, 12); (110, 10); (114, 13); (116, 9)]%N.

Definition add (c : char) (o : option str) : option str := option_map (cons c) o.

(** The text between the quotes of a string.  The value is [None] if a surrogate is not part of a
    pair. *)
Inductive string_text : option str -> str -> Prop :=
| string_end : string_text (Some []) []
| string_plain c o s : (32 <= c)%N -> c <> 34%N -> c <> 92%N -> string_text o s -> string_text (add c o) (c :: s)
| string_escape e c o s : In (e, c) escapes -> string_text o s -> string_text (add c o) (92%N :: e :: s)
| string_unit u t o s : unit_text u t -> ~ high u -> ~ low u -> string_text o s -> string_text (add u o) (t ++ s)
| string_pair u t u' t' o s : unit_text u t -> high u -> unit_text u' t' -> low u' -> string_text o s ->
    string_text (add (65536 + (u - 55296) * 1024 + (u' - 56320))%N o) (t ++ t' ++ s)
| string_lone u t o s : unit_text u t -> high u \/ low u ->
    (high u -> forall u' t' s', s = t' ++ s' -> unit_text u' t' -> ~ low u') -> string_text o s ->
    string_text None (t ++ s).

Definition digits (s : str) : Prop := s <> [] /\ Forall digit s.
Definition number_text (t : str) : Prop :=
  exists sign int frac exp, t = sign ++ int ++ frac ++ exp /\
    (sign = [] \/ sign = lit "-") /\
    (int = lit "0" \/ exists c s, int = c :: s /\ digits int /\ c <> 48%N) /\
    (frac = [] \/ exists s, frac = lit "." ++ s /\ digits s) /\
    (exp = [] \/ exists e g s, exp = e :: g ++ s /\ In e (lit "eE") /\ In g [[]; lit "+"; lit "-"] /\ digits s).

(** The text of a value (without space around it), of elements and of members. *)
Inductive json_text : json -> str -> Prop :=
| text_null : json_text JNull (lit "null")
| text_true : json_text (JBool true) (lit "true")
| text_false : json_text (JBool false) (lit "false")
| text_number t : number_text t -> json_text (JNumber t) t
| text_string o s : string_text o s -> json_text (JString o) ([34%N] ++ s ++ [34%N])
| text_array l s : items_text l s -> json_text (JArray l) (lit "[" ++ s ++ lit "]")
| text_array_empty w : space w -> json_text (JArray []) (lit "[" ++ w ++ lit "]")
| text_object l s : members_text l s -> json_text (JObject l) (lit "{" ++ s ++ lit "}")
| text_object_empty w : space w -> json_text (JObject []) (lit "{" ++ w ++ lit "}")
with items_text : list json -> str -> Prop :=
| items_one v s w w' : space w -> space w' -> json_text v s -> items_text [v] (w ++ s ++ w')
| items_more v s w w' l s' : space w -> space w' -> json_text v s -> items_text l s' ->
    items_text (v :: l) (w ++ s ++ w' ++ lit "," ++ s')
with members_text : list (option str * json) -> str -> Prop :=
| members_one m s : member_text m s -> members_text [m] s
| members_more m s l s' : member_text m s -> members_text l s' -> members_text (m :: l) (s ++ lit "," ++ s')
with member_text : option str * json -> str -> Prop :=
| member k v s s' w1 w2 w3 w4 : space w1 -> space w2 -> space w3 -> space w4 -> string_text k s -> json_text v s' ->
    member_text (k, v) (w1 ++ [34%N] ++ s ++ [34%N] ++ w2 ++ lit ":" ++ w3 ++ s' ++ w4).

Scheme json_text_rec := Minimality for json_text Sort Prop
  with items_text_rec := Minimality for items_text Sort Prop
  with members_text_rec := Minimality for members_text Sort Prop
  with member_text_rec := Minimality for member_text Sort Prop.
Combined Scheme json_text_mutind from json_text_rec, items_text_rec, members_text_rec, member_text_rec.

(** A JSON document. *)
Definition document (v : json) (s : str) : Prop := exists w t w', s = w ++ t ++ w' /\ space w /\ space w' /\ json_text v t.

(** ** Values *)

(** The object's keys are texts, and exactly one of its members has the key [name]. *)
Definition field (name : str) (l : list (option str * json)) (v : json) : Prop :=
  (forall kv, In kv l -> fst kv <> None) /\
  exists l1 l2, l = l1 ++ (Some name, v) :: l2 /\ forall kv, In kv (l1 ++ l2) -> fst kv <> Some name.

Inductive term_value : term -> json -> Prop :=
| value_terminal s : term_value (Terminal s) (JObject [(Some (lit "Terminal"), JString (Some s))])
| value_nonterminal s : term_value (Nonterminal s) (JObject [(Some (lit "Nonterminal"), JString (Some s))]).
Definition expression_value (e : expression) (v : json) : Prop :=
  exists ts, Forall2 term_value e ts /\ (v = JArray [JArray ts] \/ exists l, v = JObject l /\ field (lit "terms") l (JArray ts)).
Definition production_value (p : production) (v : json) : Prop :=
  exists t es, term_value (p_lhs p) t /\ Forall2 expression_value (p_rhs p) es /\
    (v = JArray [t; JArray es] \/ exists l, v = JObject l /\ field (lit "lhs") l t /\ field (lit "rhs") l (JArray es)).
Definition grammar_value (g : grammar) (v : json) : Prop :=
  exists ps, Forall2 production_value g ps /\ (v = JArray [JArray ps] \/ exists l, v = JObject l /\ field (lit "productions") l (JArray ps)).

(** The escapes of serde_json, as a table: the characters below U+0020, the quote and the backslash. *)
Definition control_escapes : list str :=
  [lit "\u0000"; lit "\u0001"; lit "\u0002"; lit "\u0003"; lit "\u0004"; lit "\u0005"; lit "\u0006"; lit "\u0007";
   lit "\b"; lit "\t"; lit "\n"; lit "\u000b"; lit "\f"; lit "\r"; lit "\u000e"; lit "\u000f";
   lit "\u0010"; lit "\u0011"; lit "\u0012"; lit "\u0013"; lit "\u0014"; lit "\u0015"; lit "\u0016"; lit "\u0017";
   lit "\u0018"; lit "\u0019"; lit "\u001a"; lit "\u001b"; lit "\u001c"; lit "\u001d"; lit "\u001e"; lit "\u001f"].
Definition escaped (c : char) : str :=
  match nth_error control_escapes (N.to_nat c) with
  | Some x => x
  | None => if N.eqb c 34 then lit "\""" else if N.eqb c 92 then lit "\\" else [c]
  end.
