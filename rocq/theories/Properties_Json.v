(** C71, C72: grammars as JSON (feature "serde").  The specification is JsonSpec.v. *)
From Verif Require Import Facts_Json ParseExamples TextExamples.
From Coq Require String.
Import String.StringSyntax.
Open Scope list_scope.

(** ** C71 The derived code *)

Theorem C71_round_trip :
  (forall t, de_term (ser_term t) = Some t) /\ (forall e, de_expression (ser_expression e) = Some e) /\
  (forall p, de_production (ser_production p) = Some p) /\ (forall g, de_grammar (ser_grammar g) = Some g).
Proof. exact C71_round_trip_proof. Qed.
Print Assumptions C71_round_trip.

(** Exactly which values are accepted, and as what. *)
Theorem C71_values : forall v,
  (forall t, de_term v = Some t <-> term_value t v) /\ (forall e, de_expression v = Some e <-> expression_value e v) /\
  (forall p, de_production v = Some p <-> production_value p v) /\ (forall g, de_grammar v = Some g <-> grammar_value g v).
Proof. exact C71_values_proof. Qed.
Print Assumptions C71_values.

(** The fields may come in any order and with others between them, or as an array; a second
    occurrence is rejected; nothing asks for a nonterminal on the left. *)
Example C71_example :
  let t s := JObject [(Some (lit "Terminal"), JString (Some s))] in
  let e := JObject [(Some (lit "note"), JNull); (Some (lit "terms"), JArray [t (lit "x")])] in
  de_production (JObject [(Some (lit "rhs"), JArray [e; JArray [JArray []]]); (None, JNull)]) = None /\
  de_production (JObject [(Some (lit "rhs"), JArray [e; JArray [JArray []]]); (Some (lit "lhs"), t (lit "a"))]) =
    Some (mkProd (T_ "a") [[T_ "x"]; []]) /\
  de_production (JArray [t (lit "a"); JArray [e]]) = Some (mkProd (T_ "a") [[T_ "x"]]) /\
  de_expression (JObject [(Some (lit "terms"), JArray []); (Some (lit "terms"), JArray [])]) = None /\
  de_expression (JObject []) = None /\
  de_term (JObject [(Some (lit "Terminal"), JString (Some [])); (Some (lit "note"), JNull)]) = None /\
  de_term (JString (Some (lit "Terminal"))) = None.
Proof. repeat split. Qed.

(** ** C72 JSON text *)

(** The reader accepts exactly the JSON documents, and never fails to answer. *)
Theorem C72_reads : forall s, (exists o, read_json s = Ok o) /\ forall v, read_json s = Ok (Some v) <-> document v s.
Proof. exact C72_reads_proof. Qed.
Print Assumptions C72_reads.

Theorem C72_grammars : forall s, (exists o, grammar_from_json s = Ok o) /\
  forall g, grammar_from_json s = Ok (Some g) <-> exists v, document v s /\ grammar_value g v.
Proof. exact C72_grammars_proof. Qed.
Print Assumptions C72_grammars.

Theorem C72_round_trip : forall g,
  grammar_from_json (grammar_to_json g) = Ok (Some g) /\ grammar_from_json (grammar_to_json_pretty g) = Ok (Some g).
Proof. exact C72_round_trip_proof. Qed.
Print Assumptions C72_round_trip.

(** Both writers produce a document of the serialized grammar.  The compact one has no control
    characters, hence no line ends, and no document of the same value is shorter. *)
Theorem C72_written : forall g,
  document (ser_grammar g) (grammar_to_json g) /\ document (ser_grammar g) (grammar_to_json_pretty g) /\
  (forall c, In c (grammar_to_json g) -> (32 <= c)%N) /\
  (forall s, document (ser_grammar g) s -> List.length (grammar_to_json g) <= List.length s).
Proof. exact C72_written_proof. Qed.
Print Assumptions C72_written.

(** The text of a term, with the escapes of [escaped] (JsonSpec.v) and no others. *)
Theorem C72_escapes : forall s,
  write_json (ser_term (Terminal s)) = lit "{""Terminal"":""" ++ flat_map escaped s ++ lit """}" /\
  write_json (ser_term (Nonterminal s)) = lit "{""Nonterminal"":""" ++ flat_map escaped s ++ lit """}".
Proof. exact C72_escapes_proof. Qed.
Print Assumptions C72_escapes.

Example C72_example :
  grammar_to_json json_grammar =
    lit "{""productions"":[{""lhs"":{""Nonterminal"":""a""},""rhs"":[{""terms"":[{""Terminal"":""\\\n\u0001" ++ [233%N] ++
    lit "\""""},{""Nonterminal"":""b""}]},{""terms"":[]}]}]}" /\
  grammar_to_json_pretty [mkProd (N_ "a") [[]; [T_ "x"]]] = lines
    [ lit "{"; lit "  ""productions"": ["; lit "    {"; lit "      ""lhs"": {"; lit "        ""Nonterminal"": ""a"""; lit "      },";
      lit "      ""rhs"": ["; lit "        {"; lit "          ""terms"": []"; lit "        },"; lit "        {"; lit "          ""terms"": [";
      lit "            {"; lit "              ""Terminal"": ""x"""; lit "            }"; lit "          ]"; lit "        }"; lit "      ]";
      lit "    }"; lit "  ]" ] ++ lit "}" /\
  grammar_from_json (lit " { ""x"" : [ 1.5e+3 , { ""\uD800"" : true } ] , ""productions"" : [ [ {""Nonterminal"":""\ud83d\uDE00\/""} , [] ] ] } ") =
    Ok (Some [mkProd (Nonterminal [128512; 47]%N) []]) /\
  grammar_from_json (lit "{""productions"":[],}") = Ok None /\
  grammar_from_json (lit "{""productions"":[[{""Terminal"":""\ud800""},[]]]}") = Ok None /\
  grammar_from_json (lit "{""productions"":[],""x"":01}") = Ok None.
Proof. repeat split; vm_compute; reflexivity. Qed.
