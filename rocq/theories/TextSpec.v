(** Specification of grammar text, independent of the parser model: layout, tokens, and which
    sequences of tokens denote which grammar.  From the model it uses only the character table
    [is_whitespace] and the data types of parsed grammars. *)
From Verif Require Export Text.
From Coq Require String.
Import String.StringSyntax.

(** ** Layout *)

Definition newline (c : char) : Prop := c = 10%N \/ c = 13%N.

(** White space and comments; a comment runs from [;] to the end of its line. *)
Inductive layout : str -> Prop :=
| layout_nil : layout []
| layout_space c l : is_whitespace c = true -> layout l -> layout (c :: l)
| layout_comment body nl l :
    (forall c, In c body -> ~ newline c) -> newline nl -> layout l ->
    layout (lit ";" ++ body ++ nl :: l).

(** What may follow the last token's layout: a comment on the last line, if that has no end. *)
Definition last_comment (s : str) : Prop :=
  s = [] \/ exists body, s = lit ";" ++ body /\ forall c, In c body -> ~ newline c.

(** ** Tokens *)

Inductive notation := Bnf | Abnf.

Inductive token : Type :=
| TokName (n : str)
| TokString (q : char) (s : str)   (* [q] is the quote character *)
| TokDefine (incremental : bool)
| TokAlt
| TokOpen | TokClose
| TokOpenOpt | TokCloseOpt.

(** In ABNF a name ends before white space and closing brackets. *)
Definition ends_name (c : char) : Prop := is_whitespace c = true \/ In c (lit ")]").

Inductive token_text (alphabetic : char -> bool) : notation -> token -> str -> Prop :=
| text_name_bnf n : ~ In 62%N n -> token_text alphabetic Bnf (TokName n) (lit "<" ++ n ++ lit ">")
| text_name_abnf c n : alphabetic c = true -> (forall x, In x (c :: n) -> ~ ends_name x) ->
    token_text alphabetic Abnf (TokName (c :: n)) (c :: n)
| text_string N q s : In q (lit "'""") -> ~ In q s ->
    token_text alphabetic N (TokString q s) (q :: s ++ [q])
| text_define_bnf : token_text alphabetic Bnf (TokDefine false) (lit "::=")
| text_define_bnf_inc : token_text alphabetic Bnf (TokDefine true) (lit "::=|")
| text_define_abnf : token_text alphabetic Abnf (TokDefine false) (lit "=")
| text_define_abnf_inc : token_text alphabetic Abnf (TokDefine true) (lit "=/")
| text_alt_bnf : token_text alphabetic Bnf TokAlt (lit "|")
| text_alt_abnf : token_text alphabetic Abnf TokAlt (lit "/")
| text_open N : token_text alphabetic N TokOpen (lit "(")
| text_close N : token_text alphabetic N TokClose (lit ")")
| text_open_opt N : token_text alphabetic N TokOpenOpt (lit "[")
| text_close_opt N : token_text alphabetic N TokCloseOpt (lit "]").

(** [spells toks s]: [s] consists of the tokens, each followed by layout.  Nothing may separate an
    opening bracket from the next token, and an ABNF name must be followed by white space, a
    closing bracket or the end of the text. *)
Inductive spells (alphabetic : char -> bool) (N : notation) : list token -> str -> Prop :=
| spells_end s : last_comment s -> spells alphabetic N [] s
| spells_token tok text lay rest toks :
    token_text alphabetic N tok text ->
    layout lay ->
    (tok = TokOpen \/ tok = TokOpenOpt -> lay = []) ->
    (forall n, N = Abnf -> tok = TokName n ->
       lay ++ rest = [] \/ exists c r, lay ++ rest = c :: r /\ ends_name c) ->
    spells alphabetic N toks rest ->
    spells alphabetic N (tok :: toks) (text ++ lay ++ rest).

(** ** Grammars as token sequences *)

Inductive term_toks : parsed_term -> list token -> Prop :=
| toks_terminal q s : term_toks (Simple (Terminal s)) [TokString q s]
| toks_nonterminal n : term_toks (Simple (Nonterminal n)) [TokName n]
| toks_group es ts : alts_toks es ts -> term_toks (Group es) (TokOpen :: ts ++ [TokClose])
| toks_optional es ts : alts_toks es ts -> term_toks (Optional es) (TokOpenOpt :: ts ++ [TokCloseOpt])
with terms_toks : list parsed_term -> list token -> Prop :=
| toks_none : terms_toks [] []
| toks_more t e ts ts' : term_toks t ts -> terms_toks e ts' -> terms_toks (t :: e) (ts ++ ts')
with alts_toks : list (list parsed_term) -> list token -> Prop :=
| toks_one e ts : e <> [] -> terms_toks e ts -> alts_toks [e] ts
| toks_alt e es ts ts' : e <> [] -> terms_toks e ts -> alts_toks es ts' ->
    alts_toks (e :: es) (ts ++ TokAlt :: ts').

Definition production_toks (p : parsed_production) (ts : list token) : Prop :=
  exists incremental ts', alts_toks (pp_rhs p) ts' /\
    ts = TokName (pp_lhs p) :: TokDefine incremental :: ts'.

Inductive productions_toks : list parsed_production -> list token -> Prop :=
| toks_no_production : productions_toks [] []
| toks_production p ps ts ts' : production_toks p ts -> productions_toks ps ts' ->
    productions_toks (p :: ps) (ts ++ ts').

(** White space: the 25 characters with the Unicode property White_Space (tab to carriage return,
    space, next line, no-break space, ogham space mark, the spaces from en quad to hair space, line and
    paragraph separator, narrow no-break space, medium mathematical space, ideographic space). *)
Definition white_space : list char :=
  [9; 10; 11; 12; 13; 32; 133; 160; 5760; 8192; 8193; 8194; 8195; 8196; 8197; 8198; 8199; 8200; 8201; 8202;
   8232; 8233; 8239; 8287; 12288]%N.

(** [s] is a text of the (extended) grammar [g]. *)
Definition grammar_text (alphabetic : char -> bool) (N : notation) (g : parsed_grammar) (s : str) : Prop :=
  exists lay rest toks, s = lay ++ rest /\ layout lay /\
    g <> [] /\ productions_toks g toks /\ spells alphabetic N toks rest.

(** The first character after layout is [<]. *)
Definition starts_bnf (s : str) : Prop := exists lay rest, s = lay ++ lit "<" ++ rest /\ layout lay.

Definition format_of (N : notation) : format := match N with Bnf => BNF | Abnf => ABNF end.

(** What is used of [char::is_alphabetic]: it is false on white space and on the ASCII characters
    that are not letters. *)
Definition alphabetic_ok (alphabetic : char -> bool) : Prop :=
  forall c, alphabetic c = true ->
    is_whitespace c = false /\ (N.lt c 128 -> (N.le 65 c /\ N.le c 90) \/ (N.le 97 c /\ N.le c 122)).

(** ** Terms, expressions and productions (without groups) *)

Definition term_text (alphabetic : char -> bool) (N : notation) (t : term) (s : str) : Prop :=
  exists toks, term_toks (Simple t) toks /\ spells alphabetic N toks s.
Definition expression_text (alphabetic : char -> bool) (N : notation) (e : expression) (s : str) : Prop :=
  exists toks, e <> [] /\ terms_toks (map Simple e) toks /\ spells alphabetic N toks s.
Definition production_text (alphabetic : char -> bool) (N : notation) (p : production) (s : str) : Prop :=
  exists n toks, p_lhs p = Nonterminal n /\
    production_toks (mkParsed n (map (map Simple) (p_rhs p))) toks /\ spells alphabetic N toks s.

(** ** What BNF can write *)

(** Names end at [>], and a terminal with both quote characters cannot be quoted. *)
Definition writable_term (t : term) : Prop :=
  match t with
  | Nonterminal n => ~ In 62%N n
  | Terminal s => ~ (In 39%N s /\ In 34%N s)
  end.
Definition writable_expression (e : expression) : Prop :=
  e <> [] /\ forall t, In t e -> writable_term t.
Definition writable_production (p : production) : Prop :=
  (exists n, p_lhs p = Nonterminal n) /\ writable_term (p_lhs p) /\
  p_rhs p <> [] /\ forall e, In e (p_rhs p) -> writable_expression e.
Definition writable_grammar (g : grammar) : Prop :=
  g <> [] /\ forall p, In p g -> writable_production p.

(** The term occurs somewhere in the grammar. *)
Definition has_term (g : grammar) (t : term) : Prop :=
  exists p, In p g /\ (t = p_lhs p \/ exists e, In e (p_rhs p) /\ In t e).

(** Every production has a nonterminal on its left and alternatives, which are not empty. *)
Definition well_formed (g : grammar) : Prop :=
  g <> [] /\ forall p, In p g -> (exists n, p_lhs p = Nonterminal n) /\ p_rhs p <> [] /\
    forall e, In e (p_rhs p) -> e <> [].
