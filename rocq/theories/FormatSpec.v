(** Grammar text in a format of the user's: [Format] is a public trait (src/lib.rs:30,
    src/parsers/mod.rs:69-79), and [Grammar::parse_from] takes any type that implements it.  The
    specification is that of TextSpec.v with the delimiters, the separators and nothing else taken from the
    format. *)
From Verif Require Export TextSpec.
From Coq Require String.
Import String.StringSyntax.

Inductive format_token (alphabetic : char -> bool) (F : format) : token -> str -> Prop :=
| format_delimited a b n : f_delimiter F = Some (a, b) -> ~ In b n ->
    format_token alphabetic F (TokName n) (a :: n ++ [b])
| format_bare c n : f_delimiter F = None -> alphabetic c = true -> (forall x, In x (c :: n) -> ~ ends_name x) ->
    format_token alphabetic F (TokName (c :: n)) (c :: n)
| format_string q s : In q (lit "'""") -> ~ In q s -> format_token alphabetic F (TokString q s) (q :: s ++ [q])
| format_define : format_token alphabetic F (TokDefine false) (f_separator F)
| format_define_inc : format_token alphabetic F (TokDefine true) (f_separator F ++ [f_alternative F])
| format_alt : format_token alphabetic F TokAlt [f_alternative F]
| format_open : format_token alphabetic F TokOpen (lit "(")
| format_close : format_token alphabetic F TokClose (lit ")")
| format_open_opt : format_token alphabetic F TokOpenOpt (lit "[")
| format_close_opt : format_token alphabetic F TokCloseOpt (lit "]").

(** As [spells]: a name without delimiters must be followed by white space, a closing bracket or nothing. *)
Inductive format_spells (alphabetic : char -> bool) (F : format) : list token -> str -> Prop :=
| format_end s : last_comment s -> format_spells alphabetic F [] s
| format_next tok text lay rest toks :
    format_token alphabetic F tok text ->
    layout lay ->
    (tok = TokOpen \/ tok = TokOpenOpt -> lay = []) ->
    (forall n, f_delimiter F = None -> tok = TokName n ->
       lay ++ rest = [] \/ exists c r, lay ++ rest = c :: r /\ ends_name c) ->
    format_spells alphabetic F toks rest ->
    format_spells alphabetic F (tok :: toks) (text ++ lay ++ rest).

(** [s] is a text of the grammar [g] in the format [F]. *)
Definition format_text (alphabetic : char -> bool) (F : format) (g : parsed_grammar) (s : str) : Prop :=
  exists lay rest toks, s = lay ++ rest /\ layout lay /\
    g <> [] /\ productions_toks g toks /\ format_spells alphabetic F toks rest.

(** A character that begins no token of its own: not white space, and none of semicolon, quotes and brackets. *)
Definition unused (c : char) : Prop := is_whitespace c = false /\ ~ In c (lit ";'""()[]").

(** The formats that can be told apart: the opening delimiter, the alternative separator and the first character
    of the production separator are unused and pairwise different; if names have no delimiters the last two are
    not alphabetic.  Nothing is asked of the closing delimiter, of the rest of the production separator, and
    of [production_start_char]. *)
Definition separable (alphabetic : char -> bool) (F : format) : Prop :=
  exists d ds, f_separator F = d :: ds /\ unused d /\ unused (f_alternative F) /\ d <> f_alternative F /\
    match f_delimiter F with
    | Some (a, _) => unused a /\ a <> d /\ a <> f_alternative F
    | None => alphabetic d = false /\ alphabetic (f_alternative F) = false
    end.

(** A format with another [production_start_char]. *)
Definition with_start (F : format) (o : option char) : format :=
  mkFormat (f_delimiter F) (f_separator F) (f_alternative F) o.
