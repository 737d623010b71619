(** The grammars of the repository's tests of random generation. *)
From Verif Require Export EndsSpec Text Fixtures.
From Coq Require String.
Import String.StringSyntax.

(** src/grammar.rs:1159-1163 *)
Definition groups_text : str := utf8 "
        <s> ::= (<a> | <b>) [<c>]
        <a> ::= 'a'
        <b> ::= 'b'
        <c> ::= 'c'"%string.
(** src/grammar.rs:1223-1224 *)
Definition dna_text : str := utf8 "<dna> ::= <base> | <base> <dna>
        <base> ::= 'A' | 'C' | 'G' | 'T'"%string.
(** src/grammar.rs:1240-1241 *)
Definition nest_text : str := utf8 "<s> ::= 'a' | '(' <s> ')'
        "%string.
(** src/grammar.rs:1260-1261 *)
Definition abc_text : str := utf8 "<s> ::= 'a' | 'b' | 'c'
        "%string.
(** src/grammar.rs:1281-1282, src/generation.rs:400-401 *)
Definition x_text : str := utf8 "<s> ::= 'x' | <s> 'x'
        "%string.
(** src/grammar.rs:1681-1683 *)
Definition names_text : str := utf8 "<文本> ::= <表情> | <符号> | <表情> <文本>
        <表情> ::= '😀' | '😍'
        <符号> ::= 'α' | 'β'"%string.

(** src/generation.rs:428-434 *)
Definition subtract_production : production := mkProd (nt "s") [[nt "s"]; [tm "a"]].

(** The sum of the lengths in bytes is what src/grammar.rs:1284-1303 averages; all characters are ASCII here. *)
Definition total_length (ws : list (result str)) : nat :=
  list_sum (map (fun w => match w with ROk w => length w | RErr _ => 0 end) ws).
(** src/grammar.rs:1301-1302 *)
Definition average (ws : list (result str)) : nat := Nat.div (total_length ws) (length ws).

(** A source of [u32] draws that reads a list. *)
Definition list_u32 (r : list N) (n : N) : N * list N :=
  match r with
  | [] => (0%N, [])
  | x :: r => (if N.ltb x n then x else 0%N, r)
  end.
Lemma list_u32_lt r n : (0 < n)%N -> (fst (list_u32 r n) < n)%N.
Proof. intro H. destruct r as [|x r]; cbn [list_u32 fst]; [assumption|]. destruct (N.ltb_spec x n); lia. Qed.
Definition list_rng : rng_ops (list N) := mkRng _ (fun r n => (0, r)) list_u32 (fun r n H => H) list_u32_lt.
