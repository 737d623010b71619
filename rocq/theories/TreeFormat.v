(** Formatting of parse trees: src/grammar.rs:72-271.

    A formatter is the text written to it (writing never fails). *)
From Verif Require Export Earley Display Decimals.
From Coq Require String.
Import String.StringSyntax.

(** ** [Display] for [ParseTree] *)

(** src/grammar.rs:131-134.  The box drawing characters are U+251C, U+2500, U+2502, U+2514. *)
Definition child_prefix : str := [9500; 9472; 9472; 32]%N.
Definition grandchild_prefix : str := [9474; 32; 32; 32]%N.
Definition last_child_prefix : str := [9492; 9472; 9472; 32]%N.
Definition last_grandchild_prefix : str := [32; 32; 32; 32]%N.

(** src/grammar.rs:72-73 [ParseTreeFormatSet], a set of column indices. *)
Definition format_set := list nat.
Definition fs_insert (d : nat) (s : format_set) : format_set := d :: s.
Definition fs_remove (d : nat) (s : format_set) : format_set := filter (fun x => negb (Nat.eqb x d)) s.
Definition fs_contains (d : nat) (s : format_set) : bool := existsb (Nat.eqb d) s.

(** src/grammar.rs:125-154 [fmt_node_prefix]. *)
Definition fmt_node_prefix (set : format_set) (depth : nat) (is_last : bool) : str :=
  flat_map (fun idx => if Nat.eqb (idx + 1) depth
                       then (if is_last then last_child_prefix else child_prefix)
                       else if fs_contains idx set then grandchild_prefix
                       else last_grandchild_prefix) (seq 0 depth).

(** [{:?}]-free quoting used for terminals: the text between double quotes, not escaped. *)
Definition quoted (s : str) : str := dquote :: s ++ [dquote].

(** src/grammar.rs:89-99: "LHS ::= RHS1 RHS2 ...". *)
Definition fmt_header (lhs : term) (kids : list (node term)) : str :=
  display_term lhs ++ lit " ::=" ++
  flat_map (fun k => lit " " ++ match k with Leaf s => quoted s | Sub t => display_term (match t with Node l _ => l end) end) kids.

Definition newline : str := [10%N].

(** src/grammar.rs:76-123 [ParseTree::fmt]: the text written and the resulting column set.
    The inner loop is src/grammar.rs:104-120; the child at [last_child_idx] is the one with no
    successors. *)
Fixpoint fmt_tree (t : ptree) (set : format_set) (depth : nat) (is_last : bool) {struct t} : str * format_set :=
  match t with
  | Node lhs kids =>
      let set := fs_insert depth set in
      let head := fmt_node_prefix set depth is_last ++ fmt_header lhs kids ++ newline in
      let (body, set) := (fix loop (ks : list (node term)) (set : format_set) {struct ks} : str * format_set :=
        match ks with
        | nil => ([], set)
        | k :: ks' =>
            let last := match ks' with nil => true | _ => false end in
            let set := if last then fs_remove depth set else set in
            let (out, set) := match k with
                              | Leaf s => (fmt_node_prefix set (depth + 1) last ++ quoted s ++ newline, set)
                              | Sub t => fmt_tree t set (depth + 1) last
                              end in
            let (rest, set) := loop ks' set in
            (out ++ rest, set)
        end) kids set in
      (head ++ body, set)
  end.

(** src/grammar.rs:185-190 *)
Definition display_tree (t : ptree) : str := fst (fmt_tree t [] 0 true).

(** ** Mermaid *)

(** src/grammar.rs:194 [MERMAID_ESCAPE_CHARS]: double quote, ampersand, hash, less, greater, opening
    bracket, backslash, closing bracket, semicolon, LF, CR. *)
Definition mermaid_escape_chars : list char := [34; 38; 35; 60; 62; 91; 92; 93; 59; 10; 13]%N.

(** src/grammar.rs:200-210 [escape_mermaid_label]. *)
Definition escape_char (c : char) : str :=
  if existsb (N.eqb c) mermaid_escape_chars then lit "#" ++ dec_N c ++ lit ";" else [c].
Definition escape_mermaid_label (s : str) : str := fold_left (fun out c => out ++ escape_char c) s [].

(** [lhs] of a Mermaid node: src/grammar.rs:227-230 and 246-249 ([unreachable!] panics). *)
Definition mermaid_lhs (t : term) : res str := match t with Nonterminal s => Ok s | Terminal _ => Panic end.

(** src/grammar.rs:239-243, 251-255: one line. *)
Definition mermaid_line (n : nat) (a : str) (m : nat) (b : str) : str :=
  dec n ++ lit "[""" ++ a ++ lit """] --> " ++ dec m ++ lit "[""" ++ b ++ lit """]" ++ newline.

(** src/grammar.rs:221-263 [MermaidParseTree::fmt]: the text written and the counter. *)
Fixpoint mermaid_fmt (t : ptree) (count : nat) {struct t} : res (str * nat) :=
  match t with
  | Node l kids =>
      let header := if Nat.eqb count 0 then lit "flowchart TD" ++ newline else [] in
      let* lhs := mermaid_lhs l in
      let lhs_escaped := escape_mermaid_label lhs in
      let lhs_count := count in
      let* (body, count) := (fix loop (ks : list (node term)) (count : nat) {struct ks} : res (str * nat) :=
        match ks with
        | nil => Ok ([], count)
        | k :: ks' =>
            let count := count + 1 in
            let* (out, count) :=
              match k with
              | Leaf s => Ok (mermaid_line lhs_count lhs_escaped count (escape_mermaid_label s), count)
              | Sub t' =>
                  let* rhs := mermaid_lhs (match t' with Node l' _ => l' end) in
                  let line := mermaid_line lhs_count lhs_escaped count (escape_mermaid_label rhs) in
                  let* (out, count) := mermaid_fmt t' count in
                  Ok (line ++ out, count)
              end in
            let* (rest, count) := loop ks' count in
            Ok (out ++ rest, count)
        end) kids count in
      Ok (header ++ body, count)
  end.

(** src/grammar.rs:266-271 *)
Definition display_mermaid (t : ptree) : res str := let* (out, _) := mermaid_fmt t 0 in Ok out.
