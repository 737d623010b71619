(** The text parsers of Text.v with a count of the characters they examine.

    Each scanning primitive (nom's [char], [tag], [take_till], [take_until], [satisfy], and the
    string methods used by [whitespace_plus_comments]) counts the characters it looks at; the
    parsers add up the counts of everything they call, including attempts that fail and
    lookahead.  Copying of matched text and normalization are not counted.  Forgetting the counts
    gives the parsers of Text.v (lemmas [erase_*]). *)
From Verif Require Export TextTotal.

(** A result and a count. *)
Definition counted (A : Type) := (A * nat)%type.
Definition tick {A} (n : nat) (x : counted A) : counted A := (fst x, n + snd x).

Definition obind_c {A B} (x : counted (option A)) (f : A -> counted (option B)) : counted (option B) :=
  match fst x with Some y => tick (snd x) (f y) | None => (None, snd x) end.
Notation "'let?#' x ':=' e 'in' f" := (obind_c e (fun x => f))
  (at level 200, x pattern, right associativity).
Definition pbind_c {A B} (x : counted (pres A)) (f : A * str -> counted (pres B)) : counted (pres B) :=
  match fst x with
  | Ok (Some y) => tick (snd x) (f y)
  | Ok None => (Ok None, snd x)
  | Panic => (Panic, snd x)
  | OutOfFuel => (OutOfFuel, snd x)
  end.
Notation "'let+#' x ':=' e 'in' f" := (pbind_c e (fun x => f))
  (at level 200, x pattern, right associativity).
Definition ok_c {A} (x : counted (option A)) : counted (res (option A)) := (Ok (fst x), snd x).
(** [alt] of two. *)
Definition or_c {A} (x y : counted (option A)) : counted (option A) :=
  match fst x with Some _ => x | None => tick (snd x) y end.

(** ** Primitives *)
Definition char_c (c : char) (s : str) : counted (option str) := (p_char c s, 1).
Definition tag_c (t s : str) : counted (option str) := (p_tag t s, length t).
(** The prefix and the character that stops the scan. *)
Definition take_till_c (f : char -> bool) (s : str) : counted (str * str) :=
  (take_till f s, S (length (fst (take_till f s)))).
Definition take_until_c (q : char) (s : str) : counted (option (str * str)) :=
  (take_until q s, match take_until q s with Some (a, _) => S (length a) | None => length s end).

(** src/parsers/mod.rs:133-151: a whitespace character is looked at once by [trim_start_matches];
    a character that stops the trimming is looked at by two rounds of trimming (the second
    finds nothing to trim) and by [strip_prefix]; [find] looks at the characters of a comment and
    at the line end that ends it. *)
Fixpoint skip_count (in_comment : bool) (s : str) : nat :=
  match s with
  | [] => 3
  | c :: r =>
      if in_comment then
        if N.eqb c c_cr || N.eqb c c_lf then 2 + skip_count false r else 1 + skip_count true r
      else if is_whitespace c then 1 + skip_count false r
      else if N.eqb c c_semi then 3 + skip_count true r
      else 3
  end.
Definition ws_c (s : str) : counted str := (whitespace_plus_comments s, skip_count false s).

(** ** Tokens *)
Definition quoted_c (q : char) (s : str) : counted (option (str * str)) :=
  let?# s := char_c q s in
  let?# (a, s) := take_until_c q s in
  let?# s := char_c q s in (Some (a, s), 0).
Definition quoted_string_c (s : str) : counted (option (str * str)) :=
  or_c (quoted_c dquote s) (quoted_c squote s).
Definition terminal_c (s : str) : counted (option (term * str)) :=
  let?# (a, s) := quoted_string_c s in tick (snd (ws_c s)) (Some (Terminal a, fst (ws_c s)), 0).

Section Format.
Variable alphabetic : char -> bool.
Variable F : format.

Definition name_c (s : str) : counted (option (str * str)) :=
  match f_delimiter F with
  | Some (start, end_) =>
      let?# s := char_c start s in
      let x := take_till_c (fun c => N.eqb c end_) s in
      tick (snd x) (let?# s := char_c end_ (snd (fst x)) in (Some (fst (fst x), s), 0))
  | None =>
      match s with
      | c :: _ =>
          if alphabetic c
          then let x := take_till_c (fun c => is_whitespace c || N.eqb c c_close || N.eqb c c_rbrack) s in
               (Some (fst x), 1 + snd x)
          else (None, 1)
      | [] => (None, 1)
      end
  end.

Definition nonterminal_c (s : str) : counted (option (term * str)) :=
  let?# (n, s) := name_c s in tick (snd (ws_c s)) (Some (Nonterminal n, fst (ws_c s)), 0).

Definition after_lhs_c (s : str) : counted (option str) :=
  let?# s := tag_c (f_separator F) s in
  let s := match p_char (f_alternative F) s with Some s => s | None => s end in
  (Some (fst (ws_c s)), 1 + snd (ws_c s)).

Definition prod_lhs_c (s : str) : counted (option (term * str)) :=
  let?# (nt, s) := nonterminal_c s in
  let?# s := after_lhs_c s in (Some (nt, s), 0).

Definition parse_term_c (s : str) : counted (option (term * str)) := or_c (terminal_c s) (nonterminal_c s).

Definition expression_next_c (s : str) : counted (option str) :=
  let?# s := char_c (f_alternative F) s in tick (snd (ws_c s)) (Some (fst (ws_c s)), 0).

Definition not_before_separator_c {A} (x : counted (pres A)) : counted (pres A) :=
  let+# (a, s) := x in
  match p_tag (f_separator F) s with
  | Some _ => (Ok None, length (f_separator F))
  | None => (Ok (Some (a, s)), length (f_separator F))
  end.
End Format.

(** ** Loops *)
Fixpoint many1_loop_c {A} (fuel : nat) (p : str -> counted (pres A)) (acc : list A) (s : str) : counted (pres (list A)) :=
  match fuel with
  | 0 => (OutOfFuel, 0)
  | S fuel =>
      let x := p s in
      match fst x with
      | Ok None => (Ok (Some (acc, s)), snd x)
      | Ok (Some (a, s')) =>
          if Nat.eqb (byte_len s') (byte_len s) then (Ok None, snd x)
          else tick (snd x) (many1_loop_c fuel p (acc ++ [a]) s')
      | Panic => (Panic, snd x)
      | OutOfFuel => (OutOfFuel, snd x)
      end
  end.
Definition many1_c {A} (fuel : nat) (p : str -> counted (pres A)) (s : str) : counted (pres (list A)) :=
  let+# (a, s) := p s in many1_loop_c fuel p [a] s.

Fixpoint xt_list_c {A} (fuel : nat) (p : str -> counted (pres A)) (delim : str -> counted (option str))
    (acc : list A) (s : str) : counted (pres (list A)) :=
  match fuel with
  | 0 => (OutOfFuel, 0)
  | S fuel =>
      let+# (a, s) := p s in
      let d := delim s in
      match fst d with
      | Some s' => tick (snd d) (xt_list_c fuel p delim (acc ++ [a]) s')
      | None => (Ok (Some (acc ++ [a], s)), snd d)
      end
  end.

Section Format2.
Variable alphabetic : char -> bool.
Variable F : format.

Definition parse_expression_c (fuel : nat) (s : str) : counted (pres expression) :=
  many1_c fuel (fun s => not_before_separator_c F (ok_c (parse_term_c alphabetic F s))) s.
Definition prod_rhs_c (fuel : nat) (s : str) : counted (pres (list expression)) :=
  xt_list_c fuel (parse_expression_c fuel) (expression_next_c F) [] s.

(** The test for the end looks at one character position. *)
Definition production_end_c (s : str) : counted bool :=
  match s with
  | [] => (true, 1)
  | _ => match f_start F with
         | Some start => (match p_char start (fst (ws_c s)) with Some _ => true | None => false end, 2 + snd (ws_c s))
         | None => (match fst (prod_lhs_c alphabetic F s) with Some _ => true | None => false end,
                    1 + snd (prod_lhs_c alphabetic F s))
         end
  end.
Definition parse_production_c (fuel : nat) (s : str) : counted (pres production) :=
  let+# (lhs, s) := ok_c (prod_lhs_c alphabetic F s) in
  let+# (rhs, s) := prod_rhs_c fuel s in
  (if fst (production_end_c s) then Ok (Some (mkProd lhs rhs, s)) else Ok None, snd (production_end_c s)).

Definition plain_grammar_c (fuel : nat) (s : str) : counted (pres grammar) :=
  tick (snd (ws_c s)) (
    let+# (first, s) := parse_production_c fuel (fst (ws_c s)) in
    let+# (rest, s) := many1_c fuel (fun s => tick (snd (ws_c s)) (parse_production_c fuel (fst (ws_c s)))) s in
    (Ok (Some (first :: rest, s)), 0)).

(** ** Extended syntax *)
Definition bracketed_c (a b : char) (inner : str -> counted (pres (list parsed_expression))) (s : str)
    : counted (pres (list parsed_expression)) :=
  let+# (_, s) := (Ok (option_map (pair tt) (p_char a s)), 1) in
  let+# (es, s) := inner s in
  let+# (_, s) := (Ok (option_map (pair tt) (p_char b s)), 1) in
  (Ok (Some (es, fst (ws_c s))), snd (ws_c s)).

Definition expression_of_c (fuel : nat) (p : str -> counted (pres parsed_term)) (s : str) : counted (pres parsed_expression) :=
  many1_c fuel (fun s => not_before_separator_c F (p s)) s.
Definition rhs_of_c (fuel : nat) (p : str -> counted (pres parsed_term)) (s : str) : counted (pres (list parsed_expression)) :=
  xt_list_c fuel (expression_of_c fuel p) (expression_next_c F) [] s.

Fixpoint read_term_c (fuel : nat) (s : str) : counted (pres parsed_term) :=
  match fuel with
  | 0 => (OutOfFuel, 0)
  | S fuel =>
      match fst (terminal_c s) with
      | Some (t, s') => (Ok (Some (Simple t, s')), snd (terminal_c s))
      | None => tick (snd (terminal_c s)) (
          match fst (nonterminal_c alphabetic F s) with
          | Some (t, s') => (Ok (Some (Simple t, s')), snd (nonterminal_c alphabetic F s))
          | None => tick (snd (nonterminal_c alphabetic F s)) (
              let group := bracketed_c c_open c_close (rhs_of_c fuel (read_term_c fuel)) s in
              match fst group with
              | Ok (Some (es, s')) => (Ok (Some (Group es, s')), snd group)
              | Ok None => tick (snd group) (
                  let+# (es, s') := bracketed_c c_lbrack c_rbrack (rhs_of_c fuel (read_term_c fuel)) s in
                  (Ok (Some (Optional es, s')), 0))
              | Panic => (Panic, snd group)
              | OutOfFuel => (OutOfFuel, snd group)
              end)
          end)
      end
  end.

Definition read_prod_lhs_c (s : str) : counted (option (str * str)) :=
  let?# (n, s) := name_c alphabetic F s in
  tick (snd (ws_c s)) (let?# s := after_lhs_c F (fst (ws_c s)) in (Some (n, s), 0)).

Definition read_production_c (fuel : nat) (s : str) : counted (pres parsed_production) :=
  let+# (lhs, s) := ok_c (read_prod_lhs_c s) in
  let+# (rhs, s) := rhs_of_c fuel (read_term_c fuel) s in
  match s with
  | [] => (Ok (Some (mkParsed lhs rhs, s)), 1)
  | _ => (match fst (read_prod_lhs_c s) with
          | Some _ => Ok (Some (mkParsed lhs rhs, s))
          | None => Ok None
          end, 1 + snd (read_prod_lhs_c s))
  end.

Definition read_grammar_c (fuel : nat) (s : str) : counted (pres parsed_grammar) :=
  tick (snd (ws_c s))
    (many1_c fuel (fun s => tick (snd (ws_c s)) (read_production_c fuel (fst (ws_c s)))) (fst (ws_c s))).
End Format2.

(** ** Entry points *)
Section Entry.
Variable alphabetic : char -> bool.

(** src/parsers/mod.rs:211-238: two searches and the scan look at most three times at each
    character. *)
Definition extended_count (s : str) : nat := 3 * length s.

(** src/parsers/mod.rs:253-262, before normalization: the grammar read by the fast path or the
    parsed grammar of the other one.  ([all_consuming] looks at one position.) *)
Definition grammar_complete_c (F : format) (s : str) : counted (res (option (grammar + parsed_grammar))) :=
  let extended :=
    let x := read_grammar_c alphabetic F (fuel_for s) s in
    (match all_consuming (fst x) with
     | Ok (Some g) => Ok (Some (inr g))
     | Ok None => Ok None
     | Panic => Panic
     | OutOfFuel => OutOfFuel
     end, 1 + snd x) in
  tick (extended_count s)
    (if grammar_has_extended_syntax s then extended
     else let x := plain_grammar_c alphabetic F (fuel_for s) s in
          match all_consuming (fst x) with
          | Ok (Some g) => (Ok (Some (inl g)), 1 + snd x)
          | Ok None => tick (1 + snd x) extended
          | Panic => (Panic, snd x)
          | OutOfFuel => (OutOfFuel, snd x)
          end).

(** src/grammar.rs:789-804; the detection looks at the layout and one character. *)
Definition grammar_from_str_c (s : str) : counted (res (option (grammar + parsed_grammar))) :=
  tick (1 + snd (ws_c s))
    (if is_format_standard_bnf s then grammar_complete_c BNF s else grammar_complete_c ABNF s).

Definition term_from_str_c (s : str) : counted (res (option term)) :=
  let x := ok_c (parse_term_c alphabetic BNF s) in (all_consuming (fst x), 1 + snd x).
Definition expression_from_str_c (s : str) : counted (res (option expression)) :=
  let x := parse_expression_c alphabetic BNF (fuel_for s) s in (all_consuming (fst x), 1 + snd x).
Definition production_from_str_c (s : str) : counted (res (option production)) :=
  let x := parse_production_c alphabetic BNF (fuel_for s) s in (all_consuming (fst x), 1 + snd x).

(** The rest of [grammar_complete]. *)
Definition finish (x : res (option (grammar + parsed_grammar))) : res (option grammar) :=
  let* o := x in
  match o with
  | Some (inl g) => Ok (Some g)
  | Some (inr pg) => let* g := normalize_parsed_grammar pg in Ok (Some g)
  | None => Ok None
  end.
End Entry.

(** ** Forgetting the counts *)

Lemma erase_obind {A B} (x : counted (option A)) (f : A -> counted (option B)) :
  fst (obind_c x f) = obind (fst x) (fun a => fst (f a)).
Proof. destruct x as [[a|] n]; reflexivity. Qed.
Lemma erase_pbind {A B} (x : counted (pres A)) (f : A * str -> counted (pres B)) :
  fst (pbind_c x f) = pbind (fst x) (fun a => fst (f a)).
Proof. destruct x as [[[a|]| |] n]; reflexivity. Qed.

Lemma erase_quoted q s : fst (quoted_c q s) = quoted q s.
Proof.
  unfold quoted_c, quoted. rewrite erase_obind. cbn [fst char_c]. destruct (p_char q s) as [s1|]; cbn [obind]; [|reflexivity].
  rewrite erase_obind. cbn [fst take_until_c]. destruct (take_until q s1) as [[a s2]|]; cbn [obind]; [|reflexivity].
  rewrite erase_obind. reflexivity.
Qed.
Lemma erase_quoted_string s : fst (quoted_string_c s) = quoted_string s.
Proof.
  unfold quoted_string_c, quoted_string, or_c. rewrite <- !erase_quoted. destruct (quoted_c dquote s) as [[x|] n]; reflexivity.
Qed.
Lemma erase_terminal s : fst (terminal_c s) = terminal s.
Proof.
  unfold terminal_c, terminal. rewrite erase_obind, erase_quoted_string. destruct (quoted_string s) as [[a s1]|]; reflexivity.
Qed.

Section Erase.
Variable alphabetic : char -> bool.
Variable F : format.

Lemma erase_name s : fst (name_c alphabetic F s) = name alphabetic F s.
Proof.
  unfold name_c, name. destruct (f_delimiter F) as [[a b]|].
  - rewrite erase_obind. cbn [fst char_c]. destruct (p_char a s) as [s1|]; cbn [obind]; [|reflexivity].
    cbn [fst tick take_till_c]. rewrite erase_obind. cbn [fst char_c].
    destruct (take_till (fun c => N.eqb c b) s1) as [n s2]. reflexivity.
  - destruct s as [|c s]; [reflexivity|]. destruct (alphabetic c); reflexivity.
Qed.
Lemma erase_nonterminal s : fst (nonterminal_c alphabetic F s) = nonterminal alphabetic F s.
Proof.
  unfold nonterminal_c, nonterminal. rewrite erase_obind, erase_name. destruct (name alphabetic F s) as [[n s1]|]; reflexivity.
Qed.
Lemma erase_after_lhs s : fst (after_lhs_c F s) = after_lhs F s.
Proof. unfold after_lhs_c, after_lhs. rewrite erase_obind. reflexivity. Qed.
Lemma erase_prod_lhs s : fst (prod_lhs_c alphabetic F s) = prod_lhs alphabetic F s.
Proof.
  unfold prod_lhs_c, prod_lhs. rewrite erase_obind, erase_nonterminal.
  destruct (nonterminal alphabetic F s) as [[n s1]|]; cbn [obind]; [|reflexivity].
  rewrite erase_obind, erase_after_lhs. reflexivity.
Qed.
Lemma erase_parse_term s : fst (parse_term_c alphabetic F s) = parse_term alphabetic F s.
Proof.
  unfold parse_term_c, parse_term, or_c. rewrite <- erase_terminal, <- erase_nonterminal.
  destruct (terminal_c s) as [[x|] n]; reflexivity.
Qed.
Lemma erase_expression_next s : fst (expression_next_c F s) = expression_next F s.
Proof. unfold expression_next_c, expression_next. rewrite erase_obind. reflexivity. Qed.
Lemma erase_not_before {A} (x : counted (pres A)) :
  fst (not_before_separator_c F x) = not_before_separator F (fst x).
Proof.
  unfold not_before_separator_c, not_before_separator. rewrite erase_pbind.
  destruct (fst x) as [[[a s]|]| |]; cbn [pbind]; try reflexivity. destruct (p_tag (f_separator F) s); reflexivity.
Qed.

Lemma erase_many1_loop {A} (p : str -> counted (pres A)) q (H : forall s, fst (p s) = q s) fuel : forall acc s,
  fst (many1_loop_c fuel p acc s) = many1_loop fuel q acc s.
Proof.
  induction fuel as [|fuel IH]; intros acc s; cbn [many1_loop_c many1_loop]; [reflexivity|].
  rewrite <- H. destruct (fst (p s)) as [[[a s']|]| |]; try reflexivity.
  destruct (byte_len s' =? byte_len s); [reflexivity|]. apply IH.
Qed.
Lemma erase_many1 {A} (p : str -> counted (pres A)) q (H : forall s, fst (p s) = q s) fuel s :
  fst (many1_c fuel p s) = many1 fuel q s.
Proof.
  unfold many1_c, many1. rewrite erase_pbind, H. destruct (q s) as [[[a s']|]| |]; cbn [pbind]; try reflexivity.
  apply erase_many1_loop, H.
Qed.
Lemma erase_xt_list {A} (p : str -> counted (pres A)) q (H : forall s, fst (p s) = q s) d e (Hd : forall s, fst (d s) = e s) fuel :
  forall acc s, fst (xt_list_c fuel p d acc s) = xt_list fuel q e acc s.
Proof.
  induction fuel as [|fuel IH]; intros acc s; cbn [xt_list_c xt_list]; [reflexivity|].
  rewrite erase_pbind, H. destruct (q s) as [[[a s']|]| |]; cbn [pbind]; try reflexivity.
  rewrite <- Hd. destruct (fst (d s')); [|reflexivity]. apply IH.
Qed.

Lemma erase_parse_expression fuel s : fst (parse_expression_c alphabetic F fuel s) = parse_expression alphabetic F fuel s.
Proof.
  apply erase_many1. intro r. rewrite erase_not_before. unfold ok_c. cbn [fst]. rewrite erase_parse_term. reflexivity.
Qed.
Lemma erase_prod_rhs fuel s : fst (prod_rhs_c alphabetic F fuel s) = prod_rhs alphabetic F fuel s.
Proof. apply erase_xt_list; [apply erase_parse_expression|apply erase_expression_next]. Qed.
Lemma erase_production_end s : fst (production_end_c alphabetic F s) = production_end alphabetic F s.
Proof.
  unfold production_end_c, production_end. destruct s as [|c s]; [reflexivity|].
  destruct (f_start F); [reflexivity|]. cbn [fst]. rewrite erase_prod_lhs. reflexivity.
Qed.
Lemma erase_parse_production fuel s : fst (parse_production_c alphabetic F fuel s) = parse_production alphabetic F fuel s.
Proof.
  unfold parse_production_c, parse_production. rewrite erase_pbind. unfold ok_c. cbn [fst]. rewrite erase_prod_lhs.
  destruct (prod_lhs alphabetic F s) as [[l s1]|]; cbn [pbind]; [|reflexivity].
  rewrite erase_pbind, erase_prod_rhs. destruct (prod_rhs alphabetic F fuel s1) as [[[r s2]|]| |]; cbn [pbind fst]; try reflexivity.
  rewrite erase_production_end. reflexivity.
Qed.
Lemma erase_plain_grammar fuel s : fst (plain_grammar_c alphabetic F fuel s) = plain_grammar alphabetic F fuel s.
Proof.
  unfold plain_grammar_c, plain_grammar. cbn [fst tick ws_c]. rewrite erase_pbind, erase_parse_production.
  destruct (parse_production alphabetic F fuel (whitespace_plus_comments s)) as [[[l s1]|]| |]; cbn [pbind]; try reflexivity.
  rewrite erase_pbind. rewrite (erase_many1 _ (fun s => parse_production alphabetic F fuel (whitespace_plus_comments s))).
  - destruct (many1 fuel _ s1) as [[[r s2]|]| |]; reflexivity.
  - intro r. cbn [fst tick ws_c]. apply erase_parse_production.
Qed.

Lemma erase_bracketed a b p q (H : forall s, fst (p s) = q s) s : fst (bracketed_c a b p s) = bracketed a b q s.
Proof.
  unfold bracketed_c, bracketed. rewrite erase_pbind. cbn [fst].
  destruct (p_char a s) as [s1|]; cbn [option_map pbind]; [|reflexivity].
  rewrite erase_pbind, H. destruct (q s1) as [[[es s2]|]| |]; cbn [pbind]; try reflexivity.
  rewrite erase_pbind. cbn [fst]. destruct (p_char b s2) as [s3|]; reflexivity.
Qed.
Lemma erase_rhs_of fuel p q (H : forall s, fst (p s) = q s) s : fst (rhs_of_c F fuel p s) = rhs_of F fuel q s.
Proof.
  apply erase_xt_list; [|apply erase_expression_next]. intro r. apply erase_many1. intro r'. rewrite erase_not_before, H. reflexivity.
Qed.
Lemma erase_read_term fuel : forall s, fst (read_term_c alphabetic F fuel s) = read_term alphabetic F fuel s.
Proof.
  induction fuel as [|fuel IH]; intro s; cbn [read_term_c read_term]; [reflexivity|].
  rewrite <- erase_terminal. destruct (fst (terminal_c s)) as [[t s1]|]; [reflexivity|].
  cbn [fst tick]. rewrite <- erase_nonterminal. destruct (fst (nonterminal_c alphabetic F s)) as [[t s1]|]; [reflexivity|].
  cbn [fst tick].
  rewrite <- (erase_bracketed c_open c_close (rhs_of_c F fuel (read_term_c alphabetic F fuel))) by (intro; apply erase_rhs_of, IH).
  destruct (fst (bracketed_c c_open c_close _ s)) as [[[es s1]|]| |]; try reflexivity.
  cbn [fst tick]. rewrite erase_pbind.
  rewrite <- (erase_bracketed c_lbrack c_rbrack (rhs_of_c F fuel (read_term_c alphabetic F fuel))) by (intro; apply erase_rhs_of, IH).
  destruct (fst (bracketed_c c_lbrack c_rbrack _ s)) as [[[es s1]|]| |]; reflexivity.
Qed.
Lemma erase_read_prod_lhs s : fst (read_prod_lhs_c alphabetic F s) = read_prod_lhs alphabetic F s.
Proof.
  unfold read_prod_lhs_c, read_prod_lhs. rewrite erase_obind, erase_name.
  destruct (name alphabetic F s) as [[n s1]|]; cbn [obind]; [|reflexivity].
  cbn [fst tick]. rewrite erase_obind, erase_after_lhs. reflexivity.
Qed.
Lemma erase_read_production fuel s : fst (read_production_c alphabetic F fuel s) = read_production alphabetic F fuel s.
Proof.
  unfold read_production_c, read_production. rewrite erase_pbind. unfold ok_c. cbn [fst]. rewrite erase_read_prod_lhs.
  destruct (read_prod_lhs alphabetic F s) as [[l s1]|]; cbn [pbind]; [|reflexivity].
  rewrite erase_pbind, (erase_rhs_of fuel _ (read_term alphabetic F fuel)) by apply erase_read_term.
  destruct (rhs_of F fuel (read_term alphabetic F fuel) s1) as [[[r [|c s2]]|]| |]; cbn [pbind fst]; try reflexivity.
  rewrite erase_read_prod_lhs. reflexivity.
Qed.
Lemma erase_read_grammar fuel s : fst (read_grammar_c alphabetic F fuel s) = read_grammar alphabetic F fuel s.
Proof.
  unfold read_grammar_c, read_grammar. cbn [fst tick]. apply erase_many1. intro r. cbn [fst tick]. apply erase_read_production.
Qed.
End Erase.

Lemma erase_grammar_complete alphabetic F s :
  finish (fst (grammar_complete_c alphabetic F s)) = grammar_complete alphabetic F s.
Proof.
  unfold grammar_complete_c, grammar_complete, parsed_grammar_complete. cbn [fst tick].
  rewrite <- erase_read_grammar, <- erase_plain_grammar.
  destruct (grammar_has_extended_syntax s).
  - cbn [fst]. destruct (all_consuming (fst (read_grammar_c alphabetic F (fuel_for s) s))) as [[g|]| |]; reflexivity.
  - destruct (all_consuming (fst (plain_grammar_c alphabetic F (fuel_for s) s))) as [[g|]| |]; try reflexivity.
    cbn [fst tick]. destruct (all_consuming (fst (read_grammar_c alphabetic F (fuel_for s) s))) as [[g|]| |]; reflexivity.
Qed.
