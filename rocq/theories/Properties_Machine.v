(** C108: the functions that compute with [usize] do not overflow.  Machine.v has them once more with
    words that hold the numbers up to [umax]; [checks] tells whether the build checks for overflow. *)
From Verif Require Import Machine MachineProofs TextSpec FormatSpec TextExamples ParseExamples TreeSpec TreeDepth NormalizeSpec StrategyProofs Facts_Strategies Facts_Machine.
From Coq Require String.
Import String.StringSyntax.
Open Scope list_scope.

(** The words themselves. *)
Theorem C108_words : forall umax a b, a <= umax -> b <= umax ->
  word_add false umax a b = Ok ((a + b) mod S umax) /\ word_sub false umax a b = Ok ((a + S umax - b) mod S umax) /\
  word_add true umax a b = (if a + b <=? umax then Ok (a + b) else Panic) /\
  word_sub true umax a b = (if b <=? a then Ok (a - b) else Panic).
Proof. exact words_spec. Qed.
Print Assumptions C108_words.

(** Parsing: an input whose length fits into a word is enough. *)
Theorem C108_opening : forall checks umax p input start, byte_len input <= umax ->
  iter_new_w checks umax p input start = iter_new p input start.
Proof. exact opening_words. Qed.
Print Assumptions C108_opening.

Theorem C108_parsing : forall checks umax input, byte_len input <= umax ->
  forall g start it ts it1 fuel, opens g start input it -> produces it ts it1 ->
  iter_next_w checks umax fuel it1 = iter_next fuel it1.
Proof. exact parsing_words. Qed.
Print Assumptions C108_parsing.

(** Reading a grammar: a text whose length fits is enough. *)
Theorem C108_reading : forall checks umax alphabetic N s, alphabetic_ok alphabetic -> List.length s <= umax ->
  grammar_complete_w checks umax alphabetic (format_of N) s = grammar_complete alphabetic (format_of N) s.
Proof. exact reading_words. Qed.
Print Assumptions C108_reading.

(** The same for the formats of users that C99 is about. *)
Theorem C108_reading_format : forall checks umax alphabetic F s, alphabetic_ok alphabetic -> separable alphabetic F -> List.length s <= umax ->
  grammar_complete_w checks umax alphabetic F s = grammar_complete alphabetic F s.
Proof. exact reading_words_format. Qed.
Print Assumptions C108_reading_format.

(** The counter of the generated names is bounded by the productions, groups and optionals. *)
Theorem C108_names : forall checks umax pg, List.length pg + count_all pg <= umax ->
  normalize_w checks umax pg = normalize_parsed_grammar pg.
Proof. exact normalize_words. Qed.
Print Assumptions C108_names.

(** Formatting: the number of nodes (Mermaid) or the height of the tree fits. *)
Theorem C108_mermaid : forall checks umax t, tree_size t <= S umax -> display_mermaid_w checks umax t = display_mermaid t.
Proof. exact mermaid_words. Qed.
Print Assumptions C108_mermaid.

Theorem C108_display : forall checks umax t, height t <= umax -> display_tree_w checks umax t = Ok (display_tree t).
Proof. exact display_words. Qed.
Print Assumptions C108_display.

(** Generation: the number of nested calls fits. *)
Theorem C108_generation : forall checks umax S (choose : S -> nat -> production -> nat -> res (option expression * S)) accept g tries levels fuel st,
  levels <= umax -> generate_w checks umax choose accept g tries levels fuel st = generate_deep choose accept g tries levels fuel st.
Proof. exact @generate_words. Qed.
Print Assumptions C108_generation.

(** Small words: inside of the bounds nothing happens, one below them the build with checks panics. *)
Example C108_example :
  (exists it it1 it2, opens three_grammar (N_ "s") (lit "aa") it /\ byte_len (lit "aa") = 2 /\ produces it [Node (N_ "s") [Leaf (lit "a"); Leaf (lit "a")]] it1 /\
     iter_next_w true 2 9 it = Ok (Some (Node (N_ "s") [Leaf (lit "a"); Leaf (lit "a")]), it1) /\ iter_next_w false 2 9 it1 = Ok (None, it2)) /\
  (exists it t it1 it2, opens three_grammar (N_ "s") (lit "aaa") it /\ iter_next 9 it = Ok (Some t, it1) /\
     iter_next_w true 2 9 it = Panic /\ iter_next_w false 2 9 it = Ok (None, it2)) /\
  (let s := lit "<s> ::= ('a' ['b']) ('c')" in List.length s = 25 /\
     exists g, grammar_complete ascii_alpha BNF s = Ok (Some g) /\ List.length g = 4 /\
       grammar_complete_w true 25 ascii_alpha BNF s = Ok (Some g) /\ grammar_complete_w true 2 ascii_alpha BNF s = Panic) /\
  (List.length three_groups + count_all three_groups = 5 /\ normalize_w true 5 three_groups = normalize_parsed_grammar three_groups /\
   normalize_w true 3 three_groups = Panic /\ normalize_w false 2 three_groups = OutOfFuel) /\
  (tree_size chain3 = 4 /\ height chain3 = 3 /\ display_mermaid_w true 3 chain3 = display_mermaid chain3 /\ display_mermaid_w true 2 chain3 = Panic /\
   display_tree_w true 3 chain3 = Ok (display_tree chain3) /\ display_tree_w true 2 chain3 = Panic) /\
  (generate_w true 4 (depth_bounded (const_rng 0) 3) (pure_callback (fun _ _ => true)) [two_alts] 5 4 9 tt = Ok (ROk (lit "baaa"), tt) /\
   generate_w true 2 (depth_bounded (const_rng 0) 3) (pure_callback (fun _ _ => true)) [two_alts] 5 4 9 tt = Panic).
Proof. exact machine_example. Qed.
