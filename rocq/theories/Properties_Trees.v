(** C40-C43: formatting of parse trees.  [drawing], [glyphs], [edges], [decodes] are in
    TreeSpec.v. *)
From Verif Require Import Facts_Trees ParseExamples TreeProofs DecimalProofs TreeExamples.

(** C40 *)
Theorem C40_tree_display : forall t, exists lines,
  drawing [] (Sub t) lines /\
  display_tree t = concat (map (fun x => glyphs (fst x) ++ snd x ++ [10%N]) lines) /\
  forall lines', drawing [] (Sub t) lines' -> lines' = lines.
Proof. exact C40_tree_display_proof. Qed.
Print Assumptions C40_tree_display.

(** <s> with three children: a node with an empty right hand side, a node with one child, and a
    leaf. *)
Example C40_example : display_tree draw_example =
  lit "<s> ::= <a> <b> ""y""" ++ [10%N] ++
  [9500; 9472; 9472; 32]%N ++ lit "<a> ::=" ++ [10%N] ++
  [9500; 9472; 9472; 32]%N ++ lit "<b> ::= <c>" ++ [10%N] ++
  [9474; 32; 32; 32; 9492; 9472; 9472; 32]%N ++ lit "<c> ::= ""x""" ++ [10%N] ++
  [9474; 32; 32; 32; 32; 32; 32; 32; 9492; 9472; 9472; 32]%N ++ lit """x""" ++ [10%N] ++
  [9492; 9472; 9472; 32]%N ++ lit """y""" ++ [10%N].
Proof. reflexivity. Qed.

(** C41 *)
Theorem C41_mermaid : forall t, all_nonterminal t -> exists es,
  edges 0 t es /\
  display_mermaid t = Ok (lit "flowchart TD" ++ [10%N] ++ concat (map (fun e =>
    dec (fst (fst e)) ++ lit "[""" ++ escape_mermaid_label (snd (fst e)) ++ lit """] --> " ++
    dec (fst (snd e)) ++ lit "[""" ++ escape_mermaid_label (snd (snd e)) ++ lit """]" ++ [10%N]) es)).
Proof. exact display_mermaid_spec. Qed.
Print Assumptions C41_mermaid.

(** Every node except the root is the target of exactly one line, in pre-order, and its parent
    has a smaller number. *)
Theorem C41_targets : forall n t es, edges n t es ->
  map (fun e => fst (snd e)) es = seq (n + 1) (tree_size t - 1) /\
  forall e, In e es -> n <= fst (fst e) /\ fst (fst e) < fst (snd e).
Proof. exact (proj1 edges_numbers). Qed.
Print Assumptions C41_targets.

(** The numbers in these texts (and in generated names, C38 and C54) are written in decimal. *)
Theorem C41_numbers : forall s n, (decimal s n <-> s = dec_N n) /\ (forall m, n = N.of_nat m -> dec m = dec_N n).
Proof. exact C41_numbers_proof. Qed.
Print Assumptions C41_numbers.

Example C41_example : display_mermaid draw_example = Ok (
  lit "flowchart TD" ++ [10%N] ++
  lit "0[""s""] --> 1[""a""]" ++ [10%N] ++
  lit "0[""s""] --> 2[""b""]" ++ [10%N] ++
  lit "2[""b""] --> 3[""c""]" ++ [10%N] ++
  lit "3[""c""] --> 4[""x""]" ++ [10%N] ++
  lit "0[""s""] --> 5[""y""]" ++ [10%N]).
Proof. reflexivity. Qed.
Example C41_hypothesis : all_nonterminal draw_example.
Proof.
  constructor. intros t [E|[E|[E|[]]]]; [| |discriminate]; injection E as <-; constructor;
    [intros ? []|]. intros t [E|[]]. injection E as <-. constructor. intros t [E|[]]. discriminate.
Qed.

(** C42 *)
Theorem C42_reversible : forall s, decodes (escape_mermaid_label s) s.
Proof. exact escape_decodes. Qed.
Print Assumptions C42_reversible.
Theorem C42_decoding_unique : forall s t t', decodes s t -> decodes s t' -> t = t'.
Proof. exact C42_decoding_unique_proof. Qed.
Print Assumptions C42_decoding_unique.
Theorem C42_distinct : forall s s', escape_mermaid_label s = escape_mermaid_label s' -> s = s'.
Proof. exact escape_inj. Qed.
Print Assumptions C42_distinct.
Theorem C42_safe : forall s c, In c (escape_mermaid_label s) -> mermaid_special c -> c = 35%N \/ c = 59%N.
Proof. exact escape_safe. Qed.
Print Assumptions C42_safe.
Theorem C42_others_unchanged : forall s, (forall c, In c s -> ~ mermaid_special c) -> escape_mermaid_label s = s.
Proof. exact escape_plain. Qed.
Print Assumptions C42_others_unchanged.

Example C42_example : escape_mermaid_label (lit "a<b>#34;") = lit "a#60;b#62;#35;34#59;" /\
  (forall c, In c (lit "plain text") -> ~ mermaid_special c).
Proof.
  split; [reflexivity|]. intros c H Hs. apply special_dec in Hs. revert c H Hs.
  apply (proj1 (Forall_forall (fun c => existsb (N.eqb c) mermaid_escape_chars = true -> False) (lit "plain text"))).
  repeat constructor; discriminate.
Qed.

(** C43 *)
Theorem C43_no_panic : forall g start input it ts it' t,
  (forall p, In p g -> exists n, p_lhs p = Nonterminal n) ->
  opens g start input it -> produces it ts it' -> In t ts ->
  exists s, display_mermaid t = Ok s.
Proof. exact C43_no_panic_proof. Qed.
Print Assumptions C43_no_panic.

Example C43_example : (forall p, In p sum_grammar -> exists n, p_lhs p = Nonterminal n) /\
  exists it ts it' t, opens sum_grammar (N_ "e") (lit sum_input) it /\ produces it ts it' /\ In t ts.
Proof.
  split; [intros p [<-|[]]; eexists; reflexivity|].
  destruct sum_run as (H1 & H2 & _).
  eexists _, _, _, (List.hd (Node (N_ "") []) (trees_of sum_grammar (N_ "e") sum_input 3)).
  split; [exact H1|]. split; [exact H2|]. vm_compute. left; reflexivity.
Qed.

(** A grammar built by hand with a terminal as left hand side passes validation and parses, but
    its trees cannot be formatted as Mermaid. *)
Theorem C43_terminal_lhs_refuted : exists g p it t it', build_parser id_order g = ROk p /\
  parse_input p (lit "b") = Ok it /\ iter_next 100 it = Ok (Some t, it') /\ display_mermaid t = Panic.
Proof. exact C43_terminal_lhs_refuted_proof. Qed.
Print Assumptions C43_terminal_lhs_refuted.
