(** C37-C39 and C54: groups and optionals.  The vocabulary ([means], [occurs_in], [lowered], ...) is in
    NormalizeSpec.v; [generates] and [opens] are in EarleySpec.v. *)
From Verif Require Import Facts_Normalize TextExamples NormalizeClosed.
From Coq Require String.
Import String.StringSyntax.

(** ** C37 Groups and optionals keep their meaning *)

Theorem C37_same_language : forall pg g n w, normalize_parsed_grammar pg = Ok g ->
  no_capture pg -> no_empty_group pg -> In n (map pp_lhs pg) ->
  (generates g n w <-> means pg (Simple (Nonterminal n)) w).
Proof. exact C37_same_language_proof. Qed.
Print Assumptions C37_same_language.

(** For grammars read from text. *)
Theorem C37_text_language : forall alphabetic N pg s g n w, alphabetic_ok alphabetic ->
  grammar_text alphabetic N pg s -> grammar_from_str alphabetic s = Ok (ROk g) ->
  no_capture pg -> In n (map pp_lhs pg) ->
  (generates g n w <-> means pg (Simple (Nonterminal n)) w).
Proof. exact C37_text_language_proof. Qed.
Print Assumptions C37_text_language.

(** From text to parse trees: the parser finds a tree for exactly the described strings. *)
Theorem C37_text_to_parses : forall alphabetic N pg s g n input it, alphabetic_ok alphabetic ->
  grammar_text alphabetic N pg s -> grammar_from_str alphabetic s = Ok (ROk g) ->
  no_capture pg -> In n (map pp_lhs pg) -> opens g (Nonterminal n) input it ->
  ((exists fuel t it', iter_next fuel it = Ok (Some t, it')) <-> means pg (Simple (Nonterminal n)) input).
Proof. exact C37_text_to_parses_proof. Qed.
Print Assumptions C37_text_to_parses.

(** Without [no_capture] nothing that is described is lost. *)
Theorem C37_nothing_lost : forall pg g n w, normalize_parsed_grammar pg = Ok g ->
  means pg (Simple (Nonterminal n)) w -> generates g n w.
Proof. exact normalize_language_incl. Qed.
Print Assumptions C37_nothing_lost.

Example C37_example : no_capture bnf_parsed /\ no_empty_group bnf_parsed /\
  normalize_parsed_grammar bnf_parsed = Ok bnf_grammar /\
  means bnf_parsed (Simple (Nonterminal (lit "a"))) (lit "bdxcd") /\
  means bnf_parsed (Simple (Nonterminal (lit "a"))) (lit "it'sd").
Proof.
  split; [apply bnf_no_capture|]. split; [apply bnf_no_empty_group|]. split; [apply bnf_normalized|].
  split; eapply means_rule; try (right; left; reflexivity); try reflexivity; try (left; reflexivity).
  - apply (means_cons _ _ _ (lit "bdxc") (lit "d")); [|apply (means_cons _ _ _ (lit "d") []); constructor].
    eapply means_group; [right; left; reflexivity|].
    apply (means_cons _ _ _ (lit "bdx") (lit "c")).
    + eapply means_rule; [left; reflexivity|reflexivity|left; reflexivity|].
      apply (means_cons _ _ _ (lit "bd") (lit "x")); [|apply (means_cons _ _ _ (lit "x") []); constructor].
      eapply means_rule; [right; left; reflexivity|reflexivity|left; reflexivity|].
      apply (means_cons _ _ _ (lit "b") (lit "d")); [|apply (means_cons _ _ _ (lit "d") []); constructor].
      eapply means_group; [left; reflexivity|]. apply (means_cons _ _ _ (lit "b") []); constructor.
    + apply (means_cons _ _ _ (lit "c") []); [|constructor]. eapply means_optional; [left; reflexivity|].
      apply (means_cons _ _ _ (lit "c") []); constructor.
  - apply (means_cons _ _ _ (lit "it's") (lit "d")); [|apply (means_cons _ _ _ (lit "d") []); constructor].
    eapply means_group; [right; left; reflexivity|].
    apply (means_cons _ _ _ (lit "it's") []).
    + eapply means_rule; [left; reflexivity|reflexivity|right; left; reflexivity|].
      apply (means_cons _ _ _ (lit "it's") []); constructor.
    + apply (means_cons _ _ _ [] []); [|constructor]. apply means_nothing.
Qed.

(** ** C38 Generated names are fresh *)

(** The productions after the user's have pairwise distinct names [__anonK], none of them a left
    hand side of the source, and no number is skipped without need. *)
Theorem C38_names_fresh : forall pg g, normalize_parsed_grammar pg = Ok g ->
  exists user anon, g = user ++ anon /\ length user = length pg /\ NoDup (map p_lhs anon) /\
    forall q, In q anon -> exists k, p_lhs q = Nonterminal (anon_name k) /\ ~ In (anon_name k) (map pp_lhs pg) /\
      forall i, i < k -> In (anon_name i) (map pp_lhs pg) \/ In (Nonterminal (anon_name i)) (map p_lhs anon).
Proof. exact C38_names_fresh_proof. Qed.
Print Assumptions C38_names_fresh.

(** A reserved name that is only referenced is captured: the grammar gets a sentence that its
    text does not describe. *)
Theorem C38_reference_capture_refuted : forall alphabetic, exists s pg g w,
  parsed_grammar_complete alphabetic BNF s = Ok (Some pg) /\ grammar_from_str alphabetic s = Ok (ROk g) /\
  generates g (lit "a") w /\ ~ means pg (Simple (Nonterminal (lit "a"))) w.
Proof. exact C38_reference_capture_refuted_proof. Qed.
Print Assumptions C38_reference_capture_refuted.

Example C38_example : let pg := [mkParsed (anon_name 0) [[Group [[Optional [[Simple (Terminal (lit "x"))]]]]]];
                                 mkParsed (anon_name 2) [[Group [[Simple (Terminal (lit "y"))]]]]] in
  normalize_parsed_grammar pg = Ok [mkProd (Nonterminal (anon_name 0)) [[Nonterminal (anon_name 1)]];
                                    mkProd (Nonterminal (anon_name 2)) [[Nonterminal (anon_name 4)]];
                                    mkProd (Nonterminal (anon_name 3)) [[Terminal (lit "x")]; [Terminal []]];
                                    mkProd (Nonterminal (anon_name 1)) [[Nonterminal (anon_name 3)]];
                                    mkProd (Nonterminal (anon_name 4)) [[Terminal (lit "y")]]].
Proof. vm_compute. reflexivity. Qed.

(** ** C39 Normalization keeps the user's rules *)

(** The user's rules come first, with their names and alternatives; in these only groups and
    optionals are replaced.  After them there is one rule for each group and optional, and
    every such rule has the alternatives of a group or optional of the source. *)
Theorem C39_structure : forall pg g, normalize_parsed_grammar pg = Ok g ->
  exists user anon, g = user ++ anon /\ Forall2 (lowered_production anon) pg user /\
    length anon = count_all pg /\
    forall q, In q anon -> exists t, occurs_in t pg /\ group_rule anon t (p_rhs q).
Proof. exact C39_structure_proof. Qed.
Print Assumptions C39_structure.

Theorem C39_names_and_counts : forall pg g, normalize_parsed_grammar pg = Ok g ->
  length g = length pg + count_all pg /\
  map p_lhs (firstn (length pg) g) = map (fun p => Nonterminal (pp_lhs p)) pg /\
  map (fun p => map (@length term) (p_rhs p)) (firstn (length pg) g) =
  map (fun p => map (@length parsed_term) (pp_rhs p)) pg.
Proof. exact C39_names_and_counts_proof. Qed.
Print Assumptions C39_names_and_counts.

(** The starting rule is the first rule of the source. *)
Theorem C39_starting_rule : forall pg g, normalize_parsed_grammar pg = Ok g -> pg <> [] ->
  starting_term g = option_map (fun p => Nonterminal (pp_lhs p)) (hd_error pg).
Proof. exact C39_starting_rule_proof. Qed.
Print Assumptions C39_starting_rule.

(** A grammar without groups is unchanged. *)
Theorem C39_plain_unchanged : forall g pg, Forall2 (fun p p' => plain p = Some p') g pg ->
  normalize_parsed_grammar pg = Ok g.
Proof. exact normalize_plain. Qed.
Print Assumptions C39_plain_unchanged.

Example C39_example : normalize_parsed_grammar bnf_parsed = Ok bnf_grammar /\ count_all bnf_parsed = 2 /\
  exists pg, Forall2 (fun p p' => plain p = Some p') bnf_grammar pg.
Proof.
  split; [apply bnf_normalized|]. split; [reflexivity|]. eexists. repeat (constructor; [reflexivity|]). constructor.
Qed.

(** ** C54 Normalization in closed form *)

(** The group or optional opened by the k-th bracket gets the k-th reserved name that is not a
    left hand side; the rules for groups and optionals come in the order of the closing
    brackets; the empty string is the last alternative of an optional.  [num] is unique. *)
Theorem C54_closed_form : forall pg,
  exists num, enumerates_free (map pp_lhs pg) num /\
    (forall num', enumerates_free (map pp_lhs pg) num' -> forall k, num' k = num k) /\
    normalize_parsed_grammar pg = Ok (closed_form num pg).
Proof. exact normalize_closed_exists. Qed.
Print Assumptions C54_closed_form.

(** Without reserved names on the left, the names are [__anon0], [__anon1], ... *)
Theorem C54_usual_names : forall pg, (forall i, ~ In (anon_name i) (map pp_lhs pg)) ->
  normalize_parsed_grammar pg = Ok (closed_form (fun k => k) pg).
Proof. exact normalize_closed_usual. Qed.
Print Assumptions C54_usual_names.

Example C54_example : let x := Simple (Terminal (lit "x")) in
  let pg := [mkParsed (lit "a") [[Group [[Optional [[x]; [x; x]]]]]; [x; Optional []; Group [[x]]]]] in
  (forall i, ~ In (anon_name i) (map pp_lhs pg)) /\
  closed_form (fun k => k) pg =
    [mkProd (Nonterminal (lit "a")) [[Nonterminal (lit "__anon0")];
                                     [Terminal (lit "x"); Nonterminal (lit "__anon2"); Nonterminal (lit "__anon3")]];
     mkProd (Nonterminal (lit "__anon1")) [[Terminal (lit "x")]; [Terminal (lit "x"); Terminal (lit "x")]; [Terminal []]];
     mkProd (Nonterminal (lit "__anon0")) [[Nonterminal (lit "__anon1")]];
     mkProd (Nonterminal (lit "__anon2")) [[Terminal []]];
     mkProd (Nonterminal (lit "__anon3")) [[Terminal (lit "x")]]].
Proof. split; [intros i [E|[]]; discriminate|vm_compute; reflexivity]. Qed.
