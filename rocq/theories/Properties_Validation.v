(** C13-C15: validation.  [refers], [has_lhs] and [has_alt] are in GrammarSpec.v. *)
From Verif Require Import ParseExamples.

(** C13 *)
Theorem C13_validate : forall ho g,
  (validate ho g = ROk tt <-> g <> [] /\ forall x, refers g x -> has_lhs g x) /\
  (forall e, validate ho g = RErr e ->
     (g = [] /\ e = ValidationError (lit "Grammar must have at least one production")) \/
     (g <> [] /\ exists x, e = ValidationError (lit "Undefined nonterminals: <" ++ x ++ lit ">") /\
                           refers g x /\ ~ has_lhs g x)).
Proof. exact validate_spec. Qed.
Print Assumptions C13_validate.

Example C13_example : validate id_order sum_grammar = ROk tt /\
  validate id_order [mkProd (N_ "a") [[N_ "b"]]] = RErr (ValidationError (lit "Undefined nonterminals: <b>")).
Proof. split; reflexivity. Qed.

(** C14 *)
Theorem C14_build_parser : forall ho g,
  ((exists p, build_parser ho g = ROk p) <-> g <> [] /\ forall x, refers g x -> has_alt g x) /\
  (forall e, build_parser ho g = RErr e ->
     (g = [] /\ e = ValidationError (lit "Grammar must have at least one production")) \/
     (g <> [] /\ exists x, e = ValidationError (lit "Undefined nonterminals: <" ++ x ++ lit ">") /\
                           refers g x /\ ~ has_alt g x)).
Proof. exact build_parser_spec. Qed.
Print Assumptions C14_build_parser.

Example C14_example : (exists p, build_parser id_order eps_grammar = ROk p) /\
  build_parser id_order [mkProd (N_ "a") [[N_ "b"]]; mkProd (N_ "b") []] =
    RErr (ValidationError (lit "Undefined nonterminals: <b>")).
Proof. split; [eexists|]; reflexivity. Qed.

(** C15 *)
Theorem C15_agreement : forall ho ho' g, (forall p, In p g -> p_rhs p <> []) ->
  (validate ho g = ROk tt <-> exists p, build_parser ho' g = ROk p).
Proof. exact validate_build_agree. Qed.
Print Assumptions C15_agreement.

Theorem C15_build_implies_validate : forall ho ho' g p,
  build_parser ho' g = ROk p -> validate ho g = ROk tt.
Proof. exact build_implies_validate. Qed.
Print Assumptions C15_build_implies_validate.

Example C15_example : (forall p, In p eps_grammar -> p_rhs p <> []) /\ validate id_order eps_grammar = ROk tt.
Proof.
  split; [|reflexivity]. intros p [<-|[<-|[<-|[]]]]; discriminate.
Qed.

(** Without the hypothesis the claim is false. *)
Theorem C15_agreement_refuted : exists g, forall ho ho',
  validate ho g = ROk tt /\ forall p, build_parser ho' g <> ROk p.
Proof. exact (ex_intro _ _ agree_counterexample). Qed.
Print Assumptions C15_agreement_refuted.
