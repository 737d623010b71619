(** C16-C21 and C26: generation.  [first_for], [expansion], [lawful], [distinct_lhs] and
    [no_lone_epsilon] are in GenSpec.v; [derives], [generates] in EarleySpec.v. *)
From Verif Require Import Facts_Generation ParseExamples StrategyProofs.

(** [choose] ranges over all strategies with any private state [S], [accept] over all callbacks
    (they may share the state), [fuel] over all running times. *)

(** C16 *)
Theorem C16_generated_sentences : forall S (choose : S -> nat -> production -> nat -> res (option expression * S))
    accept g fuel st w st',
  lawful choose ->
  generate choose accept g fuel st = Ok (ROk w, st') ->
  exists n p rest, g = p :: rest /\ p_lhs p = Nonterminal n /\
    expansion g (fun _ _ => True) (Nonterminal n) w.
Proof. exact C16_generated_sentences_proof. Qed.
Print Assumptions C16_generated_sentences.

(** "a+a" from the choices 0, 1, 1; an undefined nonterminal gives its name. *)
Example C16_example :
  generate_random script_rng (fun _ _ => true) sum_grammar 20 [0; 1; 1] = Ok (ROk (lit "a+a"), []) /\
  generate_random script_rng (fun _ _ => true) [mkProd (N_ "s") [[T_ "x"]; [N_ "undef"; T_ "!"]]] 20 [1]
    = Ok (ROk (lit "undef!"), []) /\
  lawful (random_walk script_rng).
Proof. split; [reflexivity|]. split; [reflexivity|]. apply lawful_random_walk. Qed.

(** C17 *)
Theorem C17_generate_then_parse : forall S (choose : S -> nat -> production -> nat -> res (option expression * S))
    accept ho g p fuel st w st',
  lawful choose -> build_parser ho g = ROk p ->
  generate choose accept g fuel st = Ok (ROk w, st') ->
  exists it fuel' t it', parse_input p w = Ok it /\ iter_next fuel' it = Ok (Some t, it').
Proof. exact C17_generate_then_parse_proof. Qed.
Print Assumptions C17_generate_then_parse.

Example C17_example : (exists p, build_parser id_order eps_grammar = ROk p) /\
  generate_random script_rng (fun _ _ => true) eps_grammar 20 [0; 1; 1] = Ok (ROk (lit "x"), []).
Proof. split; [eexists|]; reflexivity. Qed.

(** C18: the same run with a log of the calls of the callback that returned true
    ([logged_choose], [logged_accept] in GenProofs.v only add the log): every expanded
    nonterminal, with its text, is in the log. *)
Theorem C18_callback_approves : forall S (choose : S -> nat -> production -> nat -> res (option expression * S))
    accept g fuel st w st',
  lawful choose ->
  generate choose accept g fuel st = Ok (ROk w, st') ->
  exists n p rest log, g = p :: rest /\ p_lhs p = Nonterminal n /\
    generate (logged_choose choose) (logged_accept accept) g fuel (st, []) = Ok (ROk w, (st', log)) /\
    expansion g (fun n' w' => In (n', w') log) (Nonterminal n) w.
Proof. exact C18_callback_approves_proof. Qed.
Print Assumptions C18_callback_approves.

(** For a callback that is a function of its arguments: it holds of every expanded nonterminal,
    and of the result itself. *)
Theorem C18_pure_callback : forall S (choose : S -> nat -> production -> nat -> res (option expression * S))
    f g fuel st w st',
  lawful choose ->
  generate choose (pure_callback f) g fuel st = Ok (ROk w, st') ->
  exists n p rest, g = p :: rest /\ p_lhs p = Nonterminal n /\ f n w = true /\
    expansion g (fun n' w' => f n' w' = true) (Nonterminal n) w.
Proof. exact C18_pure_callback_proof. Qed.
Print Assumptions C18_pure_callback.

(** The callback accepts only texts of at least three characters for <e> (or "a"), so the
    first attempt at the starting rule is retried. *)
Example C18_example :
  generate_random script_rng (fun n w => Nat.leb 3 (List.length w)) [mkProd (N_ "e") [[T_ "ab"]; [T_ "abc"; N_ "u"]]] 20 [0; 0; 1]
    = Ok (ROk (lit "abcu"), []).
Proof. reflexivity. Qed.

(** C19 *)
Theorem C19_guard_ends : forall fuel g, List.length g < fuel -> exists b, terminates fuel g = Ok b.
Proof. exact terminates_ends. Qed.
Print Assumptions C19_guard_ends.

Theorem C19_guard_decides : forall fuel g b, terminates fuel g = Ok b ->
  (b = true <-> match starting_term g with
                | None => True
                | Some start => exists tr, derives g tr /\ root tr = start
                end).
Proof. exact terminates_spec. Qed.
Print Assumptions C19_guard_decides.

(** The error is reported exactly when the grammar has productions and the first production's
    left hand side derives no finite tree. *)
Theorem C19_guard_message : forall S (choose : S -> nat -> production -> nat -> res (option expression * S)) accept g st,
  (exists fuel st', generate choose accept g fuel st =
     Ok (RErr (GenerateError (lit "Can't generate, first rule in grammar doesn't lead to a terminal state")), st')) <->
  exists start, starting_term g = Some start /\ ~ exists tr, derives g tr /\ root tr = start.
Proof. exact C19_guard_message_proof. Qed.
Print Assumptions C19_guard_message.

(** Two mutually recursive rules without exit, and one with. *)
Example C19_example :
  terminates 5 [mkProd (N_ "a") [[N_ "b"; T_ "x"]]; mkProd (N_ "b") [[N_ "a"]]; mkProd (N_ "c") [[T_ "c"]]] = Ok false /\
  terminates 5 [mkProd (N_ "a") [[N_ "b"; T_ "x"]]; mkProd (N_ "b") [[N_ "a"]; [N_ "c"]]; mkProd (N_ "c") [[T_ "c"]]] = Ok true.
Proof. split; reflexivity. Qed.

(** C20 *)
Theorem C20_guard_safe : forall g p rest n fuel0,
  g = p :: rest -> p_lhs p = Nonterminal n -> distinct_lhs g -> no_lone_epsilon g ->
  terminates fuel0 g = Ok true ->
  exists script w k, forall fuel, k <= fuel ->
    generate_random script_rng (fun _ _ => true) g fuel script = Ok (ROk w, []).
Proof. exact C20_guard_safe_proof. Qed.
Print Assumptions C20_guard_safe.

Example C20_example : distinct_lhs eps_grammar /\ no_lone_epsilon eps_grammar /\ terminates 10 eps_grammar = Ok true.
Proof.
  split; [|split; [|reflexivity]].
  - unfold distinct_lhs. cbn. repeat constructor; cbn; intuition discriminate.
  - intros p [<-|[<-|[<-|[]]]]; discriminate.
Qed.

(** <s> ::= <s> ; <s> ::= 'a' : accepted by the guard, but the second rule is never used. *)
Theorem C20_guard_safe_refuted : exists g,
  terminates 5 g = Ok true /\
  (forall S (choose : S -> nat -> production -> nat -> res (option expression * S)) accept fuel st w st',
     lawful choose -> generate choose accept g fuel st <> Ok (ROk w, st')) /\
  (forall R (rng : rng_ops R) f fuel r, generate_random rng f g fuel r = OutOfFuel).
Proof. exact C20_guard_safe_refuted_proof. Qed.
Print Assumptions C20_guard_safe_refuted.

(** <s> ::= (one empty alternative): accepted by the guard, the empty string is a sentence, but
    every run ends with an error. *)
Theorem C20_lone_epsilon_refuted : exists g,
  terminates 5 g = Ok true /\ generates g (lit "s") [] /\
  forall S (choose : S -> nat -> production -> nat -> res (option expression * S)) accept fuel st r st',
    generate choose accept g fuel st = Ok (r, st') -> r = RErr (GenerateError (lit "Production has no choosable alternative!")).
Proof. exact C20_lone_epsilon_refuted_proof. Qed.
Print Assumptions C20_lone_epsilon_refuted.

(** C21: [generate] is a function of its arguments; more time does not change a result. *)
Theorem C21_more_time : forall S (choose : S -> nat -> production -> nat -> res (option expression * S)) accept g f f' st r,
  generate choose accept g f st = Ok r -> f <= f' -> generate choose accept g f' st = Ok r.
Proof. exact C21_more_time_proof. Qed.
Print Assumptions C21_more_time.

Theorem C21_reproducible : forall S (choose : S -> nat -> production -> nat -> res (option expression * S)) accept g f f' st r r',
  generate choose accept g f st = Ok r -> generate choose accept g f' st = Ok r' -> r = r'.
Proof. exact C21_reproducible_proof. Qed.
Print Assumptions C21_reproducible.

Example C21_example :
  generate_random script_rng (fun _ _ => true) sum_grammar 5 [0; 1; 0; 1; 1] = Ok (ROk (lit "a+a+a"), []).
Proof. reflexivity. Qed.

(** C26 *)
Theorem C26_every_sentence : forall g n p rest w,
  g = p :: rest -> p_lhs p = Nonterminal n -> distinct_lhs g -> no_lone_epsilon g ->
  generates g n w ->
  exists script k, forall fuel, k <= fuel ->
    generate_random script_rng (fun _ _ => true) g fuel script = Ok (ROk w, []).
Proof. exact C26_every_sentence_proof. Qed.
Print Assumptions C26_every_sentence.

Example C26_example : distinct_lhs sum_grammar /\ no_lone_epsilon sum_grammar /\ generates sum_grammar (lit "e") (lit "a+a").
Proof.
  split; [unfold distinct_lhs; cbn; repeat constructor; auto|].
  split; [intros p [<-|[]]; discriminate|].
  apply generates_parses. pose (leaf := Node (N_ "e") [Leaf (lit "a")]).
  assert (Hleaf : derives sum_grammar leaf).
  { apply (derives_node _ (mkProd (N_ "e") [[N_ "e"; T_ "+"; N_ "e"]; [T_ "a"]]) [T_ "a"]);
      [left; reflexivity|right; left; reflexivity|repeat constructor]. }
  exists (Node (N_ "e") [Sub leaf; Leaf (lit "+"); Sub leaf]). split; [|split; reflexivity].
  apply (derives_node _ (mkProd (N_ "e") [[N_ "e"; T_ "+"; N_ "e"]; [T_ "a"]]) [N_ "e"; T_ "+"; N_ "e"]);
    [left; reflexivity|left; reflexivity|]. repeat (constructor; try assumption; try reflexivity).
Qed.

(** <s> ::= 'a' ; <s> ::= 'b' : "b" is a sentence and is parsed, but is never generated. *)
Theorem C26_every_sentence_refuted : exists g n w, generates g n w /\
  forall S (choose : S -> nat -> production -> nat -> res (option expression * S)) accept fuel st st',
    lawful choose -> generate choose accept g fuel st <> Ok (ROk w, st').
Proof. exact C26_every_sentence_refuted_proof. Qed.
Print Assumptions C26_every_sentence_refuted.
