(** The dialogue between the generator and its strategy and callback, specified independently of
    the generator model. *)
From Verif Require Export GenSpec.

(** One question and its answer: the strategy is asked to choose from a production at some depth,
    or the callback is asked about a nonterminal and its text. *)
Inductive event : Type :=
| Chose (p : production) (depth : nat) (answer : option expression)
| Asked (n w : str) (answer : bool).

(** There is an alternative to choose. *)
Definition choosable (p : production) : Prop := p_rhs p <> [] /\ p_rhs p <> [[]].

(** [dialogue g bad none d n evs r]: expanding the nonterminal [n] at nesting depth [d] takes the
    questions and answers [evs], in this order, and ends with [r]; [bad] and [none] are the two
    errors.  The terms of the chosen alternative are expanded from left to right, one level
    deeper, before the callback is asked about their text; if it refuses, everything is done
    again at the same depth; the first error ends it. *)
Inductive dialogue (g : grammar) (bad none : error) : nat -> str -> list event -> result str -> Prop :=
| dl_undefined d n : ~ has_lhs g n -> dialogue g bad none d n [] (ROk n)
| dl_bad d n p : first_for g n p -> ~ choosable p -> dialogue g bad none d n [] (RErr bad)
| dl_none d n p : first_for g n p -> choosable p -> dialogue g bad none d n [Chose p d None] (RErr none)
| dl_error d n p e evs x : first_for g n p -> choosable p -> dialogues g bad none (d + 1) e evs (RErr x) ->
    dialogue g bad none d n (Chose p d (Some e) :: evs) (RErr x)
| dl_accept d n p e evs w : first_for g n p -> choosable p -> dialogues g bad none (d + 1) e evs (ROk w) ->
    dialogue g bad none d n (Chose p d (Some e) :: evs ++ [Asked n w true]) (ROk w)
| dl_reject d n p e evs w evs' r : first_for g n p -> choosable p -> dialogues g bad none (d + 1) e evs (ROk w) ->
    dialogue g bad none d n evs' r ->
    dialogue g bad none d n (Chose p d (Some e) :: evs ++ Asked n w false :: evs') r
with dialogues (g : grammar) (bad none : error) : nat -> expression -> list event -> result str -> Prop :=
| dls_nil d : dialogues g bad none d [] [] (ROk [])
| dls_terminal d s e evs w : dialogues g bad none d e evs (ROk w) -> dialogues g bad none d (Terminal s :: e) evs (ROk (s ++ w))
| dls_terminal_error d s e evs x : dialogues g bad none d e evs (RErr x) -> dialogues g bad none d (Terminal s :: e) evs (RErr x)
| dls_nonterminal d n e evs evs' v w : dialogue g bad none d n evs (ROk v) -> dialogues g bad none d e evs' (ROk w) ->
    dialogues g bad none d (Nonterminal n :: e) (evs ++ evs') (ROk (v ++ w))
| dls_nonterminal_error d n e evs evs' v x : dialogue g bad none d n evs (ROk v) -> dialogues g bad none d e evs' (RErr x) ->
    dialogues g bad none d (Nonterminal n :: e) (evs ++ evs') (RErr x)
| dls_stop d n e evs x : dialogue g bad none d n evs (RErr x) -> dialogues g bad none d (Nonterminal n :: e) evs (RErr x).

Scheme dialogue_mind := Induction for dialogue Sort Prop
  with dialogues_mind := Induction for dialogues Sort Prop.
Combined Scheme dialogue_mutind from dialogue_mind, dialogues_mind.
