(** The log of a small parse. *)
From Verif Require Export Tracing TracingSpec TracingProofs.
From Verif Require Import ParseExamples Decimals.
From Coq Require Import String List.
Import ListNotations.
Open Scope list_scope.

(** An entry in short. *)
Definition short (x : entry) : str :=
  match x with
  | Enter n => lit "> " ++ n
  | Leave n => lit "< " ++ n
  | Said (QueuePop t) => lit "pop " ++ dec (t_id t)
  | Said (Predicted i) => lit "predicted " ++ dec i
  | Said (PriorCompleted i) => lit "prior " ++ dec i
  | Said (Scanned i) => lit "scanned " ++ dec i
  | Said (Completed i) => lit "completed " ++ dec i
  | Said (FoundTree _) => lit "tree"
  end.
Definition is_event (x : entry) : bool := match x with Said _ => true | _ => false end.

(** <s> ::= <p> <p> ; <p> ::= '' | 'x' *)
Definition twice_grammar : grammar := [mkProd (N_ "s") [[N_ "p"; N_ "p"]]; mkProd (N_ "p") [[T_ ""]; [T_ "x"]]].

Definition opened : piter * log := out (grammar_parse_input_starting_with_t twice_grammar (lit "x") (N_ "s")) (dummy_iter, []).
Definition call_after (it : piter) : option ptree * piter * log := out (iter_next_t 100 it) ((None, dummy_iter), []).
Definition call1 := call_after (fst opened).
Definition call2 := call_after (snd (fst call1)).
Definition call3 := call_after (snd (fst call2)).

Lemma opened_facts : opens_t twice_grammar (N_ "s") (lit "x") (fst opened) (snd opened).
Proof. apply opens_t_deprecated_with. vm_compute. reflexivity. Qed.

Lemma call_facts it o it1 l : call_after it = ((o, it1), l) -> is_Ok (iter_next_t 100 it) = true -> iter_next_t 100 it = Ok ((o, it1), l).
Proof. unfold call_after. destruct (iter_next_t 100 it) as [a| |]; cbn; intros H1 H2; try discriminate. congruence. Qed.

Lemma calls_facts : exists t1 t2 it, produces_t (fst opened) [t1; t2] it (snd call1 ++ snd call2) /\ iter_next_t 100 it = Ok ((None, snd (fst call3)), snd call3).
Proof.
  destruct call1 as [[[t1|] it1] l1] eqn:E1; [|exfalso; assert (X : match fst (fst call1) with Some _ => true | None => false end = true) by (vm_compute; reflexivity); rewrite E1 in X; discriminate].
  destruct call2 as [[[t2|] it2] l2] eqn:E2; [|exfalso; assert (X : match fst (fst call2) with Some _ => true | None => false end = true) by (vm_compute; reflexivity); rewrite E2 in X; discriminate].
  destruct call3 as [[[t3|] it3] l3] eqn:E3; [exfalso; assert (X : match fst (fst call3) with Some _ => true | None => false end = false) by (vm_compute; reflexivity); rewrite E3 in X; discriminate|].
  assert (X1 : is_Ok (iter_next_t 100 (fst opened)) = true) by (vm_compute; reflexivity).
  assert (X2 : is_Ok (iter_next_t 100 (snd (fst call1))) = true) by (vm_compute; reflexivity).
  assert (X3 : is_Ok (iter_next_t 100 (snd (fst call2))) = true) by (vm_compute; reflexivity).
  exists t1, t2, it2. cbn [fst snd]. split.
  - econstructor; [apply call_facts; [exact E1|exact X1]|]. rewrite <- (app_nil_r l2). econstructor; [|constructor].
    rewrite E1 in X2. apply call_facts; [|exact X2]. unfold call2 in E2. rewrite E1 in E2. exact E2.
  - rewrite E2 in X3. apply call_facts; [|exact X3]. unfold call3 in E3. rewrite E2 in E3. exact E3.
Qed.

Lemma C105_example_proof :
  opens_t twice_grammar (N_ "s") (lit "x") (fst opened) (snd opened) /\
  (exists t1 t2 it, produces_t (fst opened) [t1; t2] it (snd call1 ++ snd call2) /\ iter_next_t 100 it = Ok ((None, snd (fst call3)), snd call3)) /\
  map short (snd opened) = map lit
    ["> GrammarParser::new_unchecked"; "> ParseGrammar_new_unchecked"; "< ParseGrammar_new_unchecked"; "< GrammarParser::new_unchecked";
     "> earley::parse_with_parser_rc"; "> ParseTreeIter::new"; "> traversal_tree_predict_is_starting"; "< traversal_tree_predict_is_starting";
     "< ParseTreeIter::new"; "< earley::parse_with_parser_rc"]%string /\
  map short (filter is_event (snd call1)) = map lit
    ["pop 0"; "predicted 1"; "predicted 2"; "pop 1"; "scanned 3"; "pop 2"; "scanned 4"; "pop 3"; "completed 5"; "pop 4"; "completed 6";
     "pop 5"; "predicted 1"; "predicted 2"; "prior 7"; "prior 8"; "pop 6"; "predicted 9"; "predicted 10"; "pop 7"; "pop 8"; "tree"]%string /\
  map short (snd call2) = map lit
    ["> earley"; "pop 9"; "> Scan"; "> match_term"; "< match_term"; "scanned 11"; "< Scan"; "pop 10"; "> Scan"; "< Scan";
     "pop 11"; "> Complete"; "> insert"; "< insert"; "> get_incomplete"; "< get_incomplete"; "> match_term"; "< match_term"; "completed 12"; "< Complete";
     "pop 12"; "> Complete"; "> insert"; "< insert"; "> get_incomplete"; "< get_incomplete"; "< Complete"; "< earley";
     "> next_parse_tree"; "> match_iter_new"; "< match_iter_new";
     "> match_iter_next"; "< match_iter_next"; "> match_iter_new"; "< match_iter_new"; "> match_iter_next"; "< match_iter_next"; "> match_iter_next"; "< match_iter_next";
     "> match_iter_next"; "< match_iter_next"; "> match_iter_new"; "< match_iter_new"; "> match_iter_next"; "< match_iter_next"; "> match_iter_next"; "< match_iter_next";
     "> match_iter_next"; "< match_iter_next"; "tree"; "< next_parse_tree"]%string /\
  map short (snd call3) = map lit ["> earley"; "< earley"]%string /\
  shown (snd call2) = [newline ++ lit "<s> ::= <p> <p>" ++ newline ++ child_prefix ++ lit "<p> ::= ""x""" ++ newline ++
    grandchild_prefix ++ last_child_prefix ++ lit """x""" ++ newline ++ last_child_prefix ++ lit "<p> ::= """"" ++ newline ++
    last_grandchild_prefix ++ last_child_prefix ++ lit """""" ++ newline].
Proof. split; [exact opened_facts|]. split; [exact calls_facts|]. split; [vm_compute; reflexivity|]. split; [vm_compute; reflexivity|]. split; [vm_compute; reflexivity|]. split; vm_compute; reflexivity. Qed.
