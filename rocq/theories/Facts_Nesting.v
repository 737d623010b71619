(** The example of C74. *)
From Verif Require Import NestingProofs TreeDepth GenDepth TextExamples ParseExamples StrategyProofs Facts_Strategies.
From Coq Require String.
Import String.StringSyntax.

Lemma right_acyclic : ~ cyclic right_grammar.
Proof.
  apply acyclic_if_guarded. intros p e n [<-|[]] He Hn. exists (lit "a"). cbn in He. destruct He as [<-|[<-|[]]]; (split; [left; reflexivity|discriminate]).
Qed.
Lemma depth_example :
  (exists pg, parsed_grammar_complete ascii_alpha BNF (lit "<a> ::= ('x' [('y' | 'z')] ['w']) 'v'") = Ok (Some pg) /\ nesting_all pg = 3 /\
     complete_deep ascii_alpha BNF 4 (lit "<a> ::= ('x' [('y' | 'z')] ['w']) 'v'") = Ok (Some pg) /\
     complete_deep ascii_alpha BNF 3 (lit "<a> ::= ('x' [('y' | 'z')] ['w']) 'v'") = OutOfFuel) /\
  brackets (lit "<a> ::= ('x' [('y' | 'z')] ['w']) 'v'") = 4 /\
  (exists it, opens right_grammar (N_ "s") (lit "aaa") it /\ ~ live_cycle right_grammar (N_ "s") (lit "aaa") /\
     (exists t it', iter_next 20 it = Ok (Some t, it') /\ height t = 3) /\ iter_next_deep 2 20 it = OutOfFuel) /\
  ((forall p, In p [two_alts] -> exists e, In e (p_rhs p) /\ forall n, ~ In (Nonterminal n) e) /\
   generate_deep (depth_bounded (const_rng 0) 3) (pure_callback (fun _ _ => true)) [two_alts] 5 4 9 tt = Ok (ROk (lit "baaa"), tt) /\
   generate_deep (depth_bounded (const_rng 0) 3) (pure_callback (fun _ _ => true)) [two_alts] 5 3 9 tt = OutOfFuel).
Proof.
  split; [|split; [reflexivity|split]].
  - eexists. split; [vm_compute; reflexivity|]. split; [reflexivity|]. split; vm_compute; reflexivity.
  - eexists. split; [apply opens_deprecated_with; vm_compute; reflexivity|]. split; [intro H; exact (right_acyclic (live_cycle_cyclic _ _ _ H))|].
    split; [|vm_compute; reflexivity]. eexists _, _. split; [vm_compute; reflexivity|reflexivity].
  - split; [|split; vm_compute; reflexivity]. intros p [<-|[]]. exists [T_ "b"]. split; [right; left; reflexivity|]. intros n [H|[]]. discriminate.
Qed.
