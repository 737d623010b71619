(** Proofs of the theorems of Properties_GenErrors.v. *)
From Verif Require Import ErrorProofs Facts_Ends ParseExamples.
From Coq Require String.
Import String.StringSyntax.

Lemma C79_causes_proof : forall S (choose : S -> nat -> production -> nat -> res (option expression * S)) accept g fuel st x st',
  lawful choose -> generate choose accept g fuel st = Ok (RErr x, st') -> exists m, x = GenerateError m /\
  ((m = lit "Can't generate, first rule in grammar doesn't lead to a terminal state" /\
    exists p rest, g = p :: rest /\ ~ exists tr, derives g tr /\ root tr = p_lhs p) \/
   (m = lit "Failed to get first production!" /\ g = []) \/
   (exists p rest s, m = lit "Terminal type cannot define a production in '" ++ display_production p ++ lit "'!" /\
    g = p :: rest /\ p_lhs p = Terminal s) \/
   (m = lit "Production has no choosable alternative!" /\
    exists p rest start n q, g = p :: rest /\ p_lhs p = Nonterminal start /\
      clos_refl_trans _ (calls g) start n /\ first_for g n q /\ (p_rhs q = [] \/ p_rhs q = [[]])) \/
   (m = lit "Couldn't select random Expression!" /\
    exists st1 addr q depth st2, nth_error g addr = Some q /\ choose st1 addr q depth = Ok (None, st2))).
Proof.
  intros S choose accept g fuel st x st' Hlaw H. unfold generate in H.
  destruct (terminates fuel g) as [b| |] eqn:Et; cbn [rbind] in H; try discriminate.
  pose proof (terminates_spec _ _ _ Et) as Hs. destruct b; cbn [negb] in H.
  - destruct g as [|p rest] eqn:Eg.
    + injection H as <- <-. eexists. split; [reflexivity|]. right. left. split; reflexivity.
    + destruct (p_lhs p) as [s|n] eqn:El.
      * injection H as <- <-. eexists. split; [reflexivity|]. right. right. left. exists p, rest, s. repeat split. assumption.
      * rewrite <- Eg in *. apply (traverse_causes choose accept g Hlaw n) in H; [|apply rt_refl].
        destruct H as [(n' & q & Hr & Hf & Hq & ->)|(st1 & addr & q & d & st2 & Hn & Hc & ->)]; (eexists; split; [reflexivity|]).
        -- right. right. right. left. split; [reflexivity|]. exists p, rest, n, n', q. repeat split; assumption.
        -- right. right. right. right. split; [reflexivity|]. exists st1, addr, q, d, st2. split; assumption.
  - injection H as <- <-. eexists. split; [reflexivity|]. left. split; [reflexivity|].
    destruct g as [|p rest]; [destruct Hs as [_ Hs]; discriminate (Hs I)|]. exists p, rest. split; [reflexivity|].
    intro Hp. apply Hs in Hp. discriminate.
Qed.

Lemma C79_first_proof : forall S (choose : S -> nat -> production -> nat -> res (option expression * S)) accept fuel st,
  generate choose accept [] fuel st = Ok (RErr (GenerateError (lit "Failed to get first production!")), st) /\
  forall p rest s, p_lhs p = Terminal s -> (exists tr, derives (p :: rest) tr /\ root tr = p_lhs p) -> length (p :: rest) < fuel ->
    generate choose accept (p :: rest) fuel st =
      Ok (RErr (GenerateError (lit "Terminal type cannot define a production in '" ++ display_production p ++ lit "'!")), st).
Proof.
  intros S choose accept fuel st. split; [reflexivity|]. intros p rest s Hl Hp Hf. unfold generate.
  destruct (terminates_ends fuel (p :: rest) Hf) as [b Eb]. rewrite Eb. cbn [rbind].
  assert (b = true) as -> by (apply (terminates_spec _ _ _ Eb); exact Hp). cbn [negb]. rewrite Hl. reflexivity.
Qed.

Lemma C79_refusal_proof : forall S (choose : S -> nat -> production -> nat -> res (option expression * S)) accept g p rest n fuel st st',
  g = p :: rest -> p_lhs p = Nonterminal n -> (exists tr, derives g tr /\ root tr = p_lhs p) -> length g < fuel ->
  p_rhs p <> [] -> p_rhs p <> [[]] -> choose st 0 p 0 = Ok (None, st') ->
  generate choose accept g fuel st = Ok (RErr (GenerateError (lit "Couldn't select random Expression!")), st').
Proof.
  intros S choose accept g p rest n fuel st st' Eg Hl Hp Hf H1 H2 Hc. unfold generate.
  destruct (terminates_ends fuel g Hf) as [b Eb]. rewrite Eb. cbn [rbind].
  assert (b = true) as -> by (apply (terminates_spec _ _ _ Eb); rewrite Eg in *; exact Hp). cbn [negb]. rewrite Eg at 1. rewrite Hl.
  destruct fuel as [|fuel]; [lia|]. cbn [traverse]. rewrite Eg. cbn [find_production]. rewrite Hl, term_eqb_refl.
  assert (Enc : production_has_no_choice p = false).
  { apply not_true_iff_false. rewrite no_choice_spec. intros [H|H]; contradiction. }
  rewrite Enc, Hc. reflexivity.
Qed.

Lemma C79_strategies_proof : forall R (rng : rng_ops R),
  (forall max, lawful (random_walk rng) /\ lawful (depth_bounded rng max) /\ lawful (coverage_guided rng)) /\
  (forall checks rec nonrec, lawful (weighted rng checks rec nonrec)) /\
  forall addr p depth, p_rhs p <> [] ->
  (forall r r', random_walk rng r addr p depth <> Ok (None, r')) /\ (forall max r r', depth_bounded rng max r addr p depth <> Ok (None, r')) /\
  (forall c c', coverage_guided rng c addr p depth <> Ok (None, c')) /\
  (forall checks rec nonrec r r', weighted rng checks rec nonrec r addr p depth <> Ok (None, r')).
Proof.
  intros R rng. split; [|split].
  - intro max. split; [apply lawful_random_walk|]. split; [apply lawful_depth_bounded|apply lawful_coverage_guided].
  - intros. apply lawful_weighted.
  - intros addr p depth Hp. split; [|split; [|split]].
    + intros r r' E. destruct (Facts_Strategies.C22_random_walk_proof R rng r addr p depth Hp) as (e & r2 & E2 & _). congruence.
    + intros max r r' E. destruct (Facts_Strategies.C22_depth_bounded_proof R rng max r addr p depth Hp) as (e & r2 & E2 & _). congruence.
    + intros c c' E. destruct (Facts_Strategies.C22_coverage_guided_proof R rng c addr p depth Hp) as (e & r2 & E2 & _). congruence.
    + intros checks rec nonrec r r' E. destruct checks.
      * destruct (N.ltb_spec (nsum (fill_weights rec nonrec p)) (2 ^ 32)) as [Hlt|Hge].
        -- destruct (Facts_Strategies.C22_weighted_proof R rng true rec nonrec r addr p depth Hp (or_intror Hlt)) as (e & r2 & E2 & _). congruence.
        -- rewrite weighted_overflow_panics in E by assumption. discriminate.
      * destruct (Facts_Strategies.C22_weighted_proof R rng false rec nonrec r addr p depth Hp (or_introl eq_refl)) as (e & r2 & E2 & _). congruence.
Qed.

(** <s> ::= 'a' | <e> ; <e> has one empty alternative. *)
Definition dead_end : grammar := [mkProd (N_ "s") [[T_ "a"]; [N_ "e"]]; mkProd (N_ "e") [[]]].
