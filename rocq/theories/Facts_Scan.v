(** The last steps to C82. *)
From Verif Require Export ScanProofs Facts_Text TextExamples.
From Coq Require Import Lia.
From Coq Require String.
Import String.StringSyntax.

Lemma C82_groups_proof : forall alphabetic N s pg, alphabetic_ok alphabetic ->
  parsed_grammar_complete alphabetic (format_of N) s = Ok (Some pg) -> ~ In 59%N s -> plain_names pg ->
  (grammar_has_extended_syntax s = true <-> uses_groups pg).
Proof. intros al N s pg Hal H. apply (grammar_exact al Hal N) in H. apply (extended_groups al N pg s H). Qed.

Lemma C82_fast_path_proof : forall alphabetic N s g, alphabetic_ok alphabetic ->
  (all_consuming (plain_grammar alphabetic (format_of N) (fuel_for s) s) = Ok (Some g) <->
   2 <= length g /\ exists pg, Forall2 (fun p p' => plain p = Some p') g pg /\ grammar_text alphabetic N pg s).
Proof. intros al N s g Hal. apply plain_grammar_exact. exact Hal. Qed.

Lemma no_groups pg : count_all pg = 0 -> ~ uses_groups pg.
Proof.
  assert (Hsum : forall (A : Type) (f : A -> nat) l x, In x l -> list_sum (map f l) = 0 -> f x = 0).
  { intros A f l x Hin. induction l as [|y l IH]; [destruct Hin|]. change (list_sum (map f (y :: l))) with (f y + list_sum (map f l)).
    intro H. destruct Hin as [->|Hin]; [lia|]. apply IH; [exact Hin|lia]. }
  intros H (es & Ho).
  assert (Hx : forall t', count_groups t' <> 0 -> ~ occurs_in t' pg).
  { intros t' Hne (p & e & t & Hp & He & Ht & Hoc). unfold count_all in H.
    pose proof (Hsum _ _ _ _ Hp H) as H1. cbn beta in H1. pose proof (Hsum _ _ _ _ He H1) as H2. cbn beta in H2. pose proof (Hsum _ _ _ _ Ht H2) as H3.
    inversion Hoc; subst; [contradiction|cbn in H3; discriminate|cbn in H3; discriminate]. }
  destruct Ho as [Ho|Ho]; [apply (Hx (Group es))|apply (Hx (Optional es))]; cbn; auto.
Qed.

(** Texts without groups in which the scan finds a bracket: in a comment and in a name; a text
    with a group that it misses, because of the apostrophe in a comment. *)
Definition comment_text : str := lines [lit "<a> ::= 'x' ; (sic)"; lit "<b> ::= <a>"].
Definition bracket_name_text : str := lines [lit "<f(x)> ::= 'x'"; lit "<b> ::= <f(x)>"].
Definition apostrophe_text : str := lines [lit "; don't"; lit "<a> ::= ('x' | 'y')"; lit "<b> ::= <a>"].

Lemma C82_comment_refuted_proof : forall alphabetic, exists s pg,
  parsed_grammar_complete alphabetic BNF s = Ok (Some pg) /\ plain_names pg /\ ~ uses_groups pg /\ grammar_has_extended_syntax s = true.
Proof.
  intro al. exists comment_text. eexists. split; [vm_compute; reflexivity|]. split; [|split; [apply no_groups; reflexivity|reflexivity]].
  intros n [[<-|[<-|[]]]|H].
  1,2: intros c [<-|[]]; unfold quote, opening; cbn; split; intuition discriminate.
  destruct H as (p & e & t & [<-|[<-|[]]] & [<-|[]] & [<-|[]] & Ho); inversion Ho; subst.
  intros c [<-|[]]; unfold quote, opening; cbn; split; intuition discriminate.
Qed.

Lemma C82_name_refuted_proof : forall alphabetic, exists s pg,
  parsed_grammar_complete alphabetic BNF s = Ok (Some pg) /\ ~ In 59%N s /\ ~ uses_groups pg /\ grammar_has_extended_syntax s = true.
Proof.
  intro al. exists bracket_name_text. eexists. split; [vm_compute; reflexivity|].
  split; [vm_compute; intuition discriminate|]. split; [apply no_groups; reflexivity|reflexivity].
Qed.

Lemma C82_missed_refuted_proof : forall alphabetic, exists s pg,
  parsed_grammar_complete alphabetic BNF s = Ok (Some pg) /\ plain_names pg /\ uses_groups pg /\ grammar_has_extended_syntax s = false.
Proof.
  intro al. exists apostrophe_text. eexists. split; [vm_compute; reflexivity|]. split; [|split; [|reflexivity]].
  - intros n [[<-|[<-|[]]]|H].
    1,2: intros c [<-|[]]; unfold quote, opening; cbn; split; intuition discriminate.
    destruct H as (p & e & t & [<-|[<-|[]]] & [<-|[]] & [<-|[]] & Ho); inversion Ho as [|es e t Hi Ht Ho2|]; subst.
    + destruct Hi as [<-|[<-|[]]]; destruct Ht as [<-|[]]; inversion Ho2.
    + intros c [<-|[]]; unfold quote, opening; cbn; split; intuition discriminate.
  - eexists. left. eexists _, _, _. repeat split; [left; reflexivity|left; reflexivity|left; reflexivity|]. apply occurs_here.
Qed.
