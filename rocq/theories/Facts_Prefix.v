(** How far into the input the parser gets: examples. *)
From Verif Require Import PrefixProofs ParseExamples.
From Coq Require Import String Lia.
Open Scope list_scope.

Lemma leads_chars g start w c : leads g start w -> In c w -> exists p e s, In p g /\ In e (p_rhs p) /\ In (Terminal s) e /\ In c s.
Proof.
  intros (t & b & a & Hd & _ & Hl & ->) Hc. apply in_concat in Hc. destruct Hc as (s & Hs & Hc).
  destruct (leaves_terminals g t Hd s) as (p & e & H1 & H2 & H3); [rewrite Hl; apply in_or_app; left; exact Hs|]. exists p, e, s. auto.
Qed.

Lemma sum_fruitful : fruitful sum_grammar (N_ "e").
Proof.
  assert (H : exists v, generates sum_grammar (lit "e") v).
  { exists (lit "a"), [lit "a"]. split; [|reflexivity]. eapply rewrites_step; [|constructor].
    apply (rewrite_at sum_grammar [] (lit "e") [] (mkProd (N_ "e") [[N_ "e"; T_ "+"; N_ "e"]; [T_ "a"]]) [T_ "a"]);
      [left; reflexivity|reflexivity|right; left; reflexivity]. }
  assert (Hr : forall l, reachable sum_grammar (N_ "e") l -> l = N_ "e").
  { induction 1 as [|l e n Hl IH He Hin]; [reflexivity|]. subst l. vm_compute in He. destruct He as [<-|[<-|[]]]; cbn in Hin;
      repeat (destruct Hin as [Hin|Hin]; [try discriminate; symmetry; exact Hin|]); destruct Hin. }
  intros n Hn. apply Hr in Hn. injection Hn as ->. exact H.
Qed.

Lemma sum_short : short_terminals sum_grammar.
Proof.
  intros p e s Hp He Hs. vm_compute in Hp. destruct Hp as [<-|[]]. cbn in He. destruct He as [<-|[<-|[]]]; cbn in Hs;
    repeat (destruct Hs as [Hs|Hs]; [try discriminate; injection Hs as <-; cbn; lia|]); destruct Hs.
Qed.

Lemma sum_wrong w x : wrong_after sum_grammar (N_ "e") w (98%N :: x).
Proof.
  intros [|c x1] x2 E Hl; [reflexivity|]. exfalso. injection E as <- E.
  destruct (leads_chars _ _ _ 98%N Hl) as (p & e & s & Hp & He & Hs & Hc); [apply in_or_app; right; left; reflexivity|].
  vm_compute in Hp. destruct Hp as [<-|[]]. cbn in He. destruct He as [<-|[<-|[]]]; cbn in Hs;
    repeat (destruct Hs as [Hs|Hs]; [try discriminate; injection Hs as <-; cbn in Hc; destruct Hc as [Hc|[]]; discriminate|]); destruct Hs.
Qed.

Lemma prefix_example :
  fruitful sum_grammar (N_ "e") /\ short_terminals sum_grammar /\
  wrong_after sum_grammar (N_ "e") (lit "a+") (lit "b") /\ wrong_after sum_grammar (N_ "e") (lit "a+") (lit "b+a+a+a") /\
  (exists it f it2, opens sum_grammar (N_ "e") (lit "a+b") it /\ iter_next f it = Ok (None, it2) /\
     arrives it2 2 /\ ~ arrives it2 3 /\ List.length (tt_arena (s_tree (it_state it2))) = 7) /\
  (exists it f it2, opens sum_grammar (N_ "e") (lit "a+b+a+a+a") it /\ iter_next f it = Ok (None, it2) /\
     List.length (tt_arena (s_tree (it_state it2))) = 7).
Proof.
  split; [exact sum_fruitful|]. split; [exact sum_short|]. split; [apply sum_wrong|]. split; [apply sum_wrong|]. split.
  - destruct (run_facts sum_grammar (N_ "e") "a+b" 1) as (H1 & _ & _); [vm_compute; reflexivity..|].
    eexists _, 1000, _. split; [exact H1|]. split; [vm_compute; reflexivity|]. split; [|split; [|vm_compute; reflexivity]].
    + eexists. cbn [it_state s_tree tt_arena]. split; [do 5 right; left; reflexivity|vm_compute; reflexivity].
    + intros (t & Ht & E). cbn [it_state s_tree tt_arena] in Ht.
      repeat (destruct Ht as [<-|Ht]; [vm_compute in E; discriminate|]). destruct Ht.
  - destruct (run_facts sum_grammar (N_ "e") "a+b+a+a+a" 1) as (H1 & _ & _); [vm_compute; reflexivity..|].
    eexists _, 1000, _. split; [exact H1|]. split; vm_compute; reflexivity.
Qed.

(** A nonterminal that generates nothing: <s> ::= 'a' <x>, <x> ::= <x> 'c'. *)
Definition barren : grammar := [mkProd (N_ "s") [[T_ "a"; N_ "x"]]; mkProd (N_ "x") [[N_ "x"; T_ "c"]]].
Lemma barren_nothing t : derives barren t -> root t <> N_ "x".
Proof.
  induction t as [l ks IH] using tree_ind'. intros Hd E. cbn [root] in E. subst l. inversion Hd as [p rhs kids Hp Hr Hk E1]; subst kids.
  vm_compute in Hp. destruct Hp as [<-|[<-|[]]]; [discriminate|]. cbn in Hr. destruct Hr as [<-|[]].
  inversion Hk as [| |n t r ks' Hroot Ht Hk']; subst. exact (IH t (or_introl eq_refl) Ht Hroot).
Qed.
Lemma fruitful_needed : exists g start input it f it2 k, opens g start input it /\ iter_next f it = Ok (None, it2) /\ arrives it2 k /\
  forall w, ~ leads g start w.
Proof.
  exists barren, (N_ "s"), (lit "ab").
  destruct (run_facts barren (N_ "s") "ab" 1) as (H1 & _ & _); [vm_compute; reflexivity..|].
  eexists _, 1000, _, 1. split; [exact H1|]. split; [vm_compute; reflexivity|]. split.
  - eexists. cbn [it_state s_tree tt_arena]. split; [do 1 right; left; reflexivity|vm_compute; reflexivity].
  - intros w ([l ks] & _ & _ & Hd & Hroot & _). cbn [root] in Hroot. subst l. inversion Hd as [p rhs kids Hp Hr Hk E1]; subst kids.
    vm_compute in Hp. destruct Hp as [<-|[<-|[]]]; [|discriminate]. cbn in Hr. destruct Hr as [<-|[]].
    inversion Hk as [|s r ks' Hk' |]; subst. inversion Hk' as [| |n t r ks'' Hroot Ht Hk'']; subst. exact (barren_nothing t Ht Hroot).
Qed.

(** A terminal of two characters is matched as a whole: <s> ::= 'ab'. *)
Lemma short_needed : exists g start input it f it2 w v, fruitful g start /\ opens g start input it /\ iter_next f it = Ok (None, it2) /\
  input = w ++ v /\ viable g start w /\ ~ arrives it2 (byte_len w).
Proof.
  exists [mkProd (N_ "s") [[T_ "ab"]]], (N_ "s"), (lit "ac").
  assert (Ht : parses [mkProd (N_ "s") [[T_ "ab"]]] (N_ "s") (lit "ab") (Node (N_ "s") [Leaf (lit "ab")])).
  { split; [|split; reflexivity]. apply (derives_node _ (mkProd (N_ "s") [[T_ "ab"]]) [T_ "ab"]); [left; reflexivity|left; reflexivity|repeat constructor]. }
  destruct (run_facts [mkProd (N_ "s") [[T_ "ab"]]] (N_ "s") "ac" 1) as (H1 & _ & _); [vm_compute; reflexivity..|].
  eexists _, 1000, _, (lit "a"), (lit "c"). split; [|split; [exact H1|]; split; [vm_compute; reflexivity|]; split; [reflexivity|]; split].
  - intros n Hn. assert (E : forall l, reachable [mkProd (N_ "s") [[T_ "ab"]]] (N_ "s") l -> l = N_ "s").
    { induction 1 as [|l e m Hl IH He Hin]; [reflexivity|]. subst l. vm_compute in He. destruct He as [<-|[]]. destruct Hin as [Hin|[]]. discriminate. }
    apply E in Hn. injection Hn as ->. exists (lit "ab"). apply generates_parses. eexists. exact Ht.
  - exists (lit "b"). eexists. exact Ht.
  - intros (t & Hin & E). cbn [it_state s_tree tt_arena] in Hin. destruct Hin as [<-|[]]. vm_compute in E. discriminate.
Qed.
