(** Reading with the machine's counter, and the examples of C108. *)
From Verif Require Import Machine MachineProofs SizeProofs FormatSpec FormatProofs TextMain TextExamples ParseExamples TreeSpec TreeDepth NormalizeSpec StrategyProofs Facts_Strategies.
From Coq Require String.
Import String.StringSyntax.
Open Scope list_scope.

Lemma reading_words checks umax alphabetic N s : alphabetic_ok alphabetic -> List.length s <= umax ->
  grammar_complete_w checks umax alphabetic (format_of N) s = grammar_complete alphabetic (format_of N) s.
Proof.
  intros Ha Hl. unfold grammar_complete_w, grammar_complete.
  destruct (parsed_grammar_complete alphabetic (format_of N) s) as [[pg|]| |] eqn:E; cbn [rbind]; try reflexivity.
  apply (read_grammar_sound alphabetic Ha N) in E. apply text_size in E. rewrite normalize_words by lia. reflexivity.
Qed.

Lemma format_weight alphabetic F toks s : separable alphabetic F -> format_spells alphabetic F toks s -> toks_weight toks <= List.length s.
Proof.
  intros (d & ds & Hd & _). induction 1 as [s H|tok text lay rest toks Ht Hl Ho Hn Hs IH]; [cbn; lia|].
  rewrite toks_weight_cons, !app_length. assert (tok_weight tok <= List.length text); [|lia].
  clear - Ht Hd. destruct Ht; cbn; rewrite ?Hd, ?app_length; cbn; lia.
Qed.
Lemma reading_words_format checks umax alphabetic F s : alphabetic_ok alphabetic -> separable alphabetic F -> List.length s <= umax ->
  grammar_complete_w checks umax alphabetic F s = grammar_complete alphabetic F s.
Proof.
  intros Ha HF Hl. unfold grammar_complete_w, grammar_complete.
  destruct (parsed_grammar_complete alphabetic F s) as [[pg|]| |] eqn:E; cbn [rbind]; try reflexivity.
  apply (FormatProofs.read_grammar_sound alphabetic F (conj Ha HF)) in E. destruct E as (lay & rest & toks & -> & _ & _ & Hp & Hs).
  apply (format_weight _ _ _ _ HF) in Hs. apply productions_size in Hp. rewrite app_length in Hl.
  rewrite normalize_words by lia. reflexivity.
Qed.

Lemma opening_words checks umax p input start : byte_len input <= umax ->
  iter_new_w checks umax p input start = iter_new p input start.
Proof. intro H. apply iter_new_w_eq. exact H. Qed.

Lemma words_spec umax a b : a <= umax -> b <= umax ->
  word_add false umax a b = Ok ((a + b) mod S umax) /\ word_sub false umax a b = Ok ((a + S umax - b) mod S umax) /\
  word_add true umax a b = (if a + b <=? umax then Ok (a + b) else Panic) /\
  word_sub true umax a b = (if b <=? a then Ok (a - b) else Panic).
Proof.
  intros Ha Hb. unfold word_add, word_sub. destruct (Nat.leb_spec (a + b) umax) as [H|H]; destruct (Nat.leb_spec b a) as [K|K]; repeat split; f_equal.
  - symmetry. apply Nat.mod_small. lia.
  - replace (a + S umax - b) with (a - b + 1 * S umax) by lia. rewrite Nat.mod_add by discriminate. symmetry. apply Nat.mod_small. lia.
  - symmetry. apply Nat.mod_small. lia.
  - rewrite Nat.mod_small by lia. lia.
  - replace (a + b) with (a + b - S umax + 1 * S umax) at 2 by lia. rewrite Nat.mod_add by discriminate. symmetry. apply Nat.mod_small. lia.
  - replace (a + S umax - b) with (a - b + 1 * S umax) by lia. rewrite Nat.mod_add by discriminate. symmetry. apply Nat.mod_small. lia.
  - replace (a + b) with (a + b - S umax + 1 * S umax) at 2 by lia. rewrite Nat.mod_add by discriminate. symmetry. apply Nat.mod_small. lia.
  - rewrite Nat.mod_small by lia. lia.
Qed.

(** Both kinds of build on a machine whose words hold 0, 1 and 2. *)
Definition three_grammar : grammar := [mkProd (N_ "s") [[T_ "aaa"]; [T_ "a"; T_ "a"]]].
Definition three_groups : parsed_grammar :=
  [mkParsed (lit "s") [[Group [[Simple (T_ "a")]]; Optional [[Simple (T_ "b")]]; Group [[Simple (T_ "c")]]; Group [[Simple (T_ "d")]]]]].
Definition chain3 : ptree := Node (N_ "s") [Sub (Node (N_ "s") [Sub (Node (N_ "s") [Leaf (lit "a")])])].

Lemma machine_example :
  (exists it it1 it2, opens three_grammar (N_ "s") (lit "aa") it /\ byte_len (lit "aa") = 2 /\ produces it [Node (N_ "s") [Leaf (lit "a"); Leaf (lit "a")]] it1 /\
     iter_next_w true 2 9 it = Ok (Some (Node (N_ "s") [Leaf (lit "a"); Leaf (lit "a")]), it1) /\ iter_next_w false 2 9 it1 = Ok (None, it2)) /\
  (exists it t it1 it2, opens three_grammar (N_ "s") (lit "aaa") it /\ iter_next 9 it = Ok (Some t, it1) /\
     iter_next_w true 2 9 it = Panic /\ iter_next_w false 2 9 it = Ok (None, it2)) /\
  (let s := lit "<s> ::= ('a' ['b']) ('c')" in List.length s = 25 /\
     exists g, grammar_complete ascii_alpha BNF s = Ok (Some g) /\ List.length g = 4 /\
       grammar_complete_w true 25 ascii_alpha BNF s = Ok (Some g) /\ grammar_complete_w true 2 ascii_alpha BNF s = Panic) /\
  (List.length three_groups + count_all three_groups = 5 /\ normalize_w true 5 three_groups = normalize_parsed_grammar three_groups /\
   normalize_w true 3 three_groups = Panic /\ normalize_w false 2 three_groups = OutOfFuel) /\
  (tree_size chain3 = 4 /\ height chain3 = 3 /\ display_mermaid_w true 3 chain3 = display_mermaid chain3 /\ display_mermaid_w true 2 chain3 = Panic /\
   display_tree_w true 3 chain3 = Ok (display_tree chain3) /\ display_tree_w true 2 chain3 = Panic) /\
  (generate_w true 4 (depth_bounded (const_rng 0) 3) (pure_callback (fun _ _ => true)) [two_alts] 5 4 9 tt = Ok (ROk (lit "baaa"), tt) /\
   generate_w true 2 (depth_bounded (const_rng 0) 3) (pure_callback (fun _ _ => true)) [two_alts] 5 4 9 tt = Panic).
Proof.
  split; [|split; [|split; [|repeat apply conj; vm_compute; reflexivity]]].
  - destruct (run_facts three_grammar (N_ "s") "aa" 1) as (H1 & H2 & H3); [vm_compute; reflexivity..|].
    eexists _, _, _. split; [exact H1|]. split; [reflexivity|]. split; [exact H2|]. split; vm_compute; reflexivity.
  - destruct (run_facts three_grammar (N_ "s") "aaa" 1) as (H1 & H2 & H3); [vm_compute; reflexivity..|].
    eexists _, _, _, _. split; [exact H1|]. split; [vm_compute; reflexivity|]. split; vm_compute; reflexivity.
  - cbv zeta. split; [reflexivity|]. eexists. split; [vm_compute; reflexivity|]. repeat split; vm_compute; reflexivity.
Qed.
