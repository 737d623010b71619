(** Examples and counterexamples for rules without left recursion. *)
From Verif Require Export LeftEnds LeftCopies CombineProofs ParseExamples PrefixSpec.
From Verif Require Import ExtendProofs EarleyExact SimplifyProofs SimplifyEnds.
From Coq Require Import Permutation.
From Coq Require Import String.
Import String.StringSyntax.
Open Scope string_scope.
Open Scope list_scope.

(** Sums of numbers and names [n], written with left recursion. *)
Definition sum_left : grammar := left_rules [] (lit "e") [[T_ "+"; N_ "e"]; [T_ "!"]] [[N_ "n"]] [mkProd (N_ "n") [[T_ "a"]; [T_ "b"]]].
Definition sum_right : grammar := right_rules [] (lit "e") (lit "r") [[T_ "+"; N_ "e"]; [T_ "!"]] [[N_ "n"]] [mkProd (N_ "n") [[T_ "a"]; [T_ "b"]]].

Lemma left_shape :
  sum_left = [mkProd (N_ "e") [[N_ "e"; T_ "+"; N_ "e"]; [N_ "e"; T_ "!"]; [N_ "n"]]; mkProd (N_ "n") [[T_ "a"]; [T_ "b"]]] /\
  sum_right = [mkProd (N_ "e") [[N_ "n"; N_ "r"]]; mkProd (N_ "r") [[T_ "+"; N_ "e"; N_ "r"]; [T_ "!"; N_ "r"]; [T_ ""]]; mkProd (N_ "n") [[T_ "a"]; [T_ "b"]]].
Proof. split; reflexivity. Qed.

Lemma left_conditions : ~ has_lhs [mkProd (N_ "n") [[T_ "a"]; [T_ "b"]]] (lit "e") /\ ~ has_lhs sum_left (lit "r") /\ ~ refers sum_left (lit "r") /\
  (forall y, In y [[N_ "n"]] -> ~ begins_with (lit "e") y) /\ NoDup (flat_prods sum_left).
Proof.
  split; [intros (p & Hp & E); cbn in Hp; destruct Hp as [<-|[]]; discriminate E|].
  split; [intros (p & Hp & E); cbn in Hp; destruct Hp as [<-|[<-|[]]]; discriminate E|].
  split; [|split; [intros y [<-|[]] (r & E); discriminate E|repeat constructor; cbn; intuition discriminate]].
  intros (p & e & Hp & He & Hn). cbn in Hp. destruct Hp as [<-|[<-|[]]]; cbn in He;
    repeat (destruct He as [<-|He]; [cbn in Hn; intuition discriminate|]); destruct He.
Qed.

Lemma left_example :
  (exists ts ts', all_trees sum_left (lit "e") (lit "a+b!+a") ts /\ all_trees sum_right (lit "e") (lit "a+b!+a") ts' /\ List.length ts = 3 /\ List.length ts' = 3) /\
  turn_tree (lit "e") (lit "r") (Node (N_ "e") [Sub (Node (N_ "e") [Sub (Node (N_ "n") [Leaf (lit "a")])]); Leaf (lit "!")]) =
  Node (N_ "e") [Sub (Node (N_ "n") [Leaf (lit "a")]); Sub (Node (N_ "r") [Leaf (lit "!"); Sub (Node (N_ "r") [Leaf []])])].
Proof.
  split; [|vm_compute; reflexivity].
  exists (trees_of sum_left (N_ "e") "a+b!+a" 8), (trees_of sum_right (N_ "e") "a+b!+a" 8).
  split; [apply (ran sum_left (lit "e") "a+b!+a" 8); vm_compute; reflexivity|].
  split; [apply (ran sum_right (lit "e") "a+b!+a" 8); vm_compute; reflexivity|]. split; vm_compute; reflexivity.
Qed.

Lemma returned_accepts g n w t ts : all_trees g n w (t :: ts) -> accepts g n w.
Proof. intro H. apply accepts_iff. exists t. apply (all_trees_iff _ _ _ _ H). left. reflexivity. Qed.
Lemma none_accepts g n w : all_trees g n w [] -> ~ accepts g n w.
Proof. intros H Ha. apply accepts_iff in Ha. destruct Ha as (t & Ht). apply (all_trees_iff _ _ _ _ H) in Ht. destruct Ht. Qed.
Lemma all_known g start input k ts : all_trees g start (lit input) (trees_of g (Nonterminal start) input k) -> trees_of g (Nonterminal start) input k = ts -> all_trees g start (lit input) ts.
Proof. intros H <-. exact H. Qed.

(** The name for the rest is used already. *)
Lemma left_used : exists g1 a b xs ys g2 n w, ~ has_lhs (g1 ++ g2) a /\ n <> b /\
  ~ accepts (left_rules g1 a xs ys g2) n w /\ accepts (right_rules g1 a b xs ys g2) n w.
Proof.
  exists [], (lit "s"), (lit "r"), [[T_ "x"]], [[T_ "y"; N_ "r"]], [mkProd (N_ "r") [[T_ "z"]]], (lit "s"), (lit "y").
  split; [intros (p & Hp & E); cbn in Hp; destruct Hp as [<-|[]]; discriminate E|]. split; [discriminate|]. split.
  - apply none_accepts. apply (all_known _ _ "y" 3); [|vm_compute; reflexivity]. apply (ran _ (lit "s") "y" 3); vm_compute; reflexivity.
  - eapply returned_accepts. apply (all_known _ _ "y" 4); [|vm_compute; reflexivity]. apply (ran _ (lit "s") "y" 4); vm_compute; reflexivity.
Qed.

(** The name has alternatives elsewhere. *)
Lemma left_elsewhere : exists g1 a b xs ys g2 n w, ~ has_lhs (left_rules g1 a xs ys g2) b /\ ~ refers (left_rules g1 a xs ys g2) b /\ n <> b /\
  accepts (left_rules g1 a xs ys g2) n w /\ ~ accepts (right_rules g1 a b xs ys g2) n w.
Proof.
  exists [], (lit "s"), (lit "r"), [[T_ "x"]], [[T_ "y"]], [mkProd (N_ "s") [[T_ "z"]]], (lit "s"), (lit "zx").
  split; [intros (p & Hp & E); cbn in Hp; destruct Hp as [<-|[<-|[]]]; discriminate E|]. split.
  - intros (p & e & Hp & He & Hn). cbn in Hp. destruct Hp as [<-|[<-|[]]]; cbn in He; repeat (destruct He as [<-|He]; [cbn in Hn; intuition discriminate|]); destruct He.
  - split; [discriminate|]. split.
    + eapply returned_accepts. apply (all_known _ _ "zx" 4); [|vm_compute; reflexivity]. apply (ran _ (lit "s") "zx" 4); vm_compute; reflexivity.
    + apply none_accepts. apply (all_known _ _ "zx" 3); [|vm_compute; reflexivity]. apply (ran _ (lit "s") "zx" 3); vm_compute; reflexivity.
Qed.

(** One of the other alternatives begins with the name as well. *)
Lemma left_begins : exists g1 a b xs ys g2 n w ts ts', ~ has_lhs (g1 ++ g2) a /\ ~ has_lhs (left_rules g1 a xs ys g2) b /\ ~ refers (left_rules g1 a xs ys g2) b /\ n <> b /\
  NoDup (flat_prods (left_rules g1 a xs ys g2)) /\ all_trees (left_rules g1 a xs ys g2) n w ts /\ all_trees (right_rules g1 a b xs ys g2) n w ts' /\
  ~ Permutation (map (turn_tree a b) ts) ts'.
Proof.
  set (xs := [[T_ "x"]]). set (ys := [[N_ "s"; T_ "w"]; [T_ "y"]]).
  exists [], (lit "s"), (lit "r"), xs, ys, [], (lit "s"), (lit "yw"), (trees_of (left_rules [] (lit "s") xs ys []) (N_ "s") "yw" 4), (trees_of (right_rules [] (lit "s") (lit "r") xs ys []) (N_ "s") "yw" 4).
  split; [intros (p & [] & _)|]. split; [intros (p & Hp & E); cbn in Hp; destruct Hp as [<-|[]]; discriminate E|]. split.
  - intros (p & e & Hp & He & Hn). cbn in Hp. destruct Hp as [<-|[]]; cbn in He; repeat (destruct He as [<-|He]; [cbn in Hn; intuition discriminate|]); destruct He.
  - split; [discriminate|]. split; [repeat constructor; cbn; intuition discriminate|].
    split; [apply (ran _ (lit "s") "yw" 4); vm_compute; reflexivity|]. split; [apply (ran _ (lit "s") "yw" 4); vm_compute; reflexivity|].
    intro P. vm_compute in P. apply Permutation_length_1 in P. discriminate P.
Qed.

(** A rule that derives itself: for the text "x" neither enumeration ends, for "z" both do. *)
Definition loop_left : grammar := left_rules [] (lit "s") [[]] [[T_ "x"]] [].
Definition loop_right : grammar := right_rules [] (lit "s") (lit "r") [[]] [[T_ "x"]] [].
Lemma left_end_example :
  loop_left = [mkProd (N_ "s") [[N_ "s"]; [T_ "x"]]] /\ loop_right = [mkProd (N_ "s") [[T_ "x"; N_ "r"]]; mkProd (N_ "r") [[N_ "r"]; [T_ ""]]] /\
  ~ has_lhs loop_left (lit "r") /\ ~ refers loop_left (lit "r") /\ ~ begins_with (lit "s") [T_ "x"] /\
  (exists it it', opens loop_left (N_ "s") (lit "x") it /\ opens loop_right (N_ "s") (lit "x") it' /\
     ~ (exists ts itf, produces it ts itf /\ exhausted itf) /\ ~ (exists ts itf, produces it' ts itf /\ exhausted itf)) /\
  (exists it it', opens loop_left (N_ "s") (lit "z") it /\ opens loop_right (N_ "s") (lit "z") it' /\
     (exists ts itf, produces it ts itf /\ exhausted itf) /\ (exists ts itf, produces it' ts itf /\ exhausted itf)).
Proof.
  assert (Hb : ~ has_lhs loop_left (lit "r")) by (intros (p & Hp & E); cbn in Hp; destruct Hp as [<-|[]]; discriminate E).
  assert (Hr : ~ refers loop_left (lit "r")).
  { intros (p & e & Hp & He & Hn). cbn in Hp. destruct Hp as [<-|[]]; cbn in He; repeat (destruct He as [<-|He]; [cbn in Hn; intuition discriminate|]); destruct He. }
  assert (Hy : ~ begins_with (lit "s") [T_ "x"]) by (intros (r & E); discriminate E).
  split; [reflexivity|]. split; [reflexivity|]. split; [exact Hb|]. split; [exact Hr|]. split; [exact Hy|]. split.
  - destruct (run_facts loop_left (N_ "s") "x" 0) as (Ho & _ & _); [vm_compute; reflexivity|vm_compute; reflexivity|].
    destruct (run_facts loop_right (N_ "s") "x" 0) as (Ho' & _ & _); [vm_compute; reflexivity|vm_compute; reflexivity|].
    exists (start_of loop_left (N_ "s") "x"), (start_of loop_right (N_ "s") "x"). split; [exact Ho|]. split; [exact Ho'|].
    assert (L : ~ (exists ts itf, produces (start_of loop_left (N_ "s") "x") ts itf /\ exhausted itf)).
    { intro H. apply (proj1 (ends_iff _ _ _ _ Ho) H). exists (lit "s"), [], (lit "x"), []. split; [reflexivity|]. split; [apply predicted_start|]. split.
      - apply generates_seq, seq_name. exists [T_ "x"]. split; [right; left; reflexivity|apply seq_terminal; reflexivity].
      - apply Relation_Operators.t_step, step_alternative. exists [], []. split; [left; reflexivity|split; apply seq_nil]. }
    split; [exact L|]. intro H. apply L.
    apply (proj2 (left_ends [] (lit "s") (lit "r") [[]] [[T_ "x"]] [] (lit "s") _ _ _ (fun H => match H with ex_intro _ _ (conj F _) => match F with end end) Hb Hr ltac:(discriminate) ltac:(intros y [<-|[]]; exact Hy) Ho Ho')). exact H.
  - destruct (run_facts loop_left (N_ "s") "z" 3) as (Ho & Hp & He); [vm_compute; reflexivity|vm_compute; reflexivity|].
    destruct (run_facts loop_right (N_ "s") "z" 3) as (Ho' & Hp' & He'); [vm_compute; reflexivity|vm_compute; reflexivity|].
    exists (start_of loop_left (N_ "s") "z"), (start_of loop_right (N_ "s") "z"). split; [exact Ho|]. split; [exact Ho'|].
    split; eexists _, _; (split; [eassumption|]); [apply He|apply He']; vm_compute; reflexivity.
Qed.

(** An alternative listed twice. *)
Lemma left_twice : exists ts ts', all_trees (left_rules [] (lit "e") [[T_ "+"]; [T_ "+"]] [[T_ "a"]] []) (lit "e") (lit "a++") ts /\
  all_trees (right_rules [] (lit "e") (lit "r") [[T_ "+"]; [T_ "+"]] [[T_ "a"]] []) (lit "e") (lit "a++") ts' /\ List.length ts = 4 /\ List.length ts' = 4.
Proof.
  eexists (trees_of (left_rules [] (lit "e") [[T_ "+"]; [T_ "+"]] [[T_ "a"]] []) (N_ "e") "a++" 8), (trees_of (right_rules [] (lit "e") (lit "r") [[T_ "+"]; [T_ "+"]] [[T_ "a"]] []) (N_ "e") "a++" 8).
  split; [apply (ran _ (lit "e") "a++" 8); vm_compute; reflexivity|]. split; [apply (ran _ (lit "e") "a++" 8); vm_compute; reflexivity|]. split; vm_compute; reflexivity.
Qed.
