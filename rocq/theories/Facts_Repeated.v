(** C83 and C84 when alternatives are listed twice. *)
From Verif Require Export Facts_Ambiguity Facts_Copies CopiesProofs CombineProofs.
From Coq Require Import Lia.
From Coq Require String.
Import String.StringSyntax.

(** <s> ::= 'a' <s> | 'b' and again <s> ::= 'a' <s> *)
Lemma repeated_predictive : predictive twice_grammar.
Proof.
  exists (fun t c => t = N_ "s" /\ In c (lit "ab")). intros l e H. cbn in H.
  repeat (destruct H as [H|H]; [injection H as <- <-; split; [discriminate|split; [discriminate|split]]; cbn|]); try contradiction.
  all: try (intros c Hc; intuition (subst; auto 20; discriminate)).
  all: intros e' c He'; repeat (destruct He' as [He'|He']; [try discriminate He'; injection He' as <-; cbn|]); try contradiction; try reflexivity; try congruence.
  all: intros H1 H2; exfalso; intuition (subst; discriminate).
Qed.

Fixpoint a_tree (n : nat) : ptree :=
  match n with
  | 0 => Node (N_ "s") [Leaf (lit "b")]
  | S n => Node (N_ "s") [Leaf (lit "a"); Sub (a_tree n)]
  end.
Definition a_text (n : nat) : str := repeat 97%N n ++ [98%N].

Lemma a_tree_root n : root (a_tree n) = N_ "s".
Proof. destruct n; reflexivity. Qed.

Lemma a_tree_parses n : parses twice_grammar (N_ "s") (a_text n) (a_tree n).
Proof.
  split; [|split; [apply a_tree_root|]].
  - induction n as [|n IH]; cbn [a_tree].
    + apply (derives_node twice_grammar (mkProd (N_ "s") [[T_ "a"; N_ "s"]; [T_ "b"]]) [T_ "b"]); [left; reflexivity|right; left; reflexivity|repeat constructor].
    + apply (derives_node twice_grammar (mkProd (N_ "s") [[T_ "a"; N_ "s"]; [T_ "b"]]) [T_ "a"; N_ "s"]); [left; reflexivity|left; reflexivity|].
      constructor. constructor; [apply a_tree_root|exact IH|constructor].
  - induction n as [|n IH]; [reflexivity|]. cbn [a_tree]. change (97%N :: yield (a_tree n) ++ [] = a_text (S n)). rewrite IH, app_nil_r. reflexivity.
Qed.

Lemma a_tree_copies n : copies twice_grammar (a_tree n) = 2 ^ n.
Proof.
  induction n as [|n IH]; [vm_compute; reflexivity|]. cbn [a_tree copies]. cbn [fold_right]. rewrite IH.
  assert (E : map term_of [Leaf (lit "a"); Sub (a_tree n)] = [T_ "a"; N_ "s"]) by (cbn [map term_of]; rewrite a_tree_root; reflexivity). rewrite E.
  assert (E2 : count_occ alternative_eq_dec (flat_prods twice_grammar) (N_ "s", [T_ "a"; N_ "s"]) = 2) by (vm_compute; reflexivity). rewrite E2. cbn [Nat.pow]. lia.
Qed.

Lemma trees_stored g start input it ts it1 : opens g start input it -> produces it ts it1 -> length ts <= length (tt_arena (s_tree (it_state it1))).
Proof.
  intros Ho Hp. destruct (run_summary _ _ _ _ _ _ Ho Hp) as (st0 & gh & d & ids & _ & HI & Hnd & Hf & _). rewrite (ti_len _ _ _ _ _ (inv_t _ _ _ _ _ _ HI)).
  assert (El : length ids = length ts) by (clear - Hf; induction Hf; cbn; congruence). rewrite <- El, <- (seq_length (length gh) 0). apply NoDup_incl_length; [exact Hnd|]. intros i Hi. apply in_seq.
  enough (i < length gh) by lia. apply nth_error_Some. clear - Hf Hi. induction Hf as [|i' t ids ts (x & Hx & _) _ IH]; [destruct Hi|]. destruct Hi as [->|Hi]; [congruence|auto].
Qed.

Lemma a_tree_run n it : opens twice_grammar (N_ "s") (a_text n) it ->
  exists ts it1, produces it ts it1 /\ 2 ^ n <= length ts /\ 2 ^ n <= length (tt_arena (s_tree (it_state it1))).
Proof.
  intro Ho. destruct (copies_reached _ _ _ _ _ Ho (a_tree_parses n)) as (ts & it1 & Hp & Hc). exists ts, it1. split; [exact Hp|].
  assert (H : 2 ^ n <= length ts) by (rewrite <- a_tree_copies, <- Hc; apply count_occ_bound). split; [exact H|]. pose proof (trees_stored _ _ _ _ _ _ Ho Hp). lia.
Qed.

Lemma repeated_fruitful : fruitful twice_grammar (N_ "s").
Proof.
  assert (H : forall l, reachable twice_grammar (N_ "s") l -> l = N_ "s").
  { induction 1 as [|l e n Hl IH He Hn]; [reflexivity|]. subst l. cbn in He.
    destruct He as [<-|[<-|[<-|[]]]]; cbn in Hn; repeat (destruct Hn as [Hn|Hn]; [first [discriminate Hn|symmetry; exact Hn]|]); contradiction. }
  intros n Hn. apply H in Hn. injection Hn as ->. exists (a_text 0). apply generates_parses. exists (a_tree 0). apply a_tree_parses.
Qed.

Lemma linear_repeated : exists g start, predictive g /\ forall n, let input := repeat 97%N n ++ [98%N] in
  (exists it, opens g start input it) /\ forall it, opens g start input it ->
    exists ts it1, produces it ts it1 /\ 2 ^ n <= length ts /\ 2 ^ n <= length (tt_arena (s_tree (it_state it1))).
Proof.
  exists twice_grammar, (N_ "s"). split; [exact repeated_predictive|]. intros n input. split; [|exact (a_tree_run n)].
  apply nonempty_opens. discriminate.
Qed.

Lemma quadratic_repeated : exists g start, unambiguous g start /\ fruitful g start /\ forall n, let input := repeat 97%N n ++ [98%N] in
  (exists it, opens g start input it) /\ forall it, opens g start input it ->
    exists ts it1, produces it ts it1 /\ 2 ^ n <= length ts /\ 2 ^ n <= length (tt_arena (s_tree (it_state it1))).
Proof.
  exists twice_grammar, (N_ "s"). split; [|split; [exact repeated_fruitful|]].
  - intros input t t'. apply predictive_one, repeated_predictive.
  - intros n input. split; [|exact (a_tree_run n)].
    apply nonempty_opens. discriminate.
Qed.
