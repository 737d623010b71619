(** Proofs of the examples of C90 and C91. *)
From Verif Require Export InfixCount Facts_Prefer.
From Coq Require Import String.
Import String.StringSyntax.
Open Scope list_scope.

Lemma sum_infix : infix sum_grammar (lit "e") (lit "+") (lit "a").
Proof.
  intro e. split.
  - intros (p & [<-|[]] & _ & He). cbn in He. destruct He as [<-|[<-|[]]]; [left|right]; eexists; (split; [left; reflexivity|reflexivity]).
  - intros [(o & [<-|[]] & ->)|(a & [<-|[]] & ->)]; eexists; (split; [left; reflexivity|]); (split; [reflexivity|]); [left|right; left]; reflexivity.
Qed.

Lemma derives_atom : derives sum_grammar atom.
Proof. exact (derives_operand _ _ _ _ sum_infix 97%N (or_introl eq_refl)). Qed.
Lemma derives_plus x y : derives sum_grammar x -> derives sum_grammar y -> root x = N_ "e" -> root y = N_ "e" -> derives sum_grammar (plus x y).
Proof.
  intros Hx Hy Rx Ry. change (plus x y) with (Node (p_lhs (mkProd (N_ "e") [[N_ "e"; T_ "+"; N_ "e"]; [T_ "a"]])) [Sub x; Leaf (lit "+"); Sub y]).
  econstructor; [left; reflexivity|left; reflexivity|]. constructor; [exact Rx|exact Hx|]. constructor. constructor; [exact Ry|exact Hy|constructor].
Qed.

Ltac sum_tree := repeat (first [apply derives_atom|apply derives_plus|reflexivity]).

Lemma C90_example_proof :
  let left := plus (plus atom atom) atom in let right := plus atom (plus atom atom) in
  let found := found sum_grammar (N_ "e") (lit "a+a+a") in
  found 10 [] left /\ ~ found 9 [] left /\ found 11 [] right /\ ~ found 10 [] right /\ steps left = 13 /\ steps right = 13.
Proof.
  cbv zeta. set (left := plus (plus atom atom) atom). set (right := plus atom (plus atom atom)).
  assert (Hl : parses sum_grammar (N_ "e") (lit "a+a+a") left) by (split; [unfold left; sum_tree|split; reflexivity]).
  assert (Hr : parses sum_grammar (N_ "e") (lit "a+a+a") right) by (split; [unfold right; sum_tree|split; reflexivity]).
  pose proof (fun k => infix_found _ _ _ _ sum_infix (lit "a+a+a") left left [] left left k Hl (exchange_here _ _)) as Fl.
  pose proof (fun k => infix_found _ _ _ _ sum_infix (lit "a+a+a") right right [] right right k Hr (exchange_here _ _)) as Fr.
  split; [apply Fl; vm_compute; lia|]. split; [intro H; apply Fl in H; vm_compute in H; lia|].
  split; [apply Fr; vm_compute; lia|]. split; [intro H; apply Fr in H; vm_compute in H; lia|]. split; reflexivity.
Qed.

Lemma C91_rotation_refuted_proof : exists g n ops operands input it x o y o' z w t t', infix g n ops operands /\ opens g (Nonterminal n) input it /\
  parses g (Nonterminal n) input t /\ parses g (Nonterminal n) input t' /\
  exchange (operation n (operation n x o y) o' z) (operation n x o (operation n y o' z)) w t t' /\ earlier it t' t.
Proof.
  set (x := plus atom (plus atom (plus atom (plus atom (plus atom atom))))).
  set (input := lit "a+a+a+a+a+a+a+a").
  assert (Ht : parses sum_grammar (N_ "e") input (plus (plus x atom) atom)) by (split; [unfold x; sum_tree|split; reflexivity]).
  assert (Ht' : parses sum_grammar (N_ "e") input (plus x (plus atom atom))) by (split; [unfold x; sum_tree|split; reflexivity]).
  exists sum_grammar, (lit "e"), (lit "+"), (lit "a"), input, (start_of sum_grammar (N_ "e") "a+a+a+a+a+a+a+a"), x, 43%N, atom, 43%N, atom, [],
    (plus (plus x atom) atom), (plus x (plus atom atom)).
  assert (Ho : opens sum_grammar (N_ "e") input (start_of sum_grammar (N_ "e") "a+a+a+a+a+a+a+a")) by (apply opens_deprecated_with; vm_compute; reflexivity).
  assert (Hx : exchange (plus (plus x atom) atom) (plus x (plus atom atom)) [] (plus (plus x atom) atom) (plus x (plus atom atom))) by constructor.
  split; [exact sum_infix|]. split; [exact Ho|]. split; [exact Ht|]. split; [exact Ht'|]. split; [exact Hx|].
  apply (infix_rounds _ _ _ _ sum_infix input _ _ _ _ _ _ Ho Ht Hx); [exact (proj1 Ht')|reflexivity|reflexivity|]. vm_compute. lia.
Qed.

(** Two operators. *)
Definition calc_grammar : grammar := [mkProd (N_ "e") [[N_ "e"; T_ "+"; N_ "e"]; [N_ "e"; T_ "*"; N_ "e"]; [T_ "1"]; [T_ "2"]; [T_ "3"]]].

Lemma calc_infix : infix calc_grammar (lit "e") (lit "+*") (lit "123").
Proof.
  intro e. split.
  - intros (p & [<-|[]] & _ & He). cbn in He.
    destruct He as [<-|[<-|[<-|[<-|[<-|[]]]]]]; [left|left|right|right|right]; eexists; (split; [|reflexivity]); cbn; auto.
  - intros [(o & [<-|[<-|[]]] & ->)|(a & [<-|[<-|[<-|[]]]] & ->)]; eexists; (split; [left; reflexivity|]); (split; [reflexivity|]); cbn; auto 6.
Qed.

Lemma C91_example_proof : infix calc_grammar (lit "e") (lit "+*") (lit "123") /\
  exists it1, produces (start_of calc_grammar (N_ "e") "1+2*3") [leftmost (lit "e") 49%N [(43%N, 50%N); (42%N, 51%N)]] it1 /\
  leftmost (lit "e") 49%N [(43%N, 50%N); (42%N, 51%N)] =
    operation (lit "e") (operation (lit "e") (operand (lit "e") 49%N) 43%N (operand (lit "e") 50%N)) 42%N (operand (lit "e") 51%N).
Proof.
  split; [exact calc_infix|].
  destruct (run_facts calc_grammar (N_ "e") "1+2*3" 1) as (_ & Hp & _); [vm_compute; reflexivity|vm_compute; reflexivity|].
  replace (trees_of calc_grammar (N_ "e") "1+2*3" 1) with [leftmost (lit "e") 49%N [(43%N, 50%N); (42%N, 51%N)]] in Hp by (vm_compute; reflexivity).
  eexists. split; [exact Hp|reflexivity].
Qed.

(** [1+2*3+1], which has five trees, and [1+], which has none. *)
Lemma C91_count_example_proof : NoDup (flat_prods calc_grammar) /\
  text 49%N [(43%N, 50%N); (42%N, 51%N); (43%N, 49%N)] = lit "1+2*3+1" /\
  vrest (lit "+*") (lit "123") [(43%N, 50%N); (42%N, 51%N); (43%N, 49%N)] /\
  List.length (trees_of calc_grammar (N_ "e") "1+2*3+1" 10) = 5 /\ map catalan [0; 1; 2; 3; 4; 5; 6] = [1; 1; 2; 5; 14; 42; 132] /\
  exhausted (start_of calc_grammar (N_ "e") "1+").
Proof.
  split; [|split; [|split; [|split; [|split]]]].
  - cbn. repeat constructor; cbn; intuition discriminate.
  - reflexivity.
  - repeat (apply Forall_cons; [cbn; auto 6|]). apply Forall_nil.
  - vm_compute. reflexivity.
  - vm_compute. reflexivity.
  - exists 100. eexists. vm_compute. reflexivity.
Qed.
