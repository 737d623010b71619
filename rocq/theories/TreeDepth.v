(** Proofs about the second half of Nesting.v: how deep the extraction of a parse tree recurses. *)
From Verif Require Export Nesting EarleyTerm.
From Coq Require Import Relation_Operators.
From Coq Require String.
Import String.StringSyntax.

(** ** Specification *)

(** The number of nodes on the longest path from the root. *)
Fixpoint height {L} (t : tree L) : nat :=
  match t with Node _ ks => S (list_max (map (fun k => match k with Leaf _ => 0 | Sub c => height c end) ks)) end.

Definition right_grammar : grammar :=
  [mkProd (Nonterminal (lit "s")) [[Terminal (lit "a"); Nonterminal (lit "s")]; [Terminal (lit "a")]]].

(** ** Exact depth *)

Lemma res_map_limit {A B} (f g : A -> res B) (h : B -> nat) d : (forall x y, f x = Ok y -> g x = if h y <=? d then Ok y else OutOfFuel) ->
  forall l l', res_map f l = Ok l' -> res_map g l = if list_max (map h l') <=? d then Ok l' else OutOfFuel.
Proof.
  intro H. induction l as [|x l IH]; cbn [res_map]; intros l' E; [injection E as <-; reflexivity|].
  destruct (f x) as [y| |] eqn:Ex; try discriminate. cbn [rbind] in E. destruct (res_map f l) as [r| |]; try discriminate. cbn [rbind] in E. injection E as <-.
  rewrite (H _ _ Ex). cbn [map list_max fold_right]. fold (list_max (map h r)). specialize (IH r eq_refl).
  assert (Em : (Nat.max (h y) (list_max (map h r)) <=? d) = ((h y <=? d) && (list_max (map h r) <=? d))%bool).
  { destruct (Nat.leb_spec (Nat.max (h y) (list_max (map h r))) d), (Nat.leb_spec (h y) d), (Nat.leb_spec (list_max (map h r)) d); cbn; try reflexivity; lia. }
  rewrite Em. destruct (h y <=? d); [|reflexivity]. cbn [rbind]. rewrite IH. destruct (list_max (map h r) <=? d); reflexivity.
Qed.
Lemma parse_tree_depth tr pg : forall f id t, parse_tree f tr pg id = Ok t -> forall d, parse_tree d tr pg id = if height t <=? d then Ok t else OutOfFuel.
Proof.
  induction f as [|f IH]; intros id t H d; [discriminate|]. destruct d as [|d]; [destruct t; reflexivity|]. cbn [parse_tree] in *.
  destruct (tt_get tr id) as [tv| |]; try discriminate. cbn [rbind] in *. destruct (get_production_by_id pg (t_pid tv)) as [p| |]; try discriminate. cbn [rbind] in *.
  destruct (get_matched tr id) as [ms| |]; try discriminate. cbn [rbind] in *.
  match type of H with rbind (res_map ?f ?l) _ = _ => destruct (res_map f l) as [ks| |] eqn:E; try discriminate end. cbn [rbind] in H. injection H as <-.
  erewrite (res_map_limit _ _ (fun k => match k with Leaf _ => 0 | Sub c => height c end) d _ _ _ E).
  - change (height (Node (fst p) ks) <=? S d) with (list_max (map (fun k => match k with Leaf _ => 0 | Sub c => height c end) ks) <=? d).
    destruct (_ <=? d); reflexivity.
  Unshelve. intros [s|i] y Ey; [injection Ey as <-; reflexivity|]. destruct (parse_tree f tr pg i) as [c| |] eqn:Ec; try discriminate. cbn [rbind] in Ey.
    injection Ey as <-. rewrite (IH _ _ Ec d). destruct (height c <=? d); reflexivity.
Qed.
Lemma iter_next_depth fuel it t it' : iter_next fuel it = Ok (Some t, it') ->
  forall d, iter_next_deep d fuel it = if height t <=? d then Ok (Some t, it') else OutOfFuel.
Proof.
  intros H d. unfold iter_next, iter_next_deep in *. destruct (earley fuel (gp_pg (it_parser it)) (it_state it)) as [[[id|] st]| |]; try discriminate.
  cbn [rbind] in *. match type of H with rbind ?x _ = _ => destruct x as [t'| |] eqn:E; try discriminate end. cbn [rbind] in H. injection H as -> <-.
  rewrite (parse_tree_depth _ _ _ _ _ E d). destruct (height t <=? d); reflexivity.
Qed.

(** ** Bound *)

Lemma list_max_bound l n : (forall x, In x l -> x <= n) -> list_max l <= n.
Proof. intro H. apply list_max_le, Forall_forall. exact H. Qed.
Lemma hle_height h : forall t, hle h t -> height t <= h.
Proof.
  induction h as [|h IH]; intros [l ks] H; [contradiction|]. cbn [height]. apply le_n_S, list_max_bound. intros x Hx. apply in_map_iff in Hx.
  destruct Hx as (k & <- & Hk). destruct k as [s|c]; [lia|]. apply IH, H, Hk.
Qed.
Lemma height_erase pg t : height (erase pg t) = height t.
Proof.
  induction t as [pid ks IH] using tree_ind'. rewrite erase_Node. cbn [height]. f_equal. f_equal. rewrite map_map. apply map_ext_in. intros k Hk.
  destruct k as [s|c]; [reflexivity|]. apply IH. exact Hk.
Qed.
Lemma parse_height g n input t : ~ live_cycle g (Nonterminal n) input -> parses g (Nonterminal n) input t ->
  height t <= S (byte_len input) * S (length (flat_prods g)).
Proof.
  intros Hnl (Hd & Hr & Hy). pose (pg := pg_new_unchecked g). pose proof (proj2 (pg_new_unchecked_ok g)) as Heq. fold pg in Heq.
  destruct (derives_erase g pg Heq t Hd) as (dt & Hv & <-). rewrite height_erase. rewrite yield_erase in Hy.
  apply hle_height. apply (height_bound g input (Nonterminal n) Hnl _ dt n [] []).
  - exact Hv.
  - destruct dt. exact Hr.
  - constructor.
  - exists []. rewrite app_nil_r, Hy. reflexivity.
  - constructor.
  - intros v [].
  - cbn [length]. fold pg. rewrite Heq, Hy. lia.
Qed.
Lemma iter_next_height g n input it ts it1 fuel t it2 : ~ live_cycle g (Nonterminal n) input -> opens g (Nonterminal n) input it -> produces it ts it1 ->
  iter_next fuel it1 = Ok (Some t, it2) -> height t <= S (byte_len input) * S (length (flat_prods g)).
Proof.
  intros Hnl Ho Hp Hn. apply (parse_height g n); [exact Hnl|].
  assert (H : produces it (ts ++ [t]) it2).
  { clear Ho Hnl. induction Hp as [it|it t0 it1 ts it3 f Hf Hp IH]; cbn [app]; econstructor; eauto. constructor. }
  apply (soundness g (Nonterminal n) input it _ _ t Ho H). apply in_or_app. right. left. reflexivity.
Qed.

(** ** Long inputs *)

Fixpoint right_tree (n : nat) : ptree :=
  Node (Nonterminal (lit "s")) (Leaf (lit "a") :: match n with 0 => [] | S n => [Sub (right_tree n)] end).
Lemma right_tree_height n : height (right_tree n) = S n.
Proof. induction n as [|n IH]; [reflexivity|]. cbn [right_tree height map list_max fold_right]. rewrite IH. lia. Qed.
Lemma right_tree_parses n : parses right_grammar (Nonterminal (lit "s")) (repeat 97%N (S n)) (right_tree n).
Proof.
  induction n as [|n (Hd & Hr & Hy)].
  - split; [|split; reflexivity]. apply (derives_node right_grammar (mkProd (Nonterminal (lit "s")) [[Terminal (lit "a"); Nonterminal (lit "s")]; [Terminal (lit "a")]]) [Terminal (lit "a")]);
      [left; reflexivity|right; left; reflexivity|repeat constructor].
  - split; [|split; [reflexivity|]].
    + apply (derives_node right_grammar (mkProd (Nonterminal (lit "s")) [[Terminal (lit "a"); Nonterminal (lit "s")]; [Terminal (lit "a")]]) [Terminal (lit "a"); Nonterminal (lit "s")]);
        [left; reflexivity|left; reflexivity|]. constructor. constructor; [exact Hr|exact Hd|constructor].
    + cbn [right_tree yield flat_map yield_node]. rewrite Hy, app_nil_r. reflexivity.
Qed.
Lemma right_height t : derives right_grammar t -> height t = byte_len (yield t) /\ root t = Nonterminal (lit "s").
Proof.
  induction t as [l ks IH] using tree_ind'. intro H. inversion H as [p rhs kids Hp Hr Hk]; subst. destruct Hp as [<-|[]]. split; [|reflexivity].
  destruct Hr as [<-|[<-|[]]].
  - inversion Hk as [|s r ks' Hk'|]; subst. inversion Hk' as [| |n t r ks'' Hrt Ht Hk'']; subst. inversion Hk''; subst.
    cbn [height map list_max fold_right yield flat_map yield_node]. rewrite app_nil_r, Nat.max_0_r, byte_len_app.
    rewrite (proj1 (IH t (or_intror (or_introl eq_refl)) Ht)). reflexivity.
  - inversion Hk as [|s r ks' Hk'|]; subst. inversion Hk'; subst. reflexivity.
Qed.
(** Every way of parsing [S n] times [a] returns a tree, and only trees that are [S n] nodes high. *)
Lemma right_deep n it : opens right_grammar (Nonterminal (lit "s")) (repeat 97%N (S n)) it ->
  (exists fuel t it', iter_next fuel it = Ok (Some t, it')) /\
  forall fuel t it', iter_next fuel it = Ok (Some t, it') -> height t = S n.
Proof.
  intro Ho. split.
  - destruct (completeness _ _ _ _ _ Ho (right_tree_parses n)) as (ts & it' & Hp & Hin). inversion Hp; subst; [destruct Hin|]. eauto.
  - intros fuel t it' Hn.
    assert (Hs : In t [t]) by (left; reflexivity). assert (Hp : produces it [t] it') by (econstructor; [exact Hn|constructor]).
    destruct (soundness _ _ _ _ _ _ _ Ho Hp Hs) as (H1 & _ & H3). rewrite (proj1 (right_height t H1)), H3.
    clear. induction n as [|n IH]; [reflexivity|]. change (repeat 97%N (S (S n))) with ([97%N] ++ repeat 97%N (S n)). rewrite byte_len_app, IH. reflexivity.
Qed.
