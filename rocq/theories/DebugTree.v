(** The derived [Debug] output of parse trees (src/grammar.rs:52-65), plain and indented.  A reference
    is shown as what it refers to. *)
From Verif Require Export DebugProofs.
From Coq Require String.
Import String.StringSyntax.

Section Tree.
Variable plain : char -> bool.

Fixpoint debug_tree (t : ptree) : str :=
  match t with
  | Node l ks => lit "ParseTree { lhs: " ++ debug_term plain l ++ lit ", rhs: " ++ debug_list (map debug_node ks) ++ lit " }"
  end
with debug_node (k : pnode) : str :=
  match k with
  | Leaf s => lit "Terminal(" ++ debug_str plain s ++ lit ")"
  | Sub t => lit "Nonterminal(" ++ debug_tree t ++ lit ")"
  end.

Fixpoint pretty_tree (n : nat) (t : ptree) : str :=
  match t with
  | Node l ks => lit "ParseTree {" ++ nl (S n) ++ lit "lhs: " ++ pretty_term plain (S n) l ++ lit "," ++
      nl (S n) ++ lit "rhs: " ++ pretty_list (S n) (map (pretty_node (S (S n))) ks) ++ lit "," ++ nl n ++ lit "}"
  end
with pretty_node (n : nat) (k : pnode) : str :=
  match k with
  | Leaf s => lit "Terminal(" ++ nl (S n) ++ debug_str plain s ++ lit "," ++ nl n ++ lit ")"
  | Sub t => lit "Nonterminal(" ++ nl (S n) ++ pretty_tree (S n) t ++ lit "," ++ nl n ++ lit ")"
  end.

(** ** Both are codes *)

Definition code_at {A} (f : A -> str) (a : A) : Prop := forall b x y, f a ++ x = f b ++ y -> a = b /\ x = y.

Lemma debug_list_code_at {A} (f : A -> str) l : Forall (code_at f) l ->
  (forall a, opens_with (fun c => c <> 93%N) (f a)) -> code_at (fun l => debug_list (map f l)) l.
Proof.
  intros Hf Hh.
  assert (Hn : forall a l x y, 93%N :: x = debug_sep (lit ", ") (map f (a :: l)) ++ 93%N :: y -> False).
  { intros a l0 x y E. destruct (Hh a) as (c & r & Ea & Hc). cbn [map] in E. destruct (map f l0) as [|s l'']; cbn [debug_sep] in E; rewrite Ea in E; cbn in E;
      injection E as E _; congruence. }
  intros l' x y E. unfold debug_list in E. rewrite <- !app_assoc in E. apply app_inv_head in E. cbn [app] in E.
  change (lit "]") with [93%N] in E. cbn [app] in E.
  revert l' x y E. induction l as [|a l IH]; intros [|b l'] x y E.
  - cbn in E. injection E as ->. auto.
  - cbn [map debug_sep app] in E. exfalso. eapply Hn. exact E.
  - symmetry in E. exfalso. eapply Hn. exact E.
  - inversion Hf as [|? ? Ha Hl]; subst. destruct l as [|a2 l], l' as [|b2 l'].
    + cbn in E. apply Ha in E. destruct E as [-> E]. injection E as ->. auto.
    + cbn [map debug_sep] in E. rewrite <- app_assoc in E. apply Ha in E. destruct E as [_ E]. discriminate.
    + cbn [map debug_sep] in E. rewrite <- app_assoc in E. apply Ha in E. destruct E as [_ E]. discriminate.
    + change (debug_sep (lit ", ") (map f (a :: a2 :: l))) with (f a ++ lit ", " ++ debug_sep (lit ", ") (map f (a2 :: l))) in E.
      change (debug_sep (lit ", ") (map f (b :: b2 :: l'))) with (f b ++ lit ", " ++ debug_sep (lit ", ") (map f (b2 :: l'))) in E.
      rewrite <- !app_assoc in E. apply Ha in E. destruct E as [-> E]. apply app_inv_head in E. apply IH in E; [|assumption]. destruct E as [-> ->]. auto.
Qed.

Lemma pretty_list_code_at {A} n (f : A -> str) l : Forall (code_at f) l -> code_at (fun l => pretty_list n (map f l)) l.
Proof.
  intros Hf.
  assert (H : forall l' x y, flat_map (fun s => nl (S n) ++ s ++ lit ",") (map f l) ++ nl n ++ lit "]" ++ x =
                              flat_map (fun s => nl (S n) ++ s ++ lit ",") (map f l') ++ nl n ++ lit "]" ++ y -> l = l' /\ x = y).
  { induction Hf as [|a l Ha Hf IH]; intros [|b l'] x y E; cbn [map flat_map] in E; rewrite ?app_nil_l in E.
    - apply app_inv_head in E. apply app_inv_head in E. auto.
    - rewrite nl_S in E. rewrite <- !app_assoc in E. apply app_inv_head in E. discriminate.
    - rewrite nl_S in E. rewrite <- !app_assoc in E. apply app_inv_head in E. discriminate.
    - rewrite <- !app_assoc in E. apply app_inv_head in E. apply Ha in E. destruct E as [-> E]. apply app_inv_head in E. apply IH in E. destruct E as [-> ->]. auto. }
  assert (Hx : forall l x, pretty_list n (map f l) ++ x = lit "[" ++ match l with [] => lit "]" ++ x | _ => flat_map (fun s => nl (S n) ++ s ++ lit ",") (map f l) ++ nl n ++ lit "]" ++ x end).
  { intros l0 x. unfold pretty_list. destruct l0 as [|a l0]; [reflexivity|]. cbn [map]. rewrite <- !app_assoc. reflexivity. }
  intros l' x y E. rewrite !Hx in E. apply app_inv_head in E. destruct l as [|a l], l' as [|b l'].
  - apply app_inv_head in E. auto.
  - cbn [map flat_map] in E. destruct (nl_head (S n)) as [s Es]. rewrite Es in E. discriminate.
  - cbn [map flat_map] in E. destruct (nl_head (S n)) as [s Es]. rewrite Es in E. discriminate.
  - apply H in E. assumption.
Qed.

Lemma debug_node_opens k : opens_with (fun c => c <> 93%N) (debug_node k).
Proof. destruct k; eexists _, _; (split; [reflexivity|discriminate]). Qed.

Lemma debug_tree_code : code debug_tree.
Proof.
  unfold code. fix IH 1. intros [l ks] [l' ks'] x y E. cbn [debug_tree] in E. rewrite <- !app_assoc in E. apply app_inv_head in E.
  apply debug_term_code in E. destruct E as [-> E]. apply app_inv_head in E.
  apply debug_list_code_at in E; [destruct E as [-> E]; apply app_inv_head in E; auto| |apply debug_node_opens].
  clear E. induction ks as [|k ks IHk]; constructor; [|exact IHk]. intros [s'|t'] x0 y0 E0; destruct k as [s|t]; cbn [debug_node] in E0; try discriminate;
    rewrite <- !app_assoc in E0; apply app_inv_head in E0.
  - apply debug_str_code in E0. destruct E0 as [-> E0]. apply app_inv_head in E0. auto.
  - apply IH in E0. destruct E0 as [-> E0]. apply app_inv_head in E0. auto.
Qed.

Lemma pretty_tree_code : forall n, code (pretty_tree n).
Proof.
  enough (H : forall a n, code_at (pretty_tree n) a) by (intros n a; apply H).
  unfold code_at. fix IH 1. intros [l ks] n [l' ks'] x y E. cbn [pretty_tree] in E. rewrite <- !app_assoc in E. do 3 apply app_inv_head in E.
  apply pretty_term_code in E. destruct E as [-> E]. do 3 apply app_inv_head in E.
  apply pretty_list_code_at in E; [destruct E as [-> E]; do 3 apply app_inv_head in E; auto|].
  clear E. induction ks as [|k ks IHk]; constructor; [|exact IHk]. intros [s'|t'] x0 y0 E0; destruct k as [s|t]; cbn [pretty_node] in E0; try discriminate;
    rewrite <- !app_assoc in E0; do 2 apply app_inv_head in E0.
  - apply debug_str_code in E0. destruct E0 as [-> E0]. do 3 apply app_inv_head in E0. auto.
  - apply IH in E0. destruct E0 as [-> E0]. do 3 apply app_inv_head in E0. auto.
Qed.

Lemma debug_tree_one_line : forall t, ~ In 10%N (debug_tree t).
Proof.
  fix IH 1. intros [l ks]. cbn [debug_tree]. rewrite !one_line_app. split; [cbn; intuition discriminate|]. split; [apply debug_term_one_line|].
  split; [cbn; intuition discriminate|]. split; [|cbn; intuition discriminate].
  unfold debug_list. rewrite !one_line_app. split; [cbn; intuition discriminate|]. split; [|cbn; intuition discriminate].
  induction ks as [|k ks IHk]; [cbn; tauto|]. cbn [map].
  assert (Hk : ~ In 10%N (debug_node k)).
  { destruct k as [s|t]; cbn [debug_node]; rewrite !one_line_app; (split; [cbn; intuition discriminate|]).
    - split; [apply debug_str_one_line|cbn; intuition discriminate].
    - split; [apply IH|cbn; intuition discriminate]. }
  destruct (map debug_node ks) as [|s l'] eqn:E; [cbn [debug_sep]; exact Hk|].
  change (debug_sep (lit ", ") (debug_node k :: s :: l')) with (debug_node k ++ lit ", " ++ debug_sep (lit ", ") (s :: l')). rewrite !one_line_app.
  split; [exact Hk|]. split; [cbn; intuition discriminate|exact IHk].
Qed.

Lemma C73_trees_proof : forall n, code debug_tree /\ code (pretty_tree n) /\ forall t, ~ In 10%N (debug_tree t).
Proof. intro n. exact (conj debug_tree_code (conj (pretty_tree_code n) debug_tree_one_line)). Qed.
End Tree.
