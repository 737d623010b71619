(** Proofs of the theorems of Properties_TreeSize.v. *)
From Verif Require Import TreeSizeSpec Facts_Trees TreeProofs DecimalProofs TreeFormat TreeDepth EarleySpec EarleyMain ParseExamples TreeExamples.
From Coq Require Import List Lia Arith.
From Coq Require String.
Import ListNotations String.StringSyntax.
Open Scope list_scope.

(** ** The nodes *)

Definition levels_node (d : nat) (k : pnode) : list (nat * pnode) := match k with Leaf s => [(d, Leaf s)] | Sub t => levels d t end.
Lemma levels_Node d l kids : levels d (Node l kids) = (d, Sub (Node l kids)) :: flat_map (levels_node (S d)) kids.
Proof. reflexivity. Qed.

Lemma levels_count t : forall d, length (levels d t) = tree_size t.
Proof.
  induction t as [l kids IH] using tree_ind'. intro d. rewrite levels_Node. cbn [length tree_size]. f_equal.
  induction kids as [|k kids IHk]; [reflexivity|]. cbn [flat_map map list_sum fold_right]. rewrite app_length.
  unfold list_sum in IHk. rewrite IHk by (intros; apply IH; right; assumption). f_equal. destruct k as [s|t]; [reflexivity|]. apply IH. left. reflexivity.
Qed.

Lemma levels_depth t : forall d x, In x (levels d t) -> d <= fst x <= d + height t.
Proof.
  induction t as [l kids IH] using tree_ind'. intros d x H. rewrite levels_Node in H. destruct H as [<-|H]; [cbn [fst]; lia|].
  apply in_flat_map in H. destruct H as (k & Hk & Hx). cbn [height].
  destruct k as [s|t]; cbn [levels_node] in Hx.
  - destruct Hx as [<-|[]]. cbn [fst]. lia.
  - pose proof (IH t Hk (S d) x Hx) as Hd.
    assert (Hm : height t <= list_max (map (fun k => match k with Leaf _ => 0 | Sub c => height c end) kids)).
    { pose proof (proj1 (list_max_le (map (fun k => match k with Leaf _ => 0 | Sub c => height c end) kids) _) (le_n _)) as Hf.
      rewrite Forall_forall in Hf. apply Hf. apply (in_map (fun k => match k with Leaf _ => 0 | Sub c => height c end) kids (Sub t)). exact Hk. }
    lia.
Qed.

(** ** Display *)

Lemma glyphs_length lasts : length (glyphs lasts) = 4 * length lasts.
Proof.
  induction lasts as [|b r IH]; [reflexivity|]. destruct r as [|b' r]; [destruct b; reflexivity|].
  change (glyphs (b :: b' :: r)) with ((if b then [32; 32; 32; 32] else [9474; 32; 32; 32])%N ++ glyphs (b' :: r)).
  rewrite app_length. unfold str, char in *. rewrite IH. cbn [length]. destruct b; cbn [length]; lia.
Qed.

Lemma with_last_kids {A} (l : list A) : map snd (with_last l) = l.
Proof. induction l as [|x l IH]; [reflexivity|]. cbn [with_last map snd]. rewrite IH. reflexivity. Qed.

Lemma drawn :
  (forall lasts k lines, drawing lasts k lines ->
     map (fun x => (length (fst x), snd x)) lines = map (fun x => (fst x, node_line (snd x))) (levels_node (length lasts) k)) /\
  (forall lasts ks lines, drawings lasts ks lines ->
     map (fun x => (length (fst x), snd x)) lines = map (fun x => (fst x, node_line (snd x))) (flat_map (levels_node (S (length lasts))) (map snd ks))).
Proof.
  apply drawing_mutind.
  - reflexivity.
  - intros lasts l kids out _ IH. cbn [levels_node map fst snd]. rewrite levels_Node, IH, with_last_kids. reflexivity.
  - reflexivity.
  - intros lasts b k ks out outs _ IH1 _ IH2. cbn [map flat_map snd]. rewrite !map_app, IH1, IH2, app_length, Nat.add_comm. reflexivity.
Qed.

Lemma concat_length_sum {A} (l : list (list A)) : length (concat l) = list_sum (map (@length A) l).
Proof. induction l as [|x l IH]; [reflexivity|]. cbn [concat map list_sum fold_right]. rewrite app_length, IH. reflexivity. Qed.

Lemma display_size t : length (display_tree t) = list_sum (map (fun x => 4 * fst x + length (node_line (snd x)) + 1) (levels 0 t)).
Proof.
  destruct (C40_tree_display_proof t) as (lines & Hd & -> & _). rewrite concat_length_sum, map_map.
  pose proof (proj1 drawn _ _ _ Hd) as H. cbn [levels_node length] in H.
  replace (map (fun x => 4 * fst x + length (node_line (snd x)) + 1) (levels 0 t))
    with (map (fun y => 4 * fst y + length (snd y) + 1) (map (fun x => (fst x, node_line (snd x))) (levels 0 t))) by (rewrite map_map; reflexivity).
  rewrite <- H, map_map. f_equal. apply map_ext. intros [lasts s]. cbn [fst snd]. rewrite !app_length, glyphs_length. cbn [length]. unfold str, char in *. lia.
Qed.

Lemma list_sum_le {A} (f : A -> nat) (l : list A) b : (forall x, In x l -> f x <= b) -> list_sum (map f l) <= length l * b.
Proof.
  induction l as [|x l IH]; intro H; [cbn; lia|]. cbn [map list_sum fold_right length]. pose proof (H x (or_introl eq_refl)).
  unfold list_sum in IH. specialize (IH (fun y Hy => H y (or_intror Hy))). lia.
Qed.

Lemma display_bound t w : (forall x, In x (levels 0 t) -> length (node_line (snd x)) <= w) ->
  length (display_tree t) <= tree_size t * (4 * height t + w + 1).
Proof.
  intro H. rewrite display_size, <- (levels_count t 0). apply list_sum_le. intros x Hx. pose proof (levels_depth _ _ _ Hx). pose proof (H x Hx). lia.
Qed.

(** ** Mermaid *)

Lemma decimal_large s n : decimal s n -> (0 < n)%N -> 10 ^ (length s - 1) <= N.to_nat n.
Proof.
  induction 1 as [c Hc|s v c Hs IH Hv Hc]; intro Hn; [cbn [length Nat.sub Nat.pow]; lia|].
  specialize (IH Hv). rewrite app_length. cbn [length]. replace (length s + 1 - 1) with (length s) by lia.
  destruct (length s) as [|k] eqn:E; [cbn [Nat.pow]; lia|]. replace (S k - 1) with k in IH by lia. rewrite Nat.pow_succ_r'. lia.
Qed.

Lemma dec_digits n k : n < 10 ^ k -> 1 <= k -> length (dec n) <= k.
Proof.
  intros H Hk. destruct (Nat.eq_dec n 0) as [->|Hn]; [cbn; lia|]. destruct (Nat.le_gt_cases (length (dec n)) k) as [|Hg]; [assumption|exfalso].
  destruct (C41_numbers_proof (dec n) (N.of_nat n)) as [Hiff E]. specialize (E n eq_refl).
  assert (Hd : decimal (dec n) (N.of_nat n)) by (apply Hiff; exact E).
  pose proof (decimal_large _ _ Hd ltac:(lia)) as H1. rewrite Nat2N.id in H1.
  assert (10 ^ k <= 10 ^ (length (dec n) - 1)) by (apply Nat.pow_le_mono_r; lia). lia.
Qed.

Lemma escape_char_length c : length (escape_char c) <= 4.
Proof.
  unfold escape_char. destruct (existsb (N.eqb c) mermaid_escape_chars) eqn:E; [|cbn; lia].
  apply existsb_exists in E. destruct E as (x & Hx & Ex). apply N.eqb_eq in Ex. subst x.
  repeat (destruct Hx as [<-|Hx]; [vm_compute; lia|]). destruct Hx.
Qed.
Lemma escape_length s : length (escape_mermaid_label s) <= 4 * length s.
Proof.
  rewrite escape_eq. induction s as [|c s IH]; [cbn; lia|]. cbn [flat_map]. rewrite app_length. pose proof (escape_char_length c). cbn [length]. lia.
Qed.

Lemma edges_labels m :
  (forall n t es, edges n t es -> forall d, (forall x, In x (levels d t) -> length (label (snd x)) <= m) ->
     forall e, In e es -> length (snd (fst e)) <= m /\ length (snd (snd e)) <= m) /\
  (forall n a k ks es, edges_from n a k ks es -> forall d, length a <= m -> (forall x, In x (flat_map (levels_node d) ks) -> length (label (snd x)) <= m) ->
     forall e, In e es -> length (snd (fst e)) <= m /\ length (snd (snd e)) <= m).
Proof.
  apply edges_mutind.
  - intros n l kids es _ IH d H e He. rewrite levels_Node in H. apply (IH (S d)) with (e := e); [|intros x Hx; apply H; right; exact Hx|exact He].
    apply (H (d, Sub (Node l kids))). left. reflexivity.
  - intros n a k d _ _ e [].
  - intros n a k s ks es _ IH d Ha H e [<-|He].
    + cbn [fst snd]. split; [exact Ha|]. apply (H (d, Leaf s)). left. reflexivity.
    + apply (IH d); [exact Ha|intros x Hx; apply H; right; exact Hx|exact He].
  - intros n a k t ks es1 es2 _ IH1 _ IH2 d Ha H e He. cbn [flat_map levels_node] in H. destruct He as [<-|He].
    + cbn [fst snd]. split; [exact Ha|]. destruct t as [l kids]. apply (H (d, Sub (Node l kids))). apply in_app_iff. left. rewrite levels_Node. left. reflexivity.
    + apply in_app_iff in He. destruct He as [He|He].
      * apply (IH1 d); [|exact He]. intros x Hx. apply H, in_app_iff. left. exact Hx.
      * apply (IH2 d); [exact Ha| |exact He]. intros x Hx. apply H, in_app_iff. right. exact Hx.
Qed.

Lemma mermaid_size t s : all_nonterminal t -> display_mermaid t = Ok s ->
  exists es, edges 0 t es /\ length s = 13 + list_sum (map (fun e =>
    length (dec (fst (fst e))) + length (escape_mermaid_label (snd (fst e))) +
    length (dec (fst (snd e))) + length (escape_mermaid_label (snd (snd e))) + 14) es).
Proof.
  intros Ha H. destruct (display_mermaid_spec t Ha) as (es & He & E). assert (Es : s = lit "flowchart TD" ++ [10%N] ++ concat (map edge_line es)) by congruence. clear E H. subst s. exists es. split; [exact He|].
  rewrite !app_length, concat_length_sum, map_map. change (length (lit "flowchart TD")) with 12. cbn [length]. rewrite Nat.add_assoc. change (12 + 1) with 13. apply (f_equal (fun l => 13 + list_sum l)).
  apply map_ext. intros [[n a] [m b]]. unfold edge_line, mermaid_line, newline. cbn [fst snd]. rewrite !app_length.
  change (length (lit "[""")) with 2. change (length (lit """] --> ")) with 7. change (length (lit """]")) with 2. cbn [length]. lia.
Qed.

Lemma mermaid_bound t s k m : all_nonterminal t -> display_mermaid t = Ok s ->
  (forall x, In x (levels 0 t) -> length (label (snd x)) <= m) -> tree_size t <= 10 ^ k -> 1 <= k ->
  length s <= 13 + (tree_size t - 1) * (2 * k + 8 * m + 14).
Proof.
  intros Ha H Hm Hk H1. destruct (mermaid_size t s Ha H) as (es & He & ->). apply Nat.add_le_mono_l.
  destruct (proj1 edges_numbers _ _ _ He) as [Ht Hlt].
  assert (El : length es = tree_size t - 1) by (rewrite <- (seq_length (tree_size t - 1) (0 + 1)), <- Ht, map_length; reflexivity). rewrite <- El.
  apply list_sum_le. intros e Hin. destruct (proj1 (edges_labels m) _ _ _ He 0 Hm e Hin) as [Hla Hlb].
  destruct (Hlt e Hin) as [_ Hlt']. assert (Hn : In (fst (snd e)) (seq (0 + 1) (tree_size t - 1))) by (rewrite <- Ht; exact (in_map (fun e => fst (snd e)) es e Hin)).
  apply in_seq in Hn. pose proof (dec_digits (fst (snd e)) k ltac:(lia) H1). pose proof (dec_digits (fst (fst e)) k ltac:(lia) H1).
  pose proof (escape_length (snd (fst e))). pose proof (escape_length (snd (snd e))). lia.
Qed.

(** ** Lists *)

Lemma right_unique t : derives right_grammar t -> t = right_tree (length (yield t) - 1) /\ 1 <= length (yield t).
Proof.
  induction t as [l ks IH] using tree_ind'. intro H. inversion H as [p rhs kids Hp Hr Hk]; subst. destruct Hp as [<-|[]].
  destruct Hr as [<-|[<-|[]]].
  - inversion Hk as [|s r ks' Hk'|]; subst. inversion Hk' as [| |n t r ks'' Hrt Ht Hk'']; subst. inversion Hk''; subst.
    destruct (IH t (or_intror (or_introl eq_refl)) Ht) as [E Hl]. cbn [yield flat_map yield_node]. rewrite app_nil_r, app_length.
    destruct (length (yield t)) as [|m]; [lia|]. cbn [Nat.sub] in E. rewrite Nat.sub_0_r in E. subst t. split; [reflexivity|cbn; lia].
  - inversion Hk as [|s r ks' Hk'|]; subst. inversion Hk'; subst. split; [reflexivity|cbn; lia].
Qed.

Lemma right_levels n : forall d, list_sum (map (fun x => 4 * fst x + length (node_line (snd x)) + 1) (levels d (right_tree n))) + 4 =
  4 * (S n) * (S n) + 20 * S n + 8 * d * S n.
Proof.
  induction n as [|n IH]; intro d; [cbn; lia|].
  cbn [right_tree]. rewrite levels_Node. cbn [flat_map levels_node map list_sum fold_right app fst snd]. rewrite app_nil_r.
  specialize (IH (S d)). unfold list_sum in IH. 
  replace (length (node_line (Sub (Node (Nonterminal (lit "s")) [Leaf (lit "a"); Sub (right_tree n)])))) with 15 by (destruct n; reflexivity).
  change (length (node_line (Leaf (lit "a")))) with 3. nia.
Qed.

Lemma right_display n t : parses right_grammar (Nonterminal (lit "s")) (repeat 97%N (S n)) t ->
  length (display_tree t) + 4 = 4 * (S n) * (S n) + 20 * S n /\
  forall k s, 2 * S n <= 10 ^ k -> display_mermaid t = Ok s -> length s <= 13 + (2 * n + 1) * (2 * k + 22).
Proof.
  intros (Hd & _ & Hy). destruct (right_unique t Hd) as [E _]. rewrite Hy, repeat_length in E. replace (S n - 1) with n in E by lia. subst t.
  split; [rewrite display_size, right_levels; lia|]. intros k s Hk H.
  assert (Hs : forall n, tree_size (right_tree n) = 2 * S n).
  { clear. induction n as [|n IH]; [reflexivity|]. cbn [right_tree tree_size map list_sum fold_right]. rewrite IH. lia. }
  assert (Ha : forall n, all_nonterminal (right_tree n)).
  { clear. induction n as [|n IH]; cbn [right_tree]; constructor; intros t [H|[H|[]]] || (intros t [H|[]]); try discriminate. injection H as <-. exact IH. }
  assert (Hl : forall n d x, In x (levels d (right_tree n)) -> length (label (snd x)) <= 1).
  { clear. induction n as [|n IH]; intros d x; cbn [right_tree]; rewrite levels_Node; cbn [flat_map levels_node app].
    - intros [<-|[<-|[]]]; cbn; lia.
    - intros [<-|[<-|Hx]]; [cbn; lia|cbn; lia|]. rewrite app_nil_r in Hx. exact (IH _ _ Hx). }
  assert (1 <= k) by (destruct k; [cbn in Hk; lia|lia]).
  pose proof (mermaid_bound _ _ k 1 (Ha n) H (Hl n 0) ltac:(rewrite Hs; exact Hk) H0) as Hb. rewrite Hs in Hb. replace (2 * S n - 1) with (2 * n + 1) in Hb by lia. lia.
Qed.

Lemma levels_facts t : length (levels 0 t) = tree_size t /\ forall x, In x (levels 0 t) -> fst x <= height t.
Proof. split; [apply levels_count|]. intros x Hx. pose proof (levels_depth _ _ _ Hx). lia. Qed.

Lemma list_sizes n it : opens right_grammar (Nonterminal (lit "s")) (repeat 97%N (S n)) it ->
  (exists fuel t it', iter_next fuel it = Ok (Some t, it')) /\
  forall fuel t it', iter_next fuel it = Ok (Some t, it') ->
    length (display_tree t) + 4 = 4 * (S n) * (S n) + 20 * S n /\
    exists s, display_mermaid t = Ok s /\ forall k, 2 * S n <= 10 ^ k -> length s <= 13 + (2 * n + 1) * (2 * k + 22).
Proof.
  intro Ho. split; [exact (proj1 (right_deep n it Ho))|]. intros fuel t it' Hn.
  assert (Hp : produces it [t] it') by (econstructor; [exact Hn|constructor]).
  pose proof (soundness _ _ _ _ _ _ _ Ho Hp (or_introl eq_refl)) as Hs. destruct (right_display n t Hs) as [H1 H2]. split; [exact H1|].
  assert (Ha : all_nonterminal t).
  { destruct Hs as (Hd & _). clear - Hd. induction t as [l ks IH] using tree_ind'. inversion Hd as [p rhs kids Hp Hr Hk]; subst. destruct Hp as [<-|[]].
    constructor. intros t Hin. apply IH; [exact Hin|]. clear - Hk Hin. induction Hk; [destruct Hin| |]; destruct Hin as [E|Hin]; try discriminate; auto. injection E as <-. assumption. }
  destruct (display_mermaid_spec t Ha) as (es & _ & E). eexists. split; [exact E|]. intros k Hk. exact (H2 k _ Hk E).
Qed.

Lemma sizes_example :
  map (fun x => (fst x, List.length (node_line (snd x)))) (levels 0 draw_example) = [(0, 19); (1, 7); (1, 11); (2, 11); (3, 3); (1, 3)] /\
  List.length (display_tree draw_example) = 92 /\ height draw_example = 3 /\
  exists s, display_mermaid draw_example = Ok s /\ List.length s = 103.
Proof. vm_compute. repeat split. eexists. split; reflexivity. Qed.
Lemma sizes_hypotheses : all_nonterminal draw_example /\ tree_size draw_example = 6 /\
  (forall x, In x (levels 0 draw_example) -> List.length (node_line (snd x)) <= 19 /\ List.length (label (snd x)) <= 1) /\
  exists it, opens right_grammar (N_ "s") (repeat 97%N 3) it.
Proof.
  split.
  { constructor. intros t [E|[E|[E|[]]]]; [| |discriminate]; injection E as <-; constructor;
      [intros ? []|]. intros t [E|[]]. injection E as <-. constructor. intros t [E|[]]. discriminate. }
  split; [reflexivity|]. split.
  - assert (H : forallb (fun x => Nat.leb (List.length (node_line (snd x))) 19 && Nat.leb (List.length (label (snd x))) 1) (levels 0 draw_example) = true) by reflexivity.
    rewrite forallb_forall in H. intros x Hx. specialize (H x Hx). apply andb_prop in H. rewrite !Nat.leb_le in H. exact H.
  - eexists. apply opens_deprecated_with. vm_compute. reflexivity.
Qed.
