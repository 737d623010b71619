(** Reading back: what the formats of parse trees and grammars determine. *)
From Verif Require Import TreeProofs TextMain ParseExamples.
From Coq Require Import Lia.
From Coq Require String.
Import String.StringSyntax.

(** ** Terms *)

Lemma display_term_inj a b : display_term a = display_term b -> a = b.
Proof.
  destruct a as [s|n], b as [s'|n']; cbn [display_term lit].
  - destruct (str_contains squote s), (str_contains squote s'); intro E; try discriminate;
      injection E as E; apply app_inj_tail in E; destruct E as [-> _]; reflexivity.
  - destruct (str_contains squote s); discriminate.
  - destruct (str_contains squote s'); discriminate.
  - intro E. change (lit "<" ++ n ++ lit ">" = lit "<" ++ n' ++ lit ">") in E.
    apply app_inv_head, app_inv_tail in E. subst; reflexivity.
Qed.

Lemma display_term_first t : exists c r, display_term t = c :: r /\ (c = 34 \/ c = 39 \/ c = 60)%N.
Proof.
  destruct t as [s|n]; cbn [display_term].
  - destruct (str_contains squote s); do 2 eexists; (split; [reflexivity|]); auto.
  - do 2 eexists. split; [reflexivity|]. auto.
Qed.

(** ** The drawing *)

(** No label contains a line break. *)
Inductive one_line : ptree -> Prop :=
| one_line_node l kids : ~ In 10%N (display_term l) -> (forall s, In (Leaf s) kids -> ~ In 10%N s) ->
    (forall t, In (Sub t) kids -> one_line t) -> one_line (Node l kids).

Definition one_line_node' (k : pnode) : Prop := match k with Leaf s => ~ In 10%N s | Sub t => one_line t end.

Lemma one_line_root t : one_line t -> ~ In 10%N (display_term (root t)).
Proof. intro H. inversion H; subst. assumption. Qed.

Lemma one_line_text k : one_line_node' k -> ~ In 10%N (node_line k).
Proof.
  destruct k as [s|[l kids]]; cbn [one_line_node' node_line].
  - intros H Hin. cbn in Hin. destruct Hin as [E|Hin]; [discriminate|]. apply in_app_or in Hin.
    destruct Hin as [Hin|[E|[]]]; [contradiction|discriminate].
  - intros H Hin. inversion H as [? ? H1 H2 H3]; subst. apply in_app_or in Hin. destruct Hin as [Hin|Hin]; [contradiction|].
    apply in_app_or in Hin. destruct Hin as [Hin|Hin]; [cbn in Hin; decompose [or] Hin; try discriminate; contradiction|].
    apply in_concat in Hin. destruct Hin as (x & Hx & Hin). apply in_map_iff in Hx. destruct Hx as (k & <- & Hk).
    cbn in Hin. destruct Hin as [E|Hin]; [discriminate|]. destruct k as [s|t].
    + destruct Hin as [E|Hin]; [discriminate|]. apply in_app_or in Hin.
      destruct Hin as [Hin|[E|[]]]; [exact (H2 s Hk Hin)|discriminate].
    + exact (one_line_root _ (H3 t Hk) Hin).
Qed.

Lemma with_last_In {A} (l : list A) b x : In (b, x) (with_last l) -> In x l.
Proof.
  induction l as [|y l IH]; cbn [with_last]; [intros []|]. intros [E|H]; [injection E as _ <-; left; reflexivity|].
  right. apply IH. assumption.
Qed.
Lemma with_last_snd {A} (l : list A) : map snd (with_last l) = l.
Proof. induction l as [|x l IH]; cbn; [reflexivity|]. f_equal. assumption. Qed.

Lemma drawing_one_line :
  (forall lasts k out, drawing lasts k out -> one_line_node' k -> forall x, In x out -> ~ In 10%N (snd x)) /\
  (forall lasts ks out, drawings lasts ks out -> (forall b k, In (b, k) ks -> one_line_node' k) ->
     forall x, In x out -> ~ In 10%N (snd x)).
Proof.
  apply drawing_mutind.
  - intros lasts s H x [<-|[]]. cbn [snd]. apply one_line_text. assumption.
  - intros lasts l kids out _ IH H x [<-|Hx].
    + cbn [snd]. apply one_line_text. assumption.
    + apply IH; [|assumption]. intros b k Hk. apply with_last_In in Hk. inversion H as [? ? H1 H2 H3]; subst.
      destruct k as [s|t]; [apply H2|apply H3]; assumption.
  - intros lasts _ x [].
  - intros lasts b k ks out outs _ IH1 _ IH2 H x Hx. apply in_app_or in Hx. destruct Hx as [Hx|Hx].
    + apply IH1; [|assumption]. apply (H b). left; reflexivity.
    + apply IH2; [|assumption]. intros b' k' Hk. apply (H b'). right; assumption.
Qed.

Lemma lines_inj (l l' : list str) : (forall x, In x l -> ~ In 10%N x) -> (forall x, In x l' -> ~ In 10%N x) ->
  concat (map (fun x => x ++ [10%N]) l) = concat (map (fun x => x ++ [10%N]) l') -> l = l'.
Proof.
  assert (Hsplit : forall (a b : str) (r r' : str), ~ In 10%N a -> ~ In 10%N b -> a ++ 10%N :: r = b ++ 10%N :: r' -> a = b /\ r = r').
  { induction a as [|c a IH]; intros [|d b] r r' Ha Hb E; cbn in E.
    - injection E as ->. auto.
    - injection E as <- _. destruct Hb. left; reflexivity.
    - injection E as -> _. destruct Ha. left; reflexivity.
    - injection E as -> E. apply IH in E; [destruct E as [-> ->]; auto| |]; intro Hin; [apply Ha|apply Hb]; right; assumption. }
  revert l'. induction l as [|x l IH]; intros [|y l'] H1 H2 E; cbn [map concat] in E.
  - reflexivity.
  - destruct y; discriminate.
  - destruct x; discriminate.
  - rewrite <- !app_assoc in E. cbn [app] in E. apply Hsplit in E; [|apply H1; left; reflexivity|apply H2; left; reflexivity].
    destruct E as [-> E]. f_equal. apply IH; [| |assumption]; intros z Hz; [apply H1|apply H2]; right; assumption.
Qed.

Lemma glyphs_block b r : exists c d, glyphs (b :: r) = [c; d; d; 32%N] ++ glyphs r /\
  (c = 32 \/ c = 9474 \/ c = 9492 \/ c = 9500)%N.
Proof. destruct r as [|b' r], b; cbn; do 2 eexists; (split; [reflexivity|]); auto. Qed.

Lemma glyphs_no_nl lasts : ~ In 10%N (glyphs lasts).
Proof.
  induction lasts as [|b r IH]; [intros []|].
  destruct r as [|b' r]; cbn [glyphs].
  - destruct b; cbn; intro H; decompose [or] H; try discriminate; contradiction.
  - intro H. apply in_app_or in H. destruct H as [H|H]; [|exact (IH H)].
    destruct b; cbn in H; decompose [or] H; try discriminate; contradiction.
Qed.

Lemma glyphs_split a : forall b l l', 
  (exists c r, l = c :: r /\ (c = 34 \/ c = 39 \/ c = 60)%N) -> (exists c r, l' = c :: r /\ (c = 34 \/ c = 39 \/ c = 60)%N) ->
  glyphs a ++ l = glyphs b ++ l' -> length a = length b /\ l = l'.
Proof.
  induction a as [|x a IH]; intros [|y b] l l' Hl Hl' E.
  - auto.
  - exfalso. destruct (glyphs_block y b) as (c & d & Eb & Hc). rewrite Eb in E. destruct Hl as (c' & r & -> & Hc').
    cbn in E. injection E as <- _. destruct Hc' as [->|[->| ->]]; decompose [or] Hc; discriminate.
  - exfalso. destruct (glyphs_block x a) as (c & d & Eb & Hc). rewrite Eb in E. destruct Hl' as (c' & r & -> & Hc').
    cbn in E. injection E as -> _. destruct Hc' as [->|[->| ->]]; decompose [or] Hc; discriminate.
  - destruct (glyphs_block x a) as (c & d & Eb & _), (glyphs_block y b) as (c' & d' & Eb' & _).
    rewrite Eb, Eb' in E. rewrite <- !app_assoc in E. cbn [app] in E. injection E as _ _ _ E.
    destruct (IH b l l' Hl Hl' E) as [H1 H2]. cbn. auto.
Qed.

(** What is kept of a line: its depth and its text. *)
Definition entry (x : list bool * str) : nat * str := (length (fst x), snd x).

Lemma node_line_first k : exists c r, node_line k = c :: r /\ (c = 34 \/ c = 39 \/ c = 60)%N.
Proof.
  destruct k as [s|[l kids]]; cbn [node_line].
  - do 2 eexists. split; [reflexivity|]. auto.
  - destruct (display_term_first l) as (c & r & -> & H). do 2 eexists. split; [reflexivity|]. assumption.
Qed.

Lemma drawing_lines_first :
  (forall lasts k out, drawing lasts k out -> forall x, In x out -> exists c r, snd x = c :: r /\ (c = 34 \/ c = 39 \/ c = 60)%N) /\
  (forall lasts ks out, drawings lasts ks out -> forall x, In x out -> exists c r, snd x = c :: r /\ (c = 34 \/ c = 39 \/ c = 60)%N).
Proof.
  apply drawing_mutind.
  - intros lasts s x [<-|[]]. apply node_line_first.
  - intros lasts l kids out _ IH x [<-|Hx]; [apply node_line_first|apply IH; assumption].
  - intros lasts x [].
  - intros lasts b k ks out outs _ IH1 _ IH2 x Hx. apply in_app_or in Hx. destruct Hx; auto.
Qed.

Lemma entries_eq (l l' : list (list bool * str)) :
  (forall x, In x l -> exists c r, snd x = c :: r /\ (c = 34 \/ c = 39 \/ c = 60)%N) ->
  (forall x, In x l' -> exists c r, snd x = c :: r /\ (c = 34 \/ c = 39 \/ c = 60)%N) ->
  map (fun x => glyphs (fst x) ++ snd x) l = map (fun x => glyphs (fst x) ++ snd x) l' -> map entry l = map entry l'.
Proof.
  revert l'. induction l as [|x l IH]; intros [|y l'] H1 H2 E; cbn [map] in E; try discriminate; [reflexivity|].
  injection E as E1 E2. apply glyphs_split in E1; [|apply H1; left; reflexivity|apply H2; left; reflexivity].
  destruct E1 as [El Es]. cbn [map]. f_equal; [exact (f_equal2 pair El Es)|].
  apply IH; [| |assumption]; intros z Hz; [apply H1|apply H2]; right; assumption.
Qed.

(** The next line, if any, belongs to depth at most [n]. *)
Definition stops (n : nat) (r : list (nat * str)) : Prop :=
  match r with [] => True | x :: _ => fst x <= n end.

Lemma drawing_head lasts k out : drawing lasts k out -> exists r, map entry out = (length lasts, node_line k) :: r.
Proof. intro H. destruct H; cbn [map entry fst snd]; eexists; reflexivity. Qed.

Lemma drawings_head lasts ks out : drawings lasts ks out ->
  ks = [] /\ out = [] \/ exists b k ks' s r, ks = (b, k) :: ks' /\ map entry out = (S (length lasts), s) :: r.
Proof.
  intro H. destruct H as [|lasts b k ks out outs H1 H2]; [left; auto|right].
  destruct (drawing_head _ _ _ H1) as (r & E). rewrite map_app, E. rewrite app_length. cbn.
  replace (length lasts + 1) with (S (length lasts)) by lia. do 5 eexists. split; reflexivity.
Qed.

Lemma node_line_inj l l' kids : node_line (Sub (Node l kids)) = node_line (Sub (Node l' kids)) -> l = l'.
Proof. cbn [node_line]. intro E. apply app_inv_tail in E. apply display_term_inj. assumption. Qed.

Lemma leaf_not_bare s l : node_line (Leaf s) <> node_line (Sub (Node l [])).
Proof.
  cbn [node_line map concat]. rewrite app_nil_r. intro E.
  change (lit " ::=") with (lit " ::" ++ lit "=") in E. rewrite (app_assoc (display_term l)) in E.
  change ([34%N] ++ s ++ [34%N]) with (([34%N] ++ s) ++ [34%N]) in E.
  apply app_inj_tail in E. destruct E as [_ E]. discriminate.
Qed.

Lemma drawing_determines :
  (forall lasts k out, drawing lasts k out -> forall lasts' k' out' r r', drawing lasts' k' out' ->
     length lasts = length lasts' -> map entry out ++ r = map entry out' ++ r' ->
     stops (length lasts) r -> stops (length lasts) r' -> k = k' /\ r = r') /\
  (forall lasts ks out, drawings lasts ks out -> forall lasts' ks' out' r r', drawings lasts' ks' out' ->
     length lasts = length lasts' -> map entry out ++ r = map entry out' ++ r' ->
     stops (length lasts) r -> stops (length lasts) r' -> map snd ks = map snd ks' /\ r = r').
Proof.
  assert (Hmix : forall lasts s l kids out r r', drawings lasts (with_last kids) out ->
     r = map entry out ++ r' -> stops (length lasts) r -> node_line (Leaf s) = node_line (Sub (Node l kids)) -> False).
  { intros lasts s l kids out r r' Hd E Hr En. destruct (drawings_head _ _ _ Hd) as [[Ek ->]|(b & k & ks' & s' & r1 & Ek & Eo)].
    - destruct kids; [|discriminate]. exact (leaf_not_bare _ _ En).
    - rewrite Eo in E. subst r. cbn in Hr. lia. }
  apply drawing_mutind.
  - intros lasts s lasts' k' out' r r' H' El E Hr Hr'. destruct H' as [lasts' s'|lasts' l' kids' out' H'].
    + cbn [map entry fst snd app] in E. injection E as E1 E2 E3. subst r'. split; [|reflexivity].
      apply app_inj_tail in E2. destruct E2 as [-> _]. reflexivity.
    + exfalso. cbn [map app] in E. unfold entry at 1 2 in E. cbn [fst snd] in E. injection E as E1 E2 E3.
      eapply (Hmix lasts' s l' kids' out' r r'); [assumption|exact E3|rewrite <- El; assumption|exact E2].
  - intros lasts l kids out Hd IH lasts' k' out' r r' H' El E Hr Hr'. destruct H' as [lasts' s'|lasts' l' kids' out' H'].
    + exfalso. cbn [map app] in E. unfold entry at 1 3 in E. cbn [fst snd] in E. injection E as E1 E2 E3.
      eapply (Hmix lasts s' l kids out r' r); [assumption|symmetry; exact E3|assumption|symmetry; exact E2].
    + cbn [map app] in E. unfold entry at 1 3 in E. cbn [fst snd] in E. injection E as E1 E2 E3.
      destruct (IH _ _ _ _ _ H' El E3 Hr Hr') as [Ek ->]. rewrite !with_last_snd in Ek. subst kids'.
      apply node_line_inj in E2. subst l'. auto.
  - intros lasts lasts' ks' out' r r' H' El E Hr Hr'. cbn in E. subst r.
    destruct (drawings_head _ _ _ H') as [[-> ->]|(b & k & ks1 & s & r1 & -> & Eo)]; [auto|].
    rewrite Eo in Hr. cbn in Hr. lia.
  - intros lasts b k ks out outs Hd1 IH1 Hd2 IH2 lasts' ks' out' r r' H' El E Hr Hr'.
    destruct H' as [lasts'|lasts' b' k' ks' out' outs' H1' H2'].
    + exfalso. cbn in E. destruct (drawing_head _ _ _ Hd1) as (r1 & Eo). rewrite map_app, Eo in E. cbn in E. subst r'.
      cbn in Hr'. rewrite app_length in Hr'. cbn in Hr'. lia.
    + rewrite !map_app, <- !app_assoc in E.
      assert (Hst : forall la kk oo rr, drawings la kk oo -> length la = length lasts -> stops (length lasts) rr ->
                stops (length (lasts ++ [b])) (map entry oo ++ rr)).
      { intros la kk oo rr Hdd Ela Hrr. rewrite app_length. cbn [length].
        destruct (drawings_head _ _ _ Hdd) as [[_ ->]|(b1 & k1 & ks1 & s1 & r1 & _ & Eo)].
        - cbn [map app]. destruct rr as [|x rr]; cbn in *; [exact I|lia].
        - rewrite Eo. cbn. lia. }
      assert (El' : length (lasts ++ [b]) = length (lasts' ++ [b'])) by (rewrite !app_length, El; reflexivity).
      destruct (IH1 (lasts' ++ [b']) k' out' _ _ H1' El' E) as [-> E2].
      { apply (Hst lasts ks); auto. }
      { apply (Hst lasts' ks'); auto. }
      destruct (IH2 _ _ _ _ _ H2' El E2 Hr Hr') as [Ek ->]. cbn [map snd]. rewrite Ek. auto.
Qed.

Lemma display_tree_inj t t' : one_line t -> one_line t' -> display_tree t = display_tree t' -> t = t'.
Proof.
  intros H H' E. destruct (display_tree_spec t) as (ls & Hd & Es), (display_tree_spec t') as (ls' & Hd' & Es').
  rewrite Es, Es' in E. unfold render in E.
  assert (Hm : forall l : list (list bool * str), map (fun x => glyphs (fst x) ++ snd x ++ [10%N]) l =
            map (fun x => x ++ [10%N]) (map (fun x => glyphs (fst x) ++ snd x) l)).
  { intro l. rewrite map_map. apply map_ext. intro x. rewrite app_assoc. reflexivity. }
  rewrite !Hm in E. apply lines_inj in E.
  - apply entries_eq in E; [|apply (proj1 drawing_lines_first) with (1 := Hd)|apply (proj1 drawing_lines_first) with (1 := Hd')].
    destruct (proj1 drawing_determines _ _ _ Hd _ _ _ [] [] Hd' eq_refl) as [Ek _]; [rewrite E; reflexivity|exact I|exact I|].
    injection Ek as ->. reflexivity.
  - intros x Hx. apply in_map_iff in Hx. destruct Hx as (y & <- & Hy). intro Hin. apply in_app_or in Hin.
    destruct Hin as [Hin|Hin]; [exact (glyphs_no_nl _ Hin)|]. exact (proj1 drawing_one_line _ _ _ Hd H y Hy Hin).
  - intros x Hx. apply in_map_iff in Hx. destruct Hx as (y & <- & Hy). intro Hin. apply in_app_or in Hin.
    destruct Hin as [Hin|Hin]; [exact (glyphs_no_nl _ Hin)|]. exact (proj1 drawing_one_line _ _ _ Hd' H' y Hy Hin).
Qed.

Lemma display_tree_clash : exists t t', t <> t' /\ display_tree t = display_tree t'.
Proof.
  exists (Node (Nonterminal (lit "s> ::= <t>" ++ 10%N :: [9492; 9472; 9472; 32]%N ++ lit "<t")) []),
    (Node (N_ "s") [Sub (Node (N_ "t") [])]). split; [discriminate|reflexivity].
Qed.

(** ** Mermaid *)

(** A tree of labels, without the distinction between terminals and nonterminals. *)
Inductive shape : Type := Shape (a : str) (kids : list shape).

Fixpoint shape_of (t : ptree) : shape :=
  match t with
  | Node l kids => Shape (match l with Nonterminal s => s | Terminal s => s end)
      (map (fun k => match k with Leaf s => Shape s [] | Sub t => shape_of t end) kids)
  end.
Definition shape_node (k : pnode) : shape := match k with Leaf s => Shape s [] | Sub t => shape_of t end.

Lemma shape_of_eq l kids : shape_of (Node l kids) = Shape (label (Sub (Node l kids))) (map shape_node kids).
Proof. reflexivity. Qed.

Fixpoint shape_size (x : shape) : nat := match x with Shape _ kids => S (list_sum (map shape_size kids)) end.

Lemma shape_size_of t : shape_size (shape_of t) = tree_size t.
Proof.
  induction t as [l kids IH] using tree_ind'. rewrite shape_of_eq, tree_size_eq. cbn [shape_size]. f_equal. f_equal.
  rewrite map_map. apply map_ext_in. intros k Hk. destruct k as [s|t]; [reflexivity|]. apply IH. assumption.
Qed.

(** The next line, if any, starts at a node with a number below [n]. *)
Definition rises (n : nat) (r : list ((nat * str) * (nat * str))) : Prop :=
  match r with [] => True | e :: _ => fst (fst e) < n end.

Lemma edges_determine :
  (forall n t es, edges n t es -> forall t' es' r r', edges n t' es' -> es ++ r = es' ++ r' ->
     rises n r -> rises n r' -> label (Sub t) = label (Sub t') -> shape_of t = shape_of t' /\ r = r') /\
  (forall n a m ks es, edges_from n a m ks es -> n < m -> forall a' ks' es' r r', edges_from n a' m ks' es' -> es ++ r = es' ++ r' ->
     rises n r -> rises n r' -> map shape_node ks = map shape_node ks' /\ r = r').
Proof.
  assert (Hhead : forall n a m ks es r, edges_from n a m ks es -> n < m -> rises n r -> rises m (es ++ r)).
  { intros n a m ks es r H Hm Hr. destruct H; cbn; [destruct r; cbn in *; [exact I|lia]|assumption|assumption]. }
  assert (Hsub : forall m t es, edges m t es -> (exists l, t = Node l [] /\ es = []) \/ exists e r, es = e :: r /\ fst (fst e) = m).
  { intros m t es H. destruct H as [n l kids es H]. destruct H; [left; eauto|right|right]; do 2 eexists; (split; [reflexivity|reflexivity]). }
  apply edges_mutind.
  - intros n l kids es H IH t' es' r r' H' E Hr Hr' El. destruct H' as [n l' kids' es' H'].
    destruct (IH ltac:(lia) _ _ _ _ _ H' E Hr Hr') as [Ek ->]. rewrite !shape_of_eq, El, Ek. auto.
  - intros n a m Hm a' ks' es' r r' H' E Hr Hr'. cbn in E. subst r. destruct H' as [| |]; [auto| |]; cbn in Hr; lia.
  - intros n a m s ks es H IH Hm a' ks' es' r r' H' E Hr Hr'.
    inversion H' as [n0 a0 m0 E1 E2|n0 a0 m0 s' ks1 es1 H1|n0 a0 m0 t' ks1 es1 es2 H1 H2]; subst.
    + cbn in E. subst r'. cbn in Hr'. lia.
    + cbn [app] in E. injection E as _ -> E. destruct (IH ltac:(lia) _ _ _ _ _ H1 E Hr Hr') as [Ek ->].
      cbn [map shape_node]. rewrite Ek. auto.
    + cbn [app] in E. injection E as _ -> E. destruct (Hsub _ _ _ H1) as [(l & -> & ->)|(e & r1 & -> & He)].
      * cbn [tree_size map list_sum fold_right] in H2. cbn [app] in E.
        destruct (IH ltac:(lia) _ _ _ _ _ H2 E Hr Hr') as [Ek ->]. cbn [map shape_node]. rewrite Ek. auto.
      * exfalso. pose proof (Hhead _ _ _ _ _ _ H ltac:(lia) Hr) as Hh. rewrite E in Hh. cbn in Hh.
        destruct H as [| |]; cbn in E; try (injection E as E _; subst e; cbn in He; lia).
        subst r. cbn in Hr. lia.
  - intros n a m t ks es1 es2 H1 IH1 H2 IH2 Hm a' ks' es' r r' H' E Hr Hr'.
    inversion H' as [n0 a0 m0 E1 E2|n0 a0 m0 s' ks1 es1' H1'|n0 a0 m0 t' ks1 es1' es2' H1' H2']; subst.
    + cbn in E. subst r'. cbn in Hr'. lia.
    + cbn [app] in E. injection E as _ El E. rewrite <- app_assoc in E.
      destruct (Hsub _ _ _ H1) as [(l & -> & ->)|(e & r1 & -> & He)].
      * cbn [tree_size map list_sum fold_right] in *. cbn [app] in E.
        destruct (IH2 ltac:(lia) _ _ _ _ _ H1' E Hr Hr') as [Ek ->]. cbn [map shape_node]. rewrite Ek.
        split; [|reflexivity]. f_equal. rewrite shape_of_eq. cbn [map]. f_equal. assumption.
      * exfalso. cbn [app] in E. destruct H1' as [| |]; cbn in E; try (injection E as E _; subst e; cbn in He; lia).
        subst r'. cbn in Hr'. lia.
    + cbn [app] in E. injection E as _ El E. rewrite <- !app_assoc in E.
      assert (Hpos : 1 <= tree_size t /\ 1 <= tree_size t') by (split; apply tree_size_pos).
      destruct (IH1 _ _ _ _ H1' E) as [Et E2].
      { pose proof (Hhead _ _ _ _ _ _ H2 ltac:(lia) Hr) as Hh. clear - Hh H2 Hr Hm. destruct H2; cbn in *; [destruct r; cbn in *; [exact I|lia]|assumption|assumption]. }
      { clear - H2' Hr' Hm. destruct H2'; cbn in *; [destruct r'; cbn in *; [exact I|lia]|assumption|assumption]. }
      { assumption. }
      assert (Hs : tree_size t = tree_size t') by (rewrite <- !shape_size_of, Et; reflexivity). rewrite <- Hs in H2'.
      destruct (IH2 ltac:(lia) _ _ _ _ _ H2' E2 Hr Hr') as [Ek ->]. cbn [map shape_node]. rewrite Et, Ek. auto.
Qed.

Definition edge_text (e : (nat * str) * (nat * str)) : str :=
  dec (fst (fst e)) ++ lit "[""" ++ escape_mermaid_label (snd (fst e)) ++ lit """] --> " ++
  dec (fst (snd e)) ++ lit "[""" ++ escape_mermaid_label (snd (snd e)) ++ lit """]".

Lemma escape_no c s : c = 34%N \/ c = 10%N -> ~ In c (escape_mermaid_label s).
Proof.
  intros Hc Hin. destruct (escape_safe s c Hin) as [E|E]; [|destruct Hc as [->| ->]; discriminate..].
  destruct Hc as [->| ->]; cbv [mermaid_special In]; tauto.
Qed.
Lemma dec_no c n : c = 34%N \/ c = 10%N \/ c = 91%N -> ~ In c (dec n).
Proof.
  intros Hc Hin. pose proof (dec_digits n) as H. rewrite Forall_forall in H. apply H in Hin.
  destruct Hc as [->|[->| ->]]; discriminate.
Qed.

Lemma split_at (c : char) (a b r r' : str) : ~ In c a -> ~ In c b -> a ++ c :: r = b ++ c :: r' -> a = b /\ r = r'.
Proof.
  revert b. induction a as [|x a IH]; intros [|y b] Ha Hb E; cbn in E.
  - injection E as ->. auto.
  - injection E as <- _. destruct Hb. left; reflexivity.
  - injection E as -> _. destruct Ha. left; reflexivity.
  - injection E as -> E. apply IH in E; [destruct E as [-> ->]; auto| |]; intro Hin; [apply Ha|apply Hb]; right; assumption.
Qed.

Lemma edge_text_inj e e' : edge_text e = edge_text e' -> e = e'.
Proof.
  destruct e as [[n a] [m b]], e' as [[n' a'] [m' b']]. unfold edge_text. cbn [fst snd]. intro E.
  change (lit "[""") with (91%N :: 34%N :: []) in E. change (lit """] --> ") with (34%N :: lit "] --> ") in E.
  change (lit """]") with (34%N :: lit "]") in E. cbn [app] in E.
  apply split_at in E; [|apply dec_no; auto|apply dec_no; auto]. destruct E as [E1 E]. apply dec_inj in E1. subst n'.
  injection E as E. apply split_at in E; [|apply escape_no; auto|apply escape_no; auto]. destruct E as [E2 E].
  apply escape_inj in E2. subst a'. injection E as E.
  apply split_at in E; [|apply dec_no; auto|apply dec_no; auto]. destruct E as [E1 E]. apply dec_inj in E1. subst m'.
  injection E as E. apply split_at in E; [|apply escape_no; auto|apply escape_no; auto]. destruct E as [E2 E].
  apply escape_inj in E2. subst b'. reflexivity.
Qed.

Lemma edge_text_line e : ~ In 10%N (edge_text e).
Proof.
  unfold edge_text. intro H. repeat (apply in_app_or in H; destruct H as [H|H]);
    try (revert H; apply dec_no; auto); try (revert H; apply escape_no; auto);
    cbn in H; decompose [or] H; try discriminate; contradiction.
Qed.

Lemma map_injective {A B} (f : A -> B) : (forall x y, f x = f y -> x = y) -> forall l l', map f l = map f l' -> l = l'.
Proof.
  intros Hf l. induction l as [|x l IH]; intros [|y l'] E; cbn in E; try discriminate; [reflexivity|].
  injection E as E1 E2. f_equal; auto.
Qed.

Lemma mermaid_determines t t' : all_nonterminal t -> all_nonterminal t' -> 1 < tree_size t ->
  display_mermaid t = display_mermaid t' -> shape_of t = shape_of t'.
Proof.
  intros H H' Hs E. destruct (display_mermaid_spec t H) as (es & He & Ee), (display_mermaid_spec t' H') as (es' & He' & Ee').
  rewrite Ee, Ee' in E. injection E as E. 
  assert (Hm : forall l, map edge_line l = map (fun x => x ++ [10%N]) (map edge_text l)).
  { intro l. rewrite map_map. apply map_ext. intro e. unfold edge_line, edge_text. rewrite <- !app_assoc. reflexivity. }
  rewrite !Hm in E. apply lines_inj in E.
  - apply (map_injective edge_text edge_text_inj) in E. subst es'.
    assert (El : label (Sub t) = label (Sub t')).
    { destruct He as [n l kids es He], He' as [n l' kids' es He'].
      destruct He as [| |]; [rewrite tree_size_eq in Hs; cbn in Hs; lia| |]; inversion He'; subst; reflexivity. }
    exact (proj1 (proj1 edges_determine _ _ _ He _ _ [] [] He' eq_refl I I El)).
  - intros x Hx. apply in_map_iff in Hx. destruct Hx as (y & <- & _). apply edge_text_line.
  - intros x Hx. apply in_map_iff in Hx. destruct Hx as (y & <- & _). apply edge_text_line.
Qed.

Lemma mermaid_clash :
  (exists t t', all_nonterminal t /\ all_nonterminal t' /\ shape_of t <> shape_of t' /\ display_mermaid t = display_mermaid t') /\
  (exists t t', all_nonterminal t /\ all_nonterminal t' /\ t <> t' /\ 1 < tree_size t /\ display_mermaid t = display_mermaid t').
Proof.
  split.
  - exists (Node (N_ "a") []), (Node (N_ "b") []). split; [constructor; intros ? []|]. split; [constructor; intros ? []|].
    split; [discriminate|reflexivity].
  - exists (Node (N_ "a") [Leaf (lit "b")]), (Node (N_ "a") [Sub (Node (N_ "b") [])]).
    split; [constructor; intros ? [E|[]]; discriminate|]. split.
    { constructor. intros t [E|[]]. injection E as <-. constructor. intros ? []. }
    split; [discriminate|]. split; [cbn; lia|reflexivity].
Qed.

(** ** Grammars *)

Lemma display_writable_inj :
  (forall e e', writable_expression e -> writable_expression e' -> display_expression e = display_expression e' -> e = e') /\
  (forall p p', writable_production p -> writable_production p' -> display_production p = display_production p' -> p = p') /\
  (forall g g', writable_grammar g -> writable_grammar g' -> display_grammar g = display_grammar g' -> g = g').
Proof.
  set (al := fun _ : char => false).
  assert (Hal : alphabetic_ok al) by (intros c H; discriminate).
  split; [|split].
  - intros e e' H H' E. apply (display_expression_round al Hal) in H, H'. rewrite E in H. congruence.
  - intros e e' H H' E. apply (display_production_round al Hal) in H, H'. rewrite E in H. congruence.
  - intros e e' H H' E. apply (display_grammar_round al Hal) in H, H'. rewrite E in H. congruence.
Qed.

Lemma display_clash :
  exists e e', e <> e' /\ display_expression e = display_expression e' /\
    display_production (mkProd (N_ "s") [e]) = display_production (mkProd (N_ "s") [e']) /\
    display_grammar [mkProd (N_ "s") [e]] = display_grammar [mkProd (N_ "s") [e']].
Proof.
  exists [Terminal (lit "a'"" ""b'")], [Terminal (lit "a'"); Terminal (lit "b'")]. split; [discriminate|].
  repeat split.
Qed.
