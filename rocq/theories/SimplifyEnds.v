(** Whether the enumeration of trees ends, for grammars written in another way. *)
From Verif Require Export SimplifyProofs.
From Verif Require Import EarleyInv EarleyMain ExtendProofs CombineProofs Facts_Parsing PrefixProofs EarleyExact.
From Coq Require Import Lia Relation_Operators Operators_Properties.

Lemma seq_kids g e v : seq_generates g e v <-> exists ks, kids_match g e ks /\ yields ks = v.
Proof.
  split.
  - intros (ss & H & ->). exact (rewrites_kids _ _ _ H ss eq_refl).
  - intros (ks & H & <-). apply kids_seq_generates, H.
Qed.
Lemma nullable_seq g e : nullable g e <-> seq_generates g e [].
Proof. unfold nullable, seq_generates. split; intros (ss & H & E); exists ss; auto. Qed.
Lemma seq_nil g : seq_generates g [] [].
Proof. apply seq_kids. exists []. split; [constructor|reflexivity]. Qed.
Lemma seq_app g e1 e2 v : seq_generates g (e1 ++ e2) v <-> exists v1 v2, v = v1 ++ v2 /\ seq_generates g e1 v1 /\ seq_generates g e2 v2.
Proof.
  rewrite seq_kids. split.
  - intros (ks & H & <-). apply kids_match_app_inv in H. destruct H as (k1 & k2 & -> & H1 & H2). exists (yields k1), (yields k2).
    split; [apply yields_app|]. split; apply seq_kids; eauto.
  - intros (v1 & v2 & -> & H1 & H2). apply seq_kids in H1, H2. destruct H1 as (k1 & H1 & <-), H2 as (k2 & H2 & <-).
    exists (k1 ++ k2). split; [apply kids_match_app; assumption|apply yields_app].
Qed.
Lemma seq_cons g t e v : seq_generates g (t :: e) v <-> exists v1 v2, v = v1 ++ v2 /\ seq_generates g [t] v1 /\ seq_generates g e v2.
Proof. exact (seq_app g [t] e v). Qed.
Lemma seq_name g n v : seq_generates g [Nonterminal n] v <-> exists f, In f (alternatives g (Nonterminal n)) /\ seq_generates g f v.
Proof.
  rewrite seq_kids. split.
  - intros (ks & H & <-). inversion H as [| |n' [m ku] r ks' Hr Hd Hk]; subst. inversion Hk; subst. cbn [root] in Hr. subst m.
    apply derives_alternative in Hd. destruct Hd as (f & Hf & Hu). exists f. split; [exact Hf|]. apply seq_kids. exists ku.
    split; [exact Hu|]. unfold yields. cbn [flat_map yield_node yield]. rewrite app_nil_r. reflexivity.
  - intros (f & Hf & H). apply seq_kids in H. destruct H as (ku & Hu & <-). exists [Sub (Node (Nonterminal n) ku)]. split.
    + constructor; [reflexivity| |constructor]. apply derives_alternative. eauto.
    + unfold yields. cbn [flat_map yield_node yield]. rewrite app_nil_r. reflexivity.
Qed.
Lemma generates_seq g n v : generates g n v <-> seq_generates g [Nonterminal n] v.
Proof. reflexivity. Qed.
Lemma null_app g e1 e2 : seq_generates g (e1 ++ e2) [] <-> seq_generates g e1 [] /\ seq_generates g e2 [].
Proof.
  rewrite seq_app. split.
  - intros (v1 & v2 & E & H1 & H2). symmetry in E. apply app_eq_nil in E. destruct E as [-> ->]. auto.
  - intros [H1 H2]. exists [], []. auto.
Qed.

Lemma step_alternative g a c : unit_step g a c <-> exists x y, In (x ++ Nonterminal c :: y) (alternatives g (Nonterminal a)) /\
  seq_generates g x [] /\ seq_generates g y [].
Proof.
  unfold unit_step. split.
  - intros (p & x & y & Hp & Hl & He & Hx & Hy). exists x, y. rewrite <- !nullable_seq. split; [apply in_alternatives_iff; eauto|auto].
  - intros (x & y & He & Hx & Hy). apply in_alternatives_iff in He. destruct He as (p & Hp & Hl & He). exists p, x, y. rewrite !nullable_seq. auto.
Qed.
Lemma predicted_alternative g start l u x m y v : predicted g start l u -> In (x ++ Nonterminal m :: y) (alternatives g l) ->
  seq_generates g x v -> predicted g start (Nonterminal m) (u ++ v).
Proof. intros H He Hx. apply in_alternatives_iff in He. destruct He as (p & Hp & Hl & He). eapply predicted_in; eassumption. Qed.

(** ** Other cuts *)

Section Cuts.
Context (g g' : grammar) (Hg : same_up_to_cuts g g').

Lemma cut_seq e e' v : cut_expression e = cut_expression e' -> seq_generates g e v -> seq_generates g' e' v.
Proof.
  intros E H. apply seq_kids in H. destruct H as (ks & Hk & <-). apply kids_match_spells in Hk. destruct Hk as [Hs Hd].
  pose proof (SimplifyProofs.cut_kids g' e ks Hs (fun t Ht => cuts_derives _ _ Hg t (Hd t Ht))) as HK. rewrite E in HK.
  destruct (uncut_kids _ _ _ HK) as (ks' & Hk' & E'). apply seq_kids. exists ks'. split; [exact Hk'|].
  pose proof (cut_yield (Node (Terminal []) ks')) as Y'. pose proof (cut_yield (Node (Terminal []) ks)) as Y.
  rewrite cut_tree_Node in Y, Y'. rewrite E' in Y'. rewrite Y in Y'. symmetry. exact Y'.
Qed.

Lemma cut_split : forall e A m B, cut_expression e = A ++ Nonterminal m :: B ->
  exists x y, e = x ++ Nonterminal m :: y /\ cut_expression x = A /\ cut_expression y = B.
Proof.
  unfold cut_expression. induction e as [|t e IH]; intros A m B E; [destruct A; discriminate E|]. cbn [flat_map] in E. destruct t as [s|n]; cbn [cut_term] in E.
  - revert A E. assert (G : forall s A, map (fun c => Terminal [c]) s ++ flat_map cut_term e = A ++ Nonterminal m :: B ->
      exists A2, A = map (fun c => Terminal [c]) s ++ A2 /\ flat_map cut_term e = A2 ++ Nonterminal m :: B).
    { clear. induction s as [|c s IHs]; intros A E; [exists A; auto|]. cbn [map app] in E. destruct A as [|a A]; [discriminate E|].
      cbn [app] in E. injection E as <- E. destruct (IHs A E) as (A2 & -> & E2). exists A2. auto. }
    intros A E. destruct (G s A E) as (A2 & -> & E2). destruct (IH A2 m B E2) as (x & y & -> & <- & <-).
    exists (Terminal s :: x), y. auto.
  - cbn [app] in E. destruct A as [|a A]; cbn [app] in E; injection E as <- E.
    + exists [], e. auto.
    + destruct (IH A m B E) as (x & y & -> & <- & <-). exists (Nonterminal n :: x), y. auto.
Qed.

Lemma cut_alternative l x m y : In (x ++ Nonterminal m :: y) (alternatives g l) -> exists x' y',
  In (x' ++ Nonterminal m :: y') (alternatives g' l) /\ cut_expression x' = cut_expression x /\ cut_expression y' = cut_expression y.
Proof.
  intro H. destruct (proj1 (in_map_iff _ _ _) (proj1 (Hg l _) (in_map cut_expression _ _ H))) as (e' & E & He').
  unfold cut_expression in E at 2. rewrite flat_map_app in E. cbn [flat_map cut_term app] in E.
  destruct (cut_split _ _ _ _ E) as (x' & y' & -> & Ex & Ey). exists x', y'. auto.
Qed.

Lemma cut_predicted start a u : predicted g start a u -> predicted g' start a u.
Proof.
  induction 1 as [|l u p x m y v H IH Hp Hl He Hx]; [constructor|].
  destruct (cut_alternative l x m y) as (x' & y' & He' & Ex & _); [apply in_alternatives_iff; eauto|].
  eapply predicted_alternative; [exact IH|exact He'|]. eapply cut_seq; [symmetry; exact Ex|exact Hx].
Qed.

Lemma cut_self a c : clos_trans str (unit_step g) a c -> clos_trans str (unit_step g') a c.
Proof.
  induction 1 as [a c H|a c d H1 IH1 H2 IH2]; [|eapply t_trans; eassumption]. apply t_step. apply step_alternative in H. apply step_alternative.
  destruct H as (x & y & He & Hx & Hy). destruct (cut_alternative _ _ _ _ He) as (x' & y' & He' & Ex & Ey). exists x', y'.
  split; [exact He'|]. split; (eapply cut_seq; [symmetry; eassumption|assumption]).
Qed.

Lemma cut_live start input : live_cycle g start input -> live_cycle g' start input.
Proof.
  intros (a & u & v & w & E & Hp & Hv & Hs). exists a, u, v, w. split; [exact E|]. split; [apply cut_predicted, Hp|].
  split; [|apply cut_self, Hs]. apply generates_seq. eapply cut_seq; [reflexivity|exact Hv].
Qed.
End Cuts.

Lemma cuts_end g g' start input it it' : same_up_to_cuts g g' -> opens g start input it -> opens g' start input it' ->
  ((exists ts itf, produces it ts itf /\ exhausted itf) <-> (exists ts itf, produces it' ts itf /\ exhausted itf)).
Proof.
  intros Hg Ho Ho'. rewrite (ends_iff _ _ _ _ Ho), (ends_iff _ _ _ _ Ho').
  split; intros H L; apply H; eapply cut_live; try exact L; [apply cuts_sym|]; exact Hg.
Qed.

(** ** Unfolding *)

Section Unfolded.
Context (g1 g2 : grammar) (l : term) (r1 r2 : list expression) (x y : expression) (b : str).
Let g := folded g1 l r1 x b y r2 g2.
Let g' := unfolded g1 l r1 x b y r2 g2.

Lemma unfolded_seq e v : seq_generates g e v <-> seq_generates g' e v.
Proof.
  rewrite !seq_kids. split; intros (ks & Hk & <-).
  - apply (lifts_kids g g' e ks Hk). intros t Ht. apply unfold_lifts. apply kids_match_spells in Hk. apply Hk, Ht.
  - apply (lifts_kids g' g e ks Hk). intros t Ht. apply fold_lifts. apply kids_match_spells in Hk. apply Hk, Ht.
Qed.

(** *** From the unfolded grammar back *)

Lemma app_split {A} (p1 p2 q1 q2 : list A) m : p1 ++ p2 = q1 ++ m :: q2 ->
  (exists r, p1 = q1 ++ m :: r /\ q2 = r ++ p2) \/ (exists r, p2 = r ++ m :: q2 /\ q1 = p1 ++ r).
Proof.
  revert q1. induction p1 as [|a p1 IH]; intros q1 E; cbn [app] in E.
  - right. exists q1. auto.
  - destruct q1 as [|c q1]; cbn [app] in E; injection E as -> E.
    + left. exists p1. auto.
    + destruct (IH q1 E) as [(r & -> & ->)|(r & -> & ->)]; [left; exists r; auto|right; exists r; auto].
Qed.

(** Where a name is in the alternative with [f] in the place of [b]. *)
Lemma unfolded_places f p m q : x ++ f ++ y = p ++ Nonterminal m :: q ->
  (exists r, x = p ++ Nonterminal m :: r /\ q = r ++ f ++ y) \/
  (exists p2 q2, f = p2 ++ Nonterminal m :: q2 /\ p = x ++ p2 /\ q = q2 ++ y) \/
  (exists r, y = r ++ Nonterminal m :: q /\ p = x ++ f ++ r).
Proof.
  intro E. destruct (app_split _ _ _ _ _ E) as [(r & H1 & H2)|(r & H1 & H2)]; [left; exists r; auto|].
  destruct (app_split _ _ _ _ _ H1) as [(r' & H3 & H4)|(r' & H3 & H4)].
  - right. left. exists r, r'. auto.
  - right. right. exists r'. subst. auto.
Qed.

Lemma old_place_x e1 n r : x = e1 ++ Nonterminal n :: r -> In (e1 ++ Nonterminal n :: r ++ Nonterminal b :: y) (alternatives g l).
Proof.
  intro E. assert (F : In (x ++ Nonterminal b :: y) (alternatives g l)) by apply folded_old.
  assert (Z : x ++ Nonterminal b :: y = e1 ++ Nonterminal n :: r ++ Nonterminal b :: y) by (rewrite E, <- app_assoc; reflexivity).
  rewrite <- Z. exact F.
Qed.
Lemma old_place_y n r e2 : y = r ++ Nonterminal n :: e2 -> In ((x ++ Nonterminal b :: r) ++ Nonterminal n :: e2) (alternatives g l).
Proof.
  intro E. assert (F : In (x ++ Nonterminal b :: y) (alternatives g l)) by apply folded_old.
  assert (Z : x ++ Nonterminal b :: y = (x ++ Nonterminal b :: r) ++ Nonterminal n :: e2) by (rewrite E, <- app_assoc; reflexivity).
  rewrite <- Z. exact F.
Qed.

Lemma back_predicted start a u : predicted g' start a u -> predicted g start a u.
Proof.
  induction 1 as [|m u p e1 n e2 v H IH Hp Hl He Hx]; [constructor|]. apply unfolded_seq in Hx.
  assert (He' : In (e1 ++ Nonterminal n :: e2) (alternatives g' m)) by (apply in_alternatives_iff; eauto).
  destruct (unfolded_alternatives g1 g2 l r1 r2 x y b m _ He') as [Hg|(-> & f & Hf & E)]; [eapply predicted_alternative; eassumption|].
  symmetry in E. destruct (unfolded_places _ _ _ _ E) as [(r & Ex & _)|[(p2 & q2 & Ef & -> & _)|(r & Ey & ->)]].
  - eapply predicted_alternative; [exact IH|exact (old_place_x _ _ _ Ex)|exact Hx].
  - apply seq_app in Hx. destruct Hx as (v1 & v2 & -> & H1 & H2). rewrite app_assoc. eapply predicted_alternative; [|rewrite <- Ef; exact Hf|exact H2].
    eapply predicted_alternative; [exact IH|apply folded_old|exact H1].
  - eapply predicted_alternative; [exact IH| |].
    + exact (old_place_y _ _ _ Ey).
    + apply seq_app in Hx. destruct Hx as (v1 & v2 & -> & H1 & H2). apply seq_app in H2. destruct H2 as (v3 & v4 & -> & H3 & H4).
      apply seq_app. exists v1, (v3 ++ v4). split; [reflexivity|]. split; [exact H1|]. apply seq_cons. exists v3, v4.
      split; [reflexivity|]. split; [|exact H4]. apply seq_name. eauto.
Qed.

Lemma back_self a c : clos_trans str (unit_step g') a c -> clos_trans str (unit_step g) a c.
Proof.
  induction 1 as [a c H|a c d H1 IH1 H2 IH2]; [|eapply t_trans; eassumption]. apply step_alternative in H.
  destruct H as (e1 & e2 & He & Hx & Hy). apply unfolded_seq in Hx, Hy.
  destruct (unfolded_alternatives g1 g2 l r1 r2 x y b _ _ He) as [Hg|(El & f & Hf & E)]; [apply t_step, step_alternative; eauto|].
  symmetry in E. destruct (unfolded_places _ _ _ _ E) as [(r & Ex & ->)|[(p2 & q2 & Ef & -> & ->)|(r & Ey & ->)]].
  - apply t_step, step_alternative. exists e1, (r ++ Nonterminal b :: y). rewrite El. split; [exact (old_place_x _ _ _ Ex)|]. split; [exact Hx|].
    apply null_app in Hy. destruct Hy as [Hr Hy]. apply null_app in Hy. destruct Hy as [H1 H2]. apply null_app. split; [exact Hr|].
    change (Nonterminal b :: y) with ([Nonterminal b] ++ y). apply null_app. split; [apply seq_name; eauto|exact H2].
  - apply null_app in Hx, Hy. apply (t_trans _ _ a b c); apply t_step, step_alternative.
    + exists x, y. rewrite El. split; [apply folded_old|]. split; [apply Hx|apply Hy].
    + exists p2, q2. split; [rewrite <- Ef; exact Hf|]. split; [apply Hx|apply Hy].
  - apply t_step, step_alternative. exists (x ++ Nonterminal b :: r), e2. rewrite El. split; [exact (old_place_y _ _ _ Ey)|]. split; [|exact Hy].
    apply null_app in Hx. destruct Hx as [H1 H2]. apply null_app in H2. destruct H2 as [H2 H3]. apply null_app. split; [exact H1|].
    change (Nonterminal b :: r) with ([Nonterminal b] ++ r). apply null_app. split; [apply seq_name; eauto|exact H3].
Qed.

Lemma back_live start input : live_cycle g' start input -> live_cycle g start input.
Proof.
  intros (a & u & v & w & E & Hp & Hv & Hs). exists a, u, v, w. split; [exact E|]. split; [apply back_predicted, Hp|].
  split; [|apply back_self, Hs]. apply generates_seq, unfolded_seq. exact Hv.
Qed.

(** *** Into the unfolded grammar *)

Context (Hb : has_alt g b).

Lemma has_alternative : exists f, In f (alternatives g (Nonterminal b)).
Proof. destruct Hb as (p & f & Hp & Hl & Hf). exists f. apply in_alternatives_iff. eauto. Qed.

Lemma new_place_x e1 n r : x = e1 ++ Nonterminal n :: r -> forall f, In f (alternatives g (Nonterminal b)) ->
  In (e1 ++ Nonterminal n :: r ++ f ++ y) (alternatives g' l).
Proof.
  intros E f Hf. assert (F : In (x ++ f ++ y) (alternatives g' l)) by (apply unfolded_new; exact Hf).
  assert (Z : x ++ f ++ y = e1 ++ Nonterminal n :: r ++ f ++ y) by (rewrite E, <- app_assoc; reflexivity).
  rewrite <- Z. exact F.
Qed.
Lemma new_place_y n r e2 : y = r ++ Nonterminal n :: e2 -> forall f, In f (alternatives g (Nonterminal b)) ->
  In ((x ++ f ++ r) ++ Nonterminal n :: e2) (alternatives g' l).
Proof.
  intros E f Hf. assert (F : In (x ++ f ++ y) (alternatives g' l)) by (apply unfolded_new; exact Hf).
  assert (Z : x ++ f ++ y = (x ++ f ++ r) ++ Nonterminal n :: e2) by (rewrite E, <- !app_assoc; reflexivity).
  rewrite <- Z. exact F.
Qed.
Lemma new_place_f p2 n q2 : In (p2 ++ Nonterminal n :: q2) (alternatives g (Nonterminal b)) ->
  In ((x ++ p2) ++ Nonterminal n :: q2 ++ y) (alternatives g' l).
Proof.
  intro Hf. assert (F : In (x ++ (p2 ++ Nonterminal n :: q2) ++ y) (alternatives g' l)) by (apply unfolded_new; exact Hf).
  rewrite <- !app_assoc in *. exact F.
Qed.

(** Where a name is in the alternative that is unfolded. *)
Lemma folded_places p n q : x ++ Nonterminal b :: y = p ++ Nonterminal n :: q ->
  (exists r, x = p ++ Nonterminal n :: r /\ q = r ++ Nonterminal b :: y) \/ (p = x /\ n = b /\ q = y) \/
  (exists r, y = r ++ Nonterminal n :: q /\ p = x ++ Nonterminal b :: r).
Proof.
  intro E. destruct (app_split _ _ _ _ _ E) as [(r & H1 & H2)|(r & H1 & H2)]; [left; exists r; auto|].
  destruct r as [|t r]; cbn [app] in H1; injection H1 as H1 H3.
  - right. left. rewrite app_nil_r in H2. subst. auto.
  - right. right. exists r. subst. auto.
Qed.

(** Predicted, or reached in the folded alternative only. *)
Definition foreseen (start : term) (a : term) (u : str) : Prop :=
  predicted g' start a u \/ a = Nonterminal b /\ exists u1 v, predicted g' start l u1 /\ seq_generates g x v /\ u = u1 ++ v.

Lemma fore_predicted start a u : predicted g start a u -> foreseen start a u.
Proof.
  induction 1 as [|m u p e1 n e2 v H IH Hp Hl He Hx]; [left; constructor|].
  assert (He' : In (e1 ++ Nonterminal n :: e2) (alternatives g m)) by (apply in_alternatives_iff; eauto). clear p Hp Hl He.
  destruct IH as [IH|(-> & u1 & v1 & IH & Hv & ->)].
  - destruct (folded_alternatives g1 g2 l r1 r2 x y b _ _ He') as [Hg|[-> E]].
    + left. eapply predicted_alternative; [exact IH|exact Hg|]. apply unfolded_seq, Hx.
    + symmetry in E. destruct (folded_places _ _ _ E) as [(r & Ex & _)|[(-> & -> & _)|(r & Ey & ->)]].
      * left. destruct has_alternative as (f & Hf). eapply predicted_alternative; [exact IH|exact (new_place_x _ _ _ Ex f Hf)|]. apply unfolded_seq, Hx.
      * right. split; [reflexivity|]. exists u, v. auto.
      * left. apply seq_app in Hx. destruct Hx as (v1 & v2 & -> & H1 & H2). apply seq_cons in H2. destruct H2 as (v3 & v4 & -> & H3 & H4).
        apply seq_name in H3. destruct H3 as (f & Hf & H3). eapply predicted_alternative; [exact IH|exact (new_place_y _ _ _ Ey f Hf)|].
        apply unfolded_seq, seq_app. exists v1, (v3 ++ v4). split; [reflexivity|]. split; [exact H1|]. apply seq_app. exists v3, v4. auto.
  - left. rewrite <- app_assoc. eapply predicted_alternative; [exact IH|exact (new_place_f _ _ _ He')|].
    apply unfolded_seq, seq_app. exists v1, v. auto.
Qed.

(** A step in the folded grammar is one in the unfolded grammar, unless it is from [l] to [b] in the folded alternative. *)
Definition special (a c : str) : Prop := Nonterminal a = l /\ c = b /\ seq_generates g x [] /\ seq_generates g y [].

Lemma fore_step a c : unit_step g a c -> unit_step g' a c \/ special a c.
Proof.
  intro H. apply step_alternative in H. destruct H as (e1 & e2 & He & Hx & Hy).
  destruct (folded_alternatives g1 g2 l r1 r2 x y b _ _ He) as [Hg|[El E]].
  - left. apply step_alternative. exists e1, e2. rewrite <- !unfolded_seq. auto.
  - symmetry in E. destruct (folded_places _ _ _ E) as [(r & Ex & ->)|[(-> & -> & ->)|(r & Ey & ->)]].
    + left. apply null_app in Hy. destruct Hy as [Hr Hy]. change (Nonterminal b :: y) with ([Nonterminal b] ++ y) in Hy. apply null_app in Hy.
      destruct Hy as [H1 H2]. apply seq_name in H1. destruct H1 as (f & Hf & H1). apply step_alternative. exists e1, (r ++ f ++ y). rewrite El.
      split; [exact (new_place_x _ _ _ Ex f Hf)|]. rewrite <- !unfolded_seq, !null_app. auto.
    + right. repeat split; assumption.
    + left. apply null_app in Hx. destruct Hx as [H1 H2]. change (Nonterminal b :: r) with ([Nonterminal b] ++ r) in H2. apply null_app in H2.
      destruct H2 as [H2 H3]. apply seq_name in H2. destruct H2 as (f & Hf & H2). apply step_alternative. exists (x ++ f ++ r), e2. rewrite El.
      split; [exact (new_place_y _ _ _ Ey f Hf)|]. rewrite <- !unfolded_seq, !null_app. auto.
Qed.

(** A step from [b] after the special one. *)
Lemma special_step a c : special a b -> unit_step g b c -> unit_step g' a c.
Proof.
  intros (El & _ & Hx & Hy) H. apply step_alternative in H. destruct H as (e1 & e2 & He & H1 & H2). apply step_alternative.
  exists (x ++ e1), (e2 ++ y). rewrite El. split; [exact (new_place_f _ _ _ He)|]. rewrite <- !unfolded_seq, !null_app. auto.
Qed.

Lemma fore_path a c : clos_trans str (unit_step g) a c ->
  clos_trans str (unit_step g') a c \/ c = b /\ exists m, (m = a \/ clos_trans str (unit_step g') a m) /\ special m b.
Proof.
  intro H. apply clos_trans_tn1 in H. induction H as [c H|c d H1 H2 IH].
  - destruct (fore_step _ _ H) as [S|S]; [left; apply t_step, S|]. assert (c = b) by apply S. subst c. right. split; [reflexivity|]. exists a. auto.
  - destruct IH as [IH|(-> & m & Hm & S)].
    + destruct (fore_step _ _ H1) as [S|S]; [left; eapply t_trans; [exact IH|apply t_step, S]|].
      assert (d = b) by apply S. subst d. right. split; [reflexivity|]. exists c. auto.
    + left. pose proof (special_step m d S H1) as T. destruct Hm as [->|Hm]; [apply t_step, T|eapply t_trans; [exact Hm|apply t_step, T]].
Qed.

Lemma step_generates h a c v : unit_step h a c -> generates h c v -> generates h a v.
Proof.
  intros H Hv. apply step_alternative in H. destruct H as (e1 & e2 & He & H1 & H2). apply generates_seq, seq_name.
  exists (e1 ++ Nonterminal c :: e2). split; [exact He|]. apply seq_app. exists [], v. split; [reflexivity|]. split; [exact H1|].
  apply seq_cons. exists v, []. rewrite app_nil_r. auto.
Qed.
Lemma path_generates h a c v : clos_trans str (unit_step h) a c -> generates h c v -> generates h a v.
Proof. induction 1 as [a c H|a c d H1 IH1 H2 IH2]; intro Hv; [eapply step_generates; eassumption|auto]. Qed.
Lemma step_predicted h start a c u : predicted h start (Nonterminal a) u -> unit_step h a c -> predicted h start (Nonterminal c) u.
Proof.
  intros H Hs. apply step_alternative in Hs. destruct Hs as (e1 & e2 & He & H1 & H2). rewrite <- (app_nil_r u).
  eapply predicted_alternative; eassumption.
Qed.

(** First step of a path. *)
Lemma first_step h a c : clos_trans str (unit_step h) a c -> exists d, unit_step h a d /\ (d = c \/ clos_trans str (unit_step h) d c).
Proof.
  intro H. apply clos_trans_t1n in H. destruct H as [d H|d c H1 H2]; [exists d; auto|]. exists d. split; [exact H1|]. right. apply clos_t1n_trans, H2.
Qed.

Lemma special_unit m c : special m c -> unit_step g m c.
Proof. intros (El & -> & Hx & Hy). apply step_alternative. exists x, y. rewrite El. split; [apply folded_old|auto]. Qed.

Lemma fore_cycle start a u v : predicted g' start (Nonterminal a) u -> clos_trans str (unit_step g) a a -> generates g a v ->
  exists c, predicted g' start (Nonterminal c) u /\ clos_trans str (unit_step g') c c /\ generates g c v.
Proof.
  intros Hp Hs Hv. destruct (fore_path _ _ Hs) as [H|(-> & m & Hm & S)]; [exists a; auto|].
  destruct (str_eq_dec m b) as [->|N].
  - exists b. split; [exact Hp|]. split; [|exact Hv]. apply t_step. apply (special_step b b S), special_unit, S.
  - destruct Hm as [->|Hm]; [contradiction N; reflexivity|]. destruct (first_step _ _ _ Hm) as (d & H1 & H2).
    assert (H1' : unit_step g b d).
    { apply step_alternative in H1. destruct H1 as (e1 & e2 & He & Hx & Hy). apply step_alternative. exists e1, e2. rewrite !unfolded_seq.
      split; [|auto]. destruct (unfolded_alternatives g1 g2 l r1 r2 x y b _ _ He) as [Hg|(El & _)]; [exact Hg|].
      exfalso. apply N. assert (El' : Nonterminal m = l) by apply S. congruence. }
    pose proof (special_step m d S H1') as T.
    pose proof (special_unit m b S) as Sg.
    exists d. split; [eapply step_predicted; eassumption|]. split.
    + destruct H2 as [->|H2]; [apply t_step, T|eapply t_trans; [exact H2|apply t_step, T]].
    + destruct H2 as [->|H2]; [eapply step_generates; eassumption|]. eapply path_generates; [apply back_self; exact H2|].
      eapply step_generates; eassumption.
Qed.

Lemma fore_live start input : live_cycle g start input -> live_cycle g' start input.
Proof.
  intros (a & u & v & w & E & Hp & Hv & Hs). unfold self_deriving in Hs.
  assert (P : exists c, predicted g' start (Nonterminal c) u /\ clos_trans str (unit_step g) c c /\ generates g c v).
  { destruct (fore_predicted _ _ _ Hp) as [H|(Ea & u1 & v1 & H & Hx & ->)]; [exists a; auto|]. injection Ea as ->.
    destruct (first_step _ _ _ Hs) as (d & H1 & H2). exists d. split; [|split].
    - pose proof H1 as H3. apply step_alternative in H3. destruct H3 as (e1 & e2 & He & Hn & _).
      eapply predicted_alternative; [exact H|exact (new_place_f _ _ _ He)|]. apply unfolded_seq, seq_app. exists v1, [].
      rewrite app_nil_r. auto.
    - destruct H2 as [->|H2]; [exact Hs|]. eapply t_trans; [exact H2|apply t_step, H1].
    - destruct H2 as [->|H2]; [exact Hv|]. eapply path_generates; eassumption. }
  destruct P as (c & H1 & H2 & H3). destruct (fore_cycle _ _ _ _ H1 H2 H3) as (d & D1 & D2 & D3).
  exists d, u, v, w. split; [exact E|]. split; [exact D1|]. split; [|exact D2]. apply generates_seq, unfolded_seq. exact D3.
Qed.
End Unfolded.

Lemma unfold_ends g1 g2 l r1 r2 x y b start input it it' : has_alt (folded g1 l r1 x b y r2 g2) b ->
  opens (folded g1 l r1 x b y r2 g2) start input it -> opens (unfolded g1 l r1 x b y r2 g2) start input it' ->
  ((exists ts itf, produces it ts itf /\ exhausted itf) <-> (exists ts itf, produces it' ts itf /\ exhausted itf)).
Proof.
  intros Hb Ho Ho'. rewrite (ends_iff _ _ _ _ Ho), (ends_iff _ _ _ _ Ho').
  split; intros H L; apply H; [eapply back_live|eapply fore_live]; eassumption.
Qed.

