(** The derived orders: [#[derive(Ord, PartialOrd)]] on [Term] (src/term.rs:21) and
    [Expression] (src/expression.rs:14).

    What is modelled is what the derives and the standard library are documented to do: an enum
    is compared by the position of its variants and then by their fields, a struct by its fields,
    a [Vec] lexicographically, and a [String] by the bytes of its UTF-8 encoding. *)
From Verif Require Export Syntax Utf8.
From Coq Require Import NArith Lia.
Open Scope nat_scope.
Open Scope list_scope.

(** Lexicographic comparison ([Ord] of slices and vectors). *)
Fixpoint lex {A} (cmp : A -> A -> comparison) (a b : list A) : comparison :=
  match a, b with
  | [], [] => Eq
  | [], _ => Lt
  | _, [] => Gt
  | x :: a, y :: b => match cmp x y with Eq => lex cmp a b | c => c end
  end.

(** [Ord for str]: by bytes. *)
Definition str_cmp (a b : str) : comparison := lex N.compare (bytes a) (bytes b).
(** src/term.rs:21-28: [Terminal] is the first variant. *)
Definition term_cmp (a b : term) : comparison :=
  match a, b with
  | Terminal x, Terminal y => str_cmp x y
  | Terminal _, Nonterminal _ => Lt
  | Nonterminal _, Terminal _ => Gt
  | Nonterminal x, Nonterminal y => str_cmp x y
  end.
(** src/expression.rs:14-18 *)
Definition expression_cmp (a b : expression) : comparison := lex term_cmp a b.

(** ** Specification *)

Definition text_of (t : term) : str := match t with Terminal s => s | Nonterminal s => s end.
Definition term_text (t : term) : Prop := text (text_of t).
Definition expression_text (e : expression) : Prop := Forall term_text e.

(** [before R a b]: [a] comes before [b] in a dictionary with the letter order [R]. *)
Inductive before {A} (R : A -> A -> Prop) : list A -> list A -> Prop :=
| before_end x r : before R [] (x :: r)
| before_here x y a b : R x y -> before R (x :: a) (y :: b)
| before_later x a b : before R a b -> before R (x :: a) (x :: b).

(** Terms: all terminals before all nonterminals, otherwise by the text, which is ordered by
    code points. *)
Inductive term_before : term -> term -> Prop :=
| tb_kind a b : term_before (Terminal a) (Nonterminal b)
| tb_terminal a b : before N.lt a b -> term_before (Terminal a) (Terminal b)
| tb_nonterminal a b : before N.lt a b -> term_before (Nonterminal a) (Nonterminal b).

(** The laws of [Ord]: a comparison that decides a strict total order, with [Eq] exactly for
    equal values, on the values satisfying [P]. *)
Record total_order {A} (P : A -> Prop) (cmp : A -> A -> comparison) (lt : A -> A -> Prop) : Prop := {
  to_eq : forall a b, P a -> P b -> (cmp a b = Eq <-> a = b);
  to_lt : forall a b, P a -> P b -> (cmp a b = Lt <-> lt a b);
  to_gt : forall a b, P a -> P b -> (cmp a b = Gt <-> lt b a);
  to_trans : forall a b c, lt a b -> lt b c -> lt a c;
  to_irrefl : forall a, ~ lt a a
}.

(** ** Proofs *)

Lemma before_trans {A} (R : A -> A -> Prop) (HR : forall x y z, R x y -> R y z -> R x z) :
  forall a b c, before R a b -> before R b c -> before R a c.
Proof.
  intros a b c H. revert c. induction H as [x r|x y a b Hxy|x a b H IH]; intros c Hc; inversion Hc; subst;
    try (constructor; eauto; fail).
Qed.

Lemma before_irrefl {A} (R : A -> A -> Prop) (HR : forall x, ~ R x x) : forall a, ~ before R a a.
Proof.
  induction a as [|x a IH]; intro H; inversion H; subst; [eapply HR; eassumption|auto].
Qed.

Section Lex.
  Context {A : Type} (P : A -> Prop) (cmp : A -> A -> comparison) (lt : A -> A -> Prop).
  Hypothesis H : total_order P cmp lt.

  Lemma lex_eq a : forall b, Forall P a -> Forall P b -> (lex cmp a b = Eq <-> a = b).
  Proof.
    induction a as [|x a IH]; intros [|y b] Ha Hb; cbn [lex]; try (split; [discriminate|congruence]); [tauto|].
    inversion Ha as [|? ? Hx Ha']; inversion Hb as [|? ? Hy Hb']; subst.
    pose proof (to_eq _ _ _ H x y Hx Hy) as E. destruct (cmp x y) eqn:C.
    - assert (x = y) by (apply E; reflexivity). subst. rewrite (IH b Ha' Hb'). split; congruence.
    - split; [discriminate|]. intro F. injection F as -> _. assert (Lt = Eq) by (apply E; reflexivity). discriminate.
    - split; [discriminate|]. intro F. injection F as -> _. assert (Gt = Eq) by (apply E; reflexivity). discriminate.
  Qed.

  Lemma lex_lt a : forall b, Forall P a -> Forall P b ->
    (lex cmp a b = Lt <-> before lt a b) /\ (lex cmp a b = Gt <-> before lt b a).
  Proof.
    induction a as [|x a IH]; intros [|y b] Ha Hb; cbn [lex].
    - split; (split; [discriminate|intro B; inversion B]).
    - split; split; intro B; try discriminate; try constructor. inversion B.
    - split; split; intro B; try discriminate; try constructor. inversion B.
    - inversion Ha as [|? ? Hx Ha']; inversion Hb as [|? ? Hy Hb']; subst.
      pose proof (to_eq _ _ _ H x y Hx Hy) as E. pose proof (to_lt _ _ _ H x y Hx Hy) as L.
      pose proof (to_gt _ _ _ H x y Hx Hy) as G. pose proof (to_irrefl _ _ _ H) as I.
      pose proof (to_trans _ _ _ H) as T.
      destruct (cmp x y) eqn:C.
      + assert (x = y) by (apply E; reflexivity). subst. destruct (IH b Ha' Hb') as [I1 I2].
        rewrite I1, I2. split; split; intro B; try (constructor; assumption); inversion B; subst; try assumption; exfalso; eapply I; eassumption.
      + assert (Hl : lt x y) by (apply L; reflexivity).
        split; split; intro B; try discriminate; [constructor; assumption|reflexivity|].
        inversion B; subst; exfalso; [eapply I, T; eassumption|eapply I; eassumption].
      + assert (Hl : lt y x) by (apply G; reflexivity).
        split; split; intro B; try discriminate; [|constructor; assumption|reflexivity].
        inversion B; subst; exfalso; [eapply I, T; eassumption|eapply I; eassumption].
  Qed.

  Lemma lex_order : total_order (Forall P) (lex cmp) (before lt).
  Proof.
    split.
    - intros a b. apply lex_eq.
    - intros a b Ha Hb. apply lex_lt; assumption.
    - intros a b Ha Hb. apply lex_lt; assumption.
    - apply before_trans. apply (to_trans _ _ _ H).
    - apply before_irrefl. apply (to_irrefl _ _ _ H).
  Qed.
End Lex.

Lemma N_order : total_order (fun _ : N => True) N.compare N.lt.
Proof.
  split.
  - intros a b _ _. apply N.compare_eq_iff.
  - intros a b _ _. apply N.compare_lt_iff.
  - intros a b _ _. apply N.compare_gt_iff.
  - intros a b c. apply N.lt_trans.
  - apply N.lt_irrefl.
Qed.

(** A smaller character has smaller bytes, whatever follows. *)
Lemma utf8_lt c d x y : scalar c -> scalar d -> (c < d)%N ->
  lex N.compare (utf8 c ++ x) (utf8 d ++ y) = Lt.
Proof.
  unfold scalar. intros Hc Hd Hlt. pose proof (digits c). pose proof (digits d). unfold utf8.
  destruct (N.ltb_spec c 128); [|destruct (N.ltb_spec c 2048); [|destruct (N.ltb_spec c 65536)]];
  (destruct (N.ltb_spec d 128); [|destruct (N.ltb_spec d 2048); [|destruct (N.ltb_spec d 65536)]]); try lia;
  cbn [app lex];
  repeat match goal with
  | |- (match N.compare ?a ?b with _ => _ end) = Lt =>
      destruct (N.compare_spec a b); [|reflexivity|exfalso; lia]
  end; exfalso; lia.
Qed.

Lemma lex_same {A} (cmp : A -> A -> comparison) (Hc : forall a, cmp a a = Eq) p x y :
  lex cmp (p ++ x) (p ++ y) = lex cmp x y.
Proof. induction p as [|a p IH]; cbn [app lex]; [reflexivity|]. rewrite Hc. exact IH. Qed.

Lemma lex_opp {A} (cmp : A -> A -> comparison) (Hc : forall a b, cmp b a = CompOpp (cmp a b)) a :
  forall b, lex cmp b a = CompOpp (lex cmp a b).
Proof.
  induction a as [|x a IH]; intros [|y b]; cbn [lex]; try reflexivity.
  rewrite Hc. destruct (cmp x y); cbn [CompOpp]; [apply IH|reflexivity|reflexivity].
Qed.

(** The byte order of UTF-8 is the order of the code points. *)
Lemma bytes_order a : forall b, text a -> text b ->
  lex N.compare (bytes a) (bytes b) = lex N.compare a b.
Proof.
  induction a as [|c a IH]; intros [|d b] Ha Hb; cbn [bytes flat_map lex].
  - reflexivity.
  - destruct (utf8_nonempty d) as (x & r & ->). reflexivity.
  - destruct (utf8_nonempty c) as (x & r & ->). reflexivity.
  - inversion Ha as [|? ? Hc Ha']; inversion Hb as [|? ? Hd Hb']; subst.
    destruct (N.compare_spec c d) as [->|Hlt|Hgt].
    + rewrite lex_same by apply N.compare_refl. apply IH; assumption.
    + apply utf8_lt; assumption.
    + rewrite lex_opp by (intros; apply N.compare_antisym). rewrite utf8_lt by assumption. reflexivity.
Qed.

Lemma str_order : total_order text str_cmp (before N.lt).
Proof.
  pose proof (lex_order _ _ _ N_order) as H.
  assert (T : forall s : str, Forall (fun _ : N => True) s) by (intro s; apply Forall_forall; auto).
  unfold str_cmp. split.
  - intros a b Ha Hb. rewrite bytes_order by assumption. apply (to_eq _ _ _ H); apply T.
  - intros a b Ha Hb. rewrite bytes_order by assumption. apply (to_lt _ _ _ H); apply T.
  - intros a b Ha Hb. rewrite bytes_order by assumption. apply (to_gt _ _ _ H); apply T.
  - apply (to_trans _ _ _ H).
  - apply (to_irrefl _ _ _ H).
Qed.

Lemma term_order : total_order term_text term_cmp term_before.
Proof.
  pose proof str_order as H. split.
  - intros [a|a] [b|b] Ha Hb; cbn [term_cmp]; try (split; discriminate).
    + rewrite (to_eq _ _ _ H a b Ha Hb). split; congruence.
    + rewrite (to_eq _ _ _ H a b Ha Hb). split; congruence.
  - intros [a|a] [b|b] Ha Hb; cbn [term_cmp].
    + rewrite (to_lt _ _ _ H a b Ha Hb). split; [intro; constructor; assumption|intro E; inversion E; assumption].
    + split; [intro; constructor|reflexivity].
    + split; [discriminate|intro E; inversion E].
    + rewrite (to_lt _ _ _ H a b Ha Hb). split; [intro; constructor; assumption|intro E; inversion E; assumption].
  - intros [a|a] [b|b] Ha Hb; cbn [term_cmp].
    + rewrite (to_gt _ _ _ H a b Ha Hb). split; [intro; constructor; assumption|intro E; inversion E; assumption].
    + split; [discriminate|intro E; inversion E].
    + split; [intro; constructor|reflexivity].
    + rewrite (to_gt _ _ _ H a b Ha Hb). split; [intro; constructor; assumption|intro E; inversion E; assumption].
  - intros a b c H1 H2. inversion H1; subst; inversion H2; subst; constructor; eapply (to_trans _ _ _ H); eassumption.
  - intros a E. inversion E; subst; eapply (to_irrefl _ _ _ H); eassumption.
Qed.

Lemma expression_order : total_order expression_text expression_cmp (before term_before).
Proof. apply (lex_order _ _ _ term_order). Qed.
