(** Proofs about the last part of Nesting.v: how deep generation recurses. *)
From Verif Require Export NestingProofs.
From Verif Require Import StrategyProofs.

Section Gen.
  Context {S : Type}.
  Variable choose : S -> nat -> production -> nat -> res (option expression * S).
  Variable accept : S -> str -> str -> bool * S.
  Variable g : grammar.

  Lemma agree_rbind {A B} (x y : res A) (f h : A -> res B) : agree x y -> (forall a, agree (f a) (h a)) -> agree (rbind x f) (rbind y h).
  Proof. intros [->|[->| ->]] H; cbn; [left; reflexivity|right; left; reflexivity|]. destruct y as [a| |]; cbn; try apply agree_refl. apply H. Qed.
  Lemma eval_terms_agree (f h : term -> S -> res (result str * S)) e : (forall t st, In t e -> agree (f t st) (h t st)) -> forall acc st, agree (eval_terms f e acc st) (eval_terms h e acc st).
  Proof.
    induction e as [|t e IH]; intros H acc st; [apply agree_refl|]. cbn [eval_terms]. apply agree_rbind; [apply H; left; reflexivity|].
    intros [[s|x] st']; [|apply agree_refl]. apply IH. intros t' st1 Ht. apply H. right. exact Ht.
  Qed.
  Lemma traverse_loop_agree (ev : str -> S -> res (result str * S)) depth (fuel' : nat) : forall tries fuel ident st,
    (forall f nt st, agree (ev nt st) (traverse choose accept g f nt st (depth + 1))) ->
    agree (traverse_loop choose accept g ev tries ident st depth) (traverse choose accept g fuel ident st depth).
  Proof.
    induction tries as [|tries IH]; intros [|fuel] ident st H; try (left; reflexivity); try (right; left; reflexivity). cbn [traverse_loop traverse].
    destruct (find_production g ident 0) as [[ix p]|]; [|apply agree_refl]. destruct (production_has_no_choice p); [apply agree_refl|].
    apply agree_rbind; [apply agree_refl|]. intros [[e|] st1]; [|apply agree_refl]. apply agree_rbind.
    - apply eval_terms_agree. intros [s|nt] st2 _; [apply agree_refl|apply H].
    - intros [[s|x] st2]; [|apply agree_refl]. destruct (accept st2 ident s) as [[|] st3]; [apply agree_refl|]. apply IH. exact H.
  Qed.
  Lemma traverse_deep_agree tries : forall levels fuel ident st depth,
    agree (traverse_deep choose accept g tries levels ident st depth) (traverse choose accept g fuel ident st depth).
  Proof.
    induction levels as [|levels IH]; intros fuel ident st depth; [left; reflexivity|]. cbn [traverse_deep]. apply traverse_loop_agree; [exact 0|].
    intros f nt st1. apply IH.
  Qed.
  Lemma generate_deep_agree tries levels fuel fuel' st :
    generate_deep choose accept g tries levels fuel st = OutOfFuel \/ generate choose accept g fuel' st = OutOfFuel \/
    generate_deep choose accept g tries levels fuel st = generate choose accept g fuel' st.
  Proof.
    unfold generate_deep, generate.
    assert (Ht : agree (terminates fuel g) (terminates fuel' g)).
    { unfold terminates. destruct (starting_term g) as [start|]; [|apply agree_refl]. destruct (term_init g) as [|t l]; [apply agree_refl|].
      generalize (t :: l). clear. revert fuel'. induction fuel as [|fuel IH]; intros [|fuel'] rules; try (left; reflexivity); try (right; left; reflexivity).
      cbn [term_loop]. destruct (term_pass start g rules false) as [[rules' [|]]|]; [apply IH|apply agree_refl|apply agree_refl]. }
    apply agree_rbind; [exact Ht|]. intros [|]; cbn [negb]; [|apply agree_refl]. destruct g as [|p g'] eqn:Eg; [apply agree_refl|]. rewrite <- Eg.
    destruct (p_lhs p); [apply agree_refl|]. apply traverse_deep_agree.
  Qed.

  (** A strategy that chooses no nonterminal from depth [max] on. *)
  Variable max : nat.
  Hypothesis Hmax : forall st ident ix p depth e st', find_production g ident 0 = Some (ix, p) -> max <= depth ->
    choose st ix p depth = Ok (Some e, st') -> forall n, ~ In (Nonterminal n) e.

  Lemma eval_terms_ext (f h : term -> S -> res (result str * S)) e : (forall t st, In t e -> f t st = h t st) -> forall acc st, eval_terms f e acc st = eval_terms h e acc st.
  Proof.
    induction e as [|t e IH]; intros H acc st; [reflexivity|]. cbn [eval_terms]. rewrite (H t st (or_introl eq_refl)).
    destruct (h t st) as [[[s|x] st']| |]; cbn; try reflexivity. apply IH. intros t' st1 Ht. apply H. right. exact Ht.
  Qed.
  Lemma traverse_loop_ext (ev ev' : str -> S -> res (result str * S)) depth : (depth < max -> forall nt st, ev nt st = ev' nt st) ->
    forall tries ident st, traverse_loop choose accept g ev tries ident st depth = traverse_loop choose accept g ev' tries ident st depth.
  Proof.
    intro H. induction tries as [|tries IH]; intros ident st; [reflexivity|]. cbn [traverse_loop].
    destruct (find_production g ident 0) as [[ix p]|] eqn:Ef; [|reflexivity]. destruct (production_has_no_choice p); [reflexivity|].
    destruct (choose st ix p depth) as [[[e|] st1]| |] eqn:Ec; cbn [rbind]; try reflexivity.
    rewrite (eval_terms_ext (fun t st => match t with Nonterminal nt => ev nt st | Terminal s => Ok (ROk s, st) end)
                            (fun t st => match t with Nonterminal nt => ev' nt st | Terminal s => Ok (ROk s, st) end) e).
    - match goal with |- rbind ?x _ = _ => destruct x as [[[s|x'] st2]| |]; cbn [rbind]; try reflexivity end.
      destruct (accept st2 ident s) as [[|] st3]; [reflexivity|apply IH].
    - intros [s|nt] st2 Ht; [reflexivity|]. destruct (Nat.lt_ge_cases depth max) as [Hd|Hd]; [apply H; exact Hd|].
      exfalso. exact (Hmax _ _ _ _ _ _ _ Ef Hd Ec nt Ht).
  Qed.
  Lemma traverse_deep_enough tries : forall levels extra ident st depth, max < levels + depth -> 0 < levels ->
    traverse_deep choose accept g tries (levels + extra) ident st depth = traverse_deep choose accept g tries levels ident st depth.
  Proof.
    induction levels as [|levels IH]; intros extra ident st depth H H0; [lia|]. cbn [Nat.add traverse_deep]. apply traverse_loop_ext.
    intros Hd nt st1. apply IH; lia.
  Qed.
End Gen.

Lemma find_production_In g ident : forall ix i p, find_production g ident ix = Some (i, p) -> In p g.
Proof.
  induction g as [|q g IH]; intros ix i p H; [discriminate|]. cbn [find_production] in H. destruct (term_eqb _ _); [injection H as _ <-; left; reflexivity|right; eauto].
Qed.
Lemma depth_bounded_levels R (rng : rng_ops R) max accept g tries extra fuel st :
  (forall p, In p g -> exists e, In e (p_rhs p) /\ forall n, ~ In (Nonterminal n) e) ->
  generate_deep (depth_bounded rng max) accept g tries (S max + extra) fuel st = generate_deep (depth_bounded rng max) accept g tries (S max) fuel st.
Proof.
  intro Hg. unfold generate_deep. destruct (terminates fuel g) as [[|]| |]; cbn [rbind negb]; try reflexivity. destruct g as [|p g'] eqn:Eg; [reflexivity|].
  rewrite <- Eg in *. destruct (p_lhs p) as [|nt]; [reflexivity|]. apply (traverse_deep_enough _ _ _ max); [|lia|lia].
  intros st0 ident ix q depth e st' Hf Hd Hc n. apply find_production_In in Hf. destruct (Hg q Hf) as (e' & He' & Ht').
  assert (Hne : p_rhs q <> []) by (intro E; rewrite E in He'; destruct He').
  destruct (depth_bounded_picks rng max st0 ix q depth Hne) as (e1 & r1 & E1 & Hin & Hall). rewrite E1 in Hc. injection Hc as <- <-.
  apply all_terminals_spec. apply Hall; [assumption|]. exists e'. split; [assumption|]. apply all_terminals_spec. assumption.
Qed.
