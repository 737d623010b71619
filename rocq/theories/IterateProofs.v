(** Proofs about the iterators, and about rewriting the terminals of a grammar. *)
From Verif Require Export IterateSpec GenProofs ParseGrammarProofs EarleyMain StrategyProofs.

(** ** Mutable iteration *)

Section Mutable.
  Context {S : Type}.

  Lemma iter_mut_app {A} (f : A -> S -> A * bool * S) a b : forall st,
    iter_mut f (a ++ b) st =
    let '(a', more, st) := iter_mut f a st in
    if more then let '(b', more, st) := iter_mut f b st in (a' ++ b', more, st) else (a' ++ b, false, st).
  Proof.
    induction a as [|x a IH]; intro st; cbn [app iter_mut].
    - destruct (iter_mut f b st) as [[b' more] st']. reflexivity.
    - destruct (f x st) as [[x' more] st1]. destruct more; [|reflexivity]. rewrite IH.
      destruct (iter_mut f a st1) as [[a' more] st2]. destruct more; [|reflexivity].
      destruct (iter_mut f b st2) as [[b' more] st3]. reflexivity.
  Qed.

  Lemma iter_mut_length {A} (f : A -> S -> A * bool * S) l : forall st l' more st',
    iter_mut f l st = (l', more, st') -> length l' = length l.
  Proof.
    induction l as [|x l IH]; intros st l' more st' H; cbn [iter_mut] in H.
    - injection H as <- <- <-. reflexivity.
    - destruct (f x st) as [[x' m] st1]. destruct m.
      + destruct (iter_mut f l st1) as [[r' m] st2] eqn:E. injection H as <- <- <-. cbn. f_equal. eapply IH. exact E.
      + injection H as <- <- <-. reflexivity.
  Qed.

  (** Nested iteration is iteration over the flattened list. *)
  Lemma iter_mut_nested {A B} (flat : A -> list B) (inner : A -> S -> A * bool * S) (f : B -> S -> B * bool * S)
      (Q : A -> A -> Prop) (Hq : forall a, Q a a)
      (Hin : forall a st a' more st', inner a st = (a', more, st') ->
         Q a a' /\ iter_mut f (flat a) st = (flat a', more, st')) l : forall st l' more st',
    iter_mut inner l st = (l', more, st') ->
    Forall2 Q l l' /\ iter_mut f (flat_map flat l) st = (flat_map flat l', more, st').
  Proof.
    induction l as [|x l IH]; intros st l' more st' H; cbn [iter_mut] in H.
    - injection H as <- <- <-. split; [constructor|reflexivity].
    - destruct (inner x st) as [[x' m] st1] eqn:E. destruct (Hin _ _ _ _ _ E) as [Hx Hf].
      cbn [flat_map]. rewrite iter_mut_app, Hf. destruct m.
      + destruct (iter_mut inner l st1) as [[r' m2] st2] eqn:E2. injection H as <- <- <-.
        destruct (IH _ _ _ _ E2) as [HF Hr]. split; [constructor; assumption|]. rewrite Hr. reflexivity.
      + injection H as <- <- <-. split; [|reflexivity]. constructor; [assumption|]. clear IH.
        induction l; constructor; auto.
  Qed.

  Lemma all_terms_mut_flat (f : term -> S -> term * bool * S) g st g' more st' :
    all_terms_mut f g st = (g', more, st') ->
    same_shape g g' /\ iter_mut f (right_hand_terms g) st = (right_hand_terms g', more, st').
  Proof.
    intro H.
    pose (Qe := fun e e' : expression => length e = length e').
    pose (Qp := fun p p' => p_lhs p = p_lhs p' /\ Forall2 Qe (p_rhs p) (p_rhs p')).
    assert (Hrefl : forall l, Forall2 Qe l l) by (induction l; constructor; auto; reflexivity).
    assert (E : forall l : grammar, right_hand_terms l = flat_map (fun p => flat_map terms_iter (p_rhs p)) l).
    { unfold right_hand_terms, productions_iter. induction l as [|p l IH]; cbn; [reflexivity|]. rewrite flat_map_app, IH. reflexivity. }
    rewrite !E.
    apply (iter_mut_nested (fun p => flat_map terms_iter (p_rhs p)) (rhs_iter_mut (terms_iter_mut f)) f Qp); [| |exact H].
    - intro p. split; [reflexivity|apply Hrefl].
    - intros p s p' m s' Hp. unfold rhs_iter_mut in Hp.
      destruct (iter_mut (terms_iter_mut f) (p_rhs p) s) as [[rhs m1] s1] eqn:E1. injection Hp as <- <- <-. cbn [p_lhs p_rhs].
      destruct (iter_mut_nested terms_iter (terms_iter_mut f) f Qe (fun _ => eq_refl)
                  (fun e s e' m s' He => conj (eq_sym (iter_mut_length _ _ _ _ _ _ He)) He) _ _ _ _ _ E1) as [HF Hr].
      split; [split; [reflexivity|exact HF]|exact Hr].
  Qed.

  (** A consumer that always continues and keeps no state. *)
  Lemma iter_mut_map {A} (f : A -> S -> A * bool * S) (k : A -> A) (Hf : forall x st, f x st = (k x, true, st)) l st :
    iter_mut f l st = (map k l, true, st).
  Proof. induction l as [|x l IH]; cbn [iter_mut map]; [reflexivity|]. rewrite Hf, IH. reflexivity. Qed.
End Mutable.

Lemma rewrite_terminals {S} (h : str -> str) g (st : S) :
  all_terms_mut (filtered (fun t => negb (is_nonterminal t))
                   (fun t st => (match t with Terminal s => Terminal (h s) | Nonterminal n => Nonterminal n end, true, st))) g st =
  (map_terminals h g, true, st).
Proof.
  unfold all_terms_mut, productions_iter_mut, map_terminals. apply iter_mut_map. intros p s.
  unfold rhs_iter_mut. erewrite iter_mut_map; [reflexivity|]. intros e s'. unfold terms_iter_mut. apply iter_mut_map.
  intros [x|x] s''; reflexivity.
Qed.

(** ** Trees *)

Lemma root_map_leaves h t : root (map_leaves h t) = root t.
Proof. destruct t. reflexivity. Qed.

Lemma In_map_terminals h g p' : In p' (map_terminals h g) <-> exists p, In p g /\ p' = map_production h p.
Proof. unfold map_terminals. rewrite in_map_iff. split; intros (p & H1 & H2); eauto. Qed.

Scheme derives_mind := Minimality for derives Sort Prop
  with kids_match_mind := Minimality for kids_match Sort Prop.
Combined Scheme derives_mutind from derives_mind, kids_match_mind.

Lemma map_leaves_derives h g :
  (forall t, derives g t -> derives (map_terminals h g) (map_leaves h t)) /\
  (forall e ks, kids_match g e ks -> kids_match (map_terminals h g) (map (on_terminal h) e) (map (map_leaves_node h) ks)).
Proof.
  apply (derives_mutind g (fun t => derives (map_terminals h g) (map_leaves h t))
           (fun e ks => kids_match (map_terminals h g) (map (on_terminal h) e) (map (map_leaves_node h) ks))).
  - intros p rhs kids Hp Hr _ IH. cbn [map_leaves].
    apply (derives_node _ (map_production h p) (map (on_terminal h) rhs)); [apply in_map, Hp|apply in_map, Hr|exact IH].
  - constructor.
  - intros s r ks _ IH. cbn. constructor. exact IH.
  - intros n t r ks Hr _ IHt _ IH. cbn. constructor; [rewrite root_map_leaves; exact Hr|exact IHt|exact IH].
Qed.

Lemma map_leaves_inv h g :
  (forall t', derives (map_terminals h g) t' -> exists t, derives g t /\ t' = map_leaves h t) /\
  (forall e' ks', kids_match (map_terminals h g) e' ks' ->
     forall e, e' = map (on_terminal h) e -> exists ks, kids_match g e ks /\ ks' = map (map_leaves_node h) ks).
Proof.
  apply (derives_mutind (map_terminals h g) (fun t' => exists t, derives g t /\ t' = map_leaves h t)
           (fun e' ks' => forall e, e' = map (on_terminal h) e -> exists ks, kids_match g e ks /\ ks' = map (map_leaves_node h) ks)).
  - intros p' rhs' kids' Hp Hr _ IH. apply In_map_terminals in Hp. destruct Hp as (p & Hp & ->). cbn [map_production p_lhs p_rhs] in *.
    apply in_map_iff in Hr. destruct Hr as (rhs & <- & Hr). destruct (IH rhs eq_refl) as (ks & Hk & ->).
    exists (Node (p_lhs p) ks). split; [apply (derives_node g p rhs); assumption|reflexivity].
  - intros [|t e] E; [|discriminate]. exists []. split; [constructor|reflexivity].
  - intros s r ks _ IH [|[x|x] e] E; try discriminate. cbn in E. injection E as -> E. destruct (IH e E) as (ks0 & Hk & ->).
    exists (Leaf x :: ks0). split; [constructor; exact Hk|reflexivity].
  - intros n t r ks Hr _ (t0 & Ht & ->) _ IH [|[x|x] e] E; try discriminate. cbn in E. injection E as -> E.
    destruct (IH e E) as (ks0 & Hk & ->). exists (Sub t0 :: ks0).
    split; [constructor; [rewrite root_map_leaves in Hr; exact Hr|exact Ht|exact Hk]|reflexivity].
Qed.

Lemma map_terminals_parses h g start w t' :
  parses (map_terminals h g) start w t' <->
  exists t, derives g t /\ root t = start /\ t' = map_leaves h t /\ yield t' = w.
Proof.
  split.
  - intros (Hd & Hr & Hy). destruct (proj1 (map_leaves_inv h g) t' Hd) as (t & Ht & ->).
    exists t. rewrite root_map_leaves in Hr. auto.
  - intros (t & Ht & Hr & -> & Hy). split; [apply (proj1 (map_leaves_derives h g)), Ht|]. rewrite root_map_leaves. auto.
Qed.

(** ** Validation *)

Lemma record_rhs_map h e : forall s, fold_left record_rhs_term (map (on_terminal h) e) s = fold_left record_rhs_term e s.
Proof. induction e as [|[x|x] e IH]; intro s; cbn; [reflexivity|apply IH|apply IH]. Qed.

Lemma record_alts_map h es : forall s,
  fold_left (fun s e => fold_left record_rhs_term e s) (map (map (on_terminal h)) es) s =
  fold_left (fun s e => fold_left record_rhs_term e s) es s.
Proof. induction es as [|e es IH]; intro s; cbn; [reflexivity|]. rewrite record_rhs_map. apply IH. Qed.

Lemma validate_map h ho g : validate ho (map_terminals h g) = validate ho g.
Proof.
  assert (E : forall s, fold_left (fun s p => fold_left (fun s e => fold_left record_rhs_term e s) (p_rhs p) (record_lhs_term s (p_lhs p)))
                 (map_terminals h g) s =
              fold_left (fun s p => fold_left (fun s e => fold_left record_rhs_term e s) (p_rhs p) (record_lhs_term s (p_lhs p))) g s).
  { induction g as [|p g IH]; intro s; cbn; [reflexivity|]. rewrite record_alts_map. apply IH. }
  unfold validate, validate_sets. rewrite E. destruct g; reflexivity.
Qed.

Lemma flat_prods_map h g : flat_prods (map_terminals h g) = map (fun x => (fst x, map (on_terminal h) (snd x))) (flat_prods g).
Proof.
  unfold flat_prods, map_terminals. induction g as [|p g IH]; cbn; [reflexivity|].
  rewrite map_app, IH, !map_map. reflexivity.
Qed.

Lemma pg_sets_map h l : forall s pg pg',
  fst (fold_left pg_step (map (fun x => (fst x, map (on_terminal h) (snd x))) l) (s, pg')) = fst (fold_left pg_step l (s, pg)).
Proof.
  induction l as [|x l IH]; intros s pg pg'; cbn [map fold_left]; [reflexivity|].
  cbn [pg_step fst snd]. rewrite record_rhs_map. apply IH.
Qed.

(** [build_parser] succeeds for both or fails for both with the same error. *)
Lemma build_parser_map h ho g :
  (exists p p', build_parser ho g = ROk p /\ build_parser ho (map_terminals h g) = ROk p') \/
  (exists e, build_parser ho g = RErr e /\ build_parser ho (map_terminals h g) = RErr e).
Proof.
  unfold build_parser. assert (Es : starting_term (map_terminals h g) = starting_term g) by (destruct g; reflexivity).
  rewrite Es. destruct (starting_term g) as [st|]; [|right; eexists; split; reflexivity].
  unfold pg_new. rewrite flat_prods_map.
  pose proof (pg_sets_map h (flat_prods g) sets_new (mkPG [] []) (mkPG [] [])) as E.
  match goal with |- context [fold_left pg_step (map ?f ?l) ?a] => destruct (fold_left pg_step (map f l) a) as [s' pg'] end.
  destruct (fold_left pg_step (flat_prods g) (sets_new, mkPG [] [])) as [s pg]. cbn [fst] in E. subst s'.
  destruct (undefined ho s); [left; eexists _, _|right; eexists]; split; reflexivity.
Qed.

(** ** The guard *)

Lemma existsb_nt_map h e : existsb is_nonterminal (map (on_terminal h) e) = existsb is_nonterminal e.
Proof. induction e as [|[x|x] e IH]; cbn; [reflexivity|exact IH|reflexivity]. Qed.
Lemma filter_nt_map h e : filter is_nonterminal (map (on_terminal h) e) = filter is_nonterminal e.
Proof. induction e as [|[x|x] e IH]; cbn; [reflexivity|exact IH|f_equal; exact IH]. Qed.
Lemma expr_terminates_map h e rules : expr_terminates (map (on_terminal h) e) rules = expr_terminates e rules.
Proof. unfold expr_terminates. rewrite existsb_nt_map, filter_nt_map. reflexivity. Qed.
Lemma has_term_map h p rules : has_terminating_expression (map_production h p) rules = has_terminating_expression p rules.
Proof.
  unfold has_terminating_expression. cbn [map_production p_rhs]. induction (p_rhs p) as [|e l IH]; cbn; [reflexivity|].
  rewrite expr_terminates_map, IH. reflexivity.
Qed.
Lemma term_init_map h g : term_init (map_terminals h g) = term_init g.
Proof. unfold term_init, map_terminals. induction g as [|p g IH]; cbn [map flat_map]; [reflexivity|]. rewrite has_term_map, IH. reflexivity. Qed.
Lemma term_pass_map h start ps : forall rules b, term_pass start (map_terminals h ps) rules b = term_pass start ps rules b.
Proof.
  induction ps as [|p ps IH]; intros rules b; cbn [map_terminals map term_pass]; [reflexivity|].
  rewrite has_term_map. cbn [map_production p_lhs]. fold (map_terminals h ps). rewrite !IH. reflexivity.
Qed.
Lemma term_loop_map h start g fuel : forall rules, term_loop fuel start (map_terminals h g) rules = term_loop fuel start g rules.
Proof.
  induction fuel as [|fuel IH]; intro rules; cbn [term_loop]; [reflexivity|].
  rewrite term_pass_map. destruct (term_pass start g rules false) as [[r [|]]|]; [apply IH|reflexivity|reflexivity].
Qed.
Lemma terminates_map h g fuel : terminates fuel (map_terminals h g) = terminates fuel g.
Proof.
  unfold terminates. replace (starting_term (map_terminals h g)) with (starting_term g) by (destruct g; reflexivity).
  rewrite term_init_map. destruct (starting_term g); [|reflexivity]. destruct (term_init g); [reflexivity|]. apply term_loop_map.
Qed.

(** ** Strategies *)

Lemma nth_error_map {A B} (f : A -> B) l : forall i, nth_error (map f l) i = option_map f (nth_error l i).
Proof. induction l as [|x l IH]; intros [|i]; cbn; auto. Qed.

Lemma blind_random_walk {R} (rng : rng_ops R) : blind_to_terminals (random_walk rng).
Proof.
  intros h r addr p n depth _. unfold random_walk. cbn [map_production p_rhs]. unfold expression. rewrite map_length.
  match goal with |- context [rbind ?x _] => destruct x as [[i r']| |] end; cbn; [|reflexivity|reflexivity].
  rewrite nth_error_map. reflexivity.
Qed.

Lemma all_terminals_map h e : expression_all_terminals (map (on_terminal h) e) = expression_all_terminals e.
Proof. induction e as [|[x|x] e IH]; cbn; [reflexivity|exact IH|reflexivity]. Qed.

Lemma indices_where_map {A B} (k : A -> B) (f : nat -> B -> bool) (f' : nat -> A -> bool) (H : forall i x, f i (k x) = f' i x) l :
  forall i, indices_where f i (map k l) = indices_where f' i l.
Proof. induction l as [|x l IH]; intro i; cbn; [reflexivity|]. rewrite H, IH. reflexivity. Qed.

Lemma eligible_map h max p depth : depth_bounded_eligible max (map_production h p) depth = depth_bounded_eligible max p depth.
Proof.
  unfold depth_bounded_eligible. cbn [map_production p_rhs]. unfold expression. rewrite map_length. destruct (Nat.leb max depth); [|reflexivity].
  apply indices_where_map. intros _ e. apply all_terminals_map.
Qed.

Lemma blind_depth_bounded {R} (rng : rng_ops R) max : blind_to_terminals (depth_bounded rng max).
Proof.
  intros h r addr p n depth _. unfold depth_bounded. rewrite eligible_map. cbn [map_production p_rhs]. unfold expression. rewrite map_length.
  match goal with |- context [rbind ?x _] => destruct x as [[i r']| |] end; cbn; [|reflexivity|reflexivity]. rewrite nth_error_map. reflexivity.
Qed.

Lemma blind_coverage {R} (rng : rng_ops R) : blind_to_terminals (coverage_guided rng).
Proof.
  intros h r addr p n depth _. unfold coverage_guided, coverage_index. cbn [map_production p_rhs]. unfold expression. rewrite map_length.
  match goal with |- context [rbind ?x _] => destruct x as [[i r']| |] end; cbn; [|reflexivity|reflexivity]. rewrite nth_error_map. reflexivity.
Qed.

Lemma contains_map h e n : expression_contains (map (on_terminal h) e) (Nonterminal n) = expression_contains e (Nonterminal n).
Proof.
  unfold expression_contains. induction e as [|[x|x] e IH]; cbn; [reflexivity|exact IH|]. rewrite IH. reflexivity.
Qed.

Lemma blind_weighted {R} (rng : rng_ops R) checks rec nonrec : blind_to_terminals (weighted rng checks rec nonrec).
Proof.
  intros h r addr p n depth Hn. unfold weighted.
  assert (E : fill_weights rec nonrec (map_production h p) = fill_weights rec nonrec p).
  { unfold fill_weights. cbn [map_production p_rhs p_lhs]. rewrite map_map, Hn. apply map_ext. intro e. rewrite contains_map. reflexivity. }
  rewrite E. cbn [map_production p_rhs]. unfold expression. rewrite map_length.
  match goal with |- context [rbind ?x _] => destruct x as [[i r']| |] end; cbn; [|reflexivity|reflexivity]. rewrite nth_error_map. reflexivity.
Qed.

(** ** Generation *)

Lemma find_production_map h g n : forall ix,
  find_production (map_terminals h g) n ix = option_map (fun x => (fst x, map_production h (snd x))) (find_production g n ix).
Proof.
  induction g as [|p g IH]; intro ix; cbn [map_terminals map find_production]; [reflexivity|]. cbn [map_production p_lhs].
  destruct (term_eqb (p_lhs p) (Nonterminal n)); [reflexivity|]. apply IH.
Qed.

Lemma no_choice_map h p : production_has_no_choice (map_production h p) = production_has_no_choice p.
Proof. unfold production_has_no_choice. cbn [map_production p_rhs]. destruct (p_rhs p) as [|[|t e] [|e' l]]; reflexivity. Qed.

Section Generation.
  Context {S : Type}.
  Variable choose : S -> nat -> production -> nat -> res (option expression * S).
  Hypothesis Hlaw : lawful choose.
  Hypothesis Hblind : blind_to_terminals choose.
  Variable h : str -> str.
  Variable g : grammar.
  Hypothesis Hclosed : forall n, refers g n -> has_lhs g n.
  Let yes : S -> str -> str -> bool * S := pure_callback (fun _ _ => true).

  Definition kids_outcome (e : expression) (acc acc' : str) (x x' : res (result str * S)) : Prop :=
    match x with
    | Ok (ROk w, st) => exists ks, kids_match g e ks /\ w = acc ++ flat_map yield_node ks /\
        x' = Ok (ROk (acc' ++ flat_map yield_node (map (map_leaves_node h) ks)), st)
    | _ => x' = x
    end.

  Lemma eval_terms_map (ev ev' : term -> S -> res (result str * S)) e :
    (forall s st, ev (Terminal s) st = Ok (ROk s, st)) -> (forall s st, ev' (Terminal s) st = Ok (ROk s, st)) ->
    (forall n st, In (Nonterminal n) e -> same_expansion h g n (ev (Nonterminal n) st) (ev' (Nonterminal n) st)) ->
    forall acc acc' st, kids_outcome e acc acc' (eval_terms ev e acc st) (eval_terms ev' (map (on_terminal h) e) acc' st).
  Proof.
    intros Ht Ht'. induction e as [|t e IH]; intros Hn acc acc' st; cbn [eval_terms map].
    - exists []. split; [constructor|]. cbn. rewrite !app_nil_r. auto.
    - destruct t as [s|n]; cbn [on_terminal].
      + rewrite Ht, Ht'. cbn [rbind].
        pose proof (IH (fun n st Hi => Hn n st (or_intror Hi)) (acc ++ s) (acc' ++ h s) st) as Hk.
        unfold kids_outcome in *. destruct (eval_terms ev e (acc ++ s) st) as [[[w|x] st1]| |]; auto.
        destruct Hk as (ks & Hk & -> & ->). exists (Leaf s :: ks). split; [constructor; exact Hk|].
        cbn [map flat_map map_leaves_node yield_node]. rewrite <- !app_assoc. auto.
      + pose proof (Hn n st (or_introl eq_refl)) as H1. unfold same_expansion in H1.
        destruct (ev (Nonterminal n) st) as [[[w|x] st1]| |]; cbn [rbind];
          [|rewrite H1; reflexivity|rewrite H1; reflexivity|rewrite H1; reflexivity].
        destruct H1 as (t & (Hd & Hr & Hy) & ->). cbn [rbind].
        pose proof (IH (fun n st Hi => Hn n st (or_intror Hi)) (acc ++ w) (acc' ++ yield (map_leaves h t)) st1) as Hk.
        unfold kids_outcome in *. destruct (eval_terms ev e (acc ++ w) st1) as [[[w2|x] st2]| |]; auto.
        destruct Hk as (ks & Hk & -> & ->). exists (Sub t :: ks). split; [constructor; assumption|].
        cbn [map flat_map map_leaves_node yield_node]. rewrite <- !app_assoc, Hy. auto.
  Qed.

  Lemma traverse_map fuel : forall n st depth, has_lhs g n ->
    same_expansion h g n (traverse choose yes g fuel n st depth) (traverse choose yes (map_terminals h g) fuel n st depth).
  Proof.
    induction fuel as [|fuel IH]; intros n st depth Hl; [reflexivity|]. cbn [traverse].
    rewrite find_production_map. destruct (find_production g n 0) as [[ix p]|] eqn:E.
    2: { exfalso. exact (find_production_None _ _ _ E Hl). }
    cbn [option_map fst snd]. rewrite no_choice_map.
    pose proof (find_production_Some _ _ _ _ _ E) as Hf. assert (Hp : In p g /\ p_lhs p = Nonterminal n) by (eapply first_for_In, Hf).
    destruct Hp as [Hp Hn]. destruct (production_has_no_choice p); [reflexivity|].
    rewrite (Hblind h st ix p n depth Hn). destruct (choose st ix p depth) as [[[e|] st1]| |] eqn:Ec; cbn [map_choice rbind option_map]; try reflexivity.
    pose proof (Hlaw _ _ _ _ _ _ Ec) as He.
    pose proof (eval_terms_map
      (fun t st => match t with Nonterminal nt => traverse choose yes g fuel nt st (depth + 1) | Terminal s => Ok (ROk s, st) end)
      (fun t st => match t with Nonterminal nt => traverse choose yes (map_terminals h g) fuel nt st (depth + 1) | Terminal s => Ok (ROk s, st) end)
      e (fun _ _ => eq_refl) (fun _ _ => eq_refl)
      (fun m s Hm => IH m s (depth + 1) (Hclosed m (ex_intro _ p (ex_intro _ e (conj Hp (conj He Hm)))))) [] [] st1) as Hk.
    unfold kids_outcome in Hk.
    destruct (eval_terms _ e [] st1) as [[[w|x] st2]| |]; cbn [rbind];
      [|rewrite Hk; reflexivity|rewrite Hk; reflexivity|rewrite Hk; reflexivity].
    destruct Hk as (ks & Hk & -> & ->). cbn [rbind app]. unfold yes, pure_callback. cbn [same_expansion].
    exists (Node (p_lhs p) ks). split.
    - split; [apply (derives_node g p e); assumption|]. split; [exact Hn|reflexivity].
    - reflexivity.
  Qed.

  Lemma generate_map fuel n p rest st : g = p :: rest -> p_lhs p = Nonterminal n ->
    same_expansion h g n (generate_with_strategy choose g fuel st) (generate_with_strategy choose (map_terminals h g) fuel st).
  Proof.
    intros Eg Hn. unfold generate_with_strategy, generate. rewrite terminates_map.
    destruct (terminates fuel g) as [[|]| |]; cbn [rbind negb]; try reflexivity.
    assert (Hl : has_lhs g n) by (exists p; split; [rewrite Eg; left; reflexivity|exact Hn]).
    pose proof (traverse_map fuel n st 0 Hl) as H. clear Hl. revert H. clear Hclosed. subst g.
    cbn [map_terminals map]. cbn [map_production p_lhs]. rewrite Hn. exact (fun H => H).
  Qed.
End Generation.
