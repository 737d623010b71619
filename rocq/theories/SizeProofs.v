(** Proofs about the size of normalized grammars and of grammars read from text. *)
From Verif Require Import SizeSpec NormalizeClosed TextMain.
From Verif Require Import Properties_Text Properties_Normalize.
From Coq Require String.
Import String.StringSyntax.

(** ** Sums *)

Lemma sum_map_from {A B} (count : A -> nat) (f : nat -> A -> B) (W : B -> nat) (V : A -> nat) l :
  (forall k x, In x l -> W (f k x) = V x) -> forall k, list_sum (map W (map_from count f k l)) = list_sum (map V l).
Proof.
  induction l as [|x l IH]; intros H k; [reflexivity|]. cbn [map_from map].
  change (W (f k x) + list_sum (map W (map_from count f (k + count x) l)) = V x + list_sum (map V l)).
  rewrite H by (left; reflexivity). rewrite IH; [reflexivity|]. intros k' y Hy. apply H. right. assumption.
Qed.

Lemma sum_concat {A} (W : A -> nat) ll : list_sum (map W (concat ll)) = list_sum (map (fun l => list_sum (map W l)) ll).
Proof. induction ll as [|l ll IH]; [reflexivity|]. cbn [concat map]. rewrite map_app, list_sum_app, IH. reflexivity. Qed.

Lemma sum_cons x l : list_sum (x :: l) = x + list_sum l.
Proof. reflexivity. Qed.

Lemma sum_add {A} (f h : A -> nat) l : list_sum (map (fun x => f x + h x) l) = list_sum (map f l) + list_sum (map h l).
Proof. induction l as [|x l IH]; [reflexivity|]. cbn [map]. rewrite !sum_cons, IH. lia. Qed.

Lemma map_from_length {A B} (count : A -> nat) (f : nat -> A -> B) l : forall k, length (map_from count f k l) = length l.
Proof. induction l as [|x l IH]; intro k; [reflexivity|]. cbn [map_from length]. rewrite IH. reflexivity. Qed.

(** ** Normalization *)

(** A measure [W] of right hand sides; [V] of extended terms: what a term contributes where it
    stands ([own]) and by the rules for it ([rules]). *)
Section Measure.
Variable num : nat -> nat.
Variable W : production -> nat.
Variable rules : parsed_term -> nat.
Hypothesis rules_ok : forall t k, list_sum (map W (closed_rules num t k)) = rules t.

Lemma rules_alts es k : list_sum (map W (closed_rules_alts num k es)) =
  list_sum (map (fun e => list_sum (map rules e)) es).
Proof.
  unfold closed_rules_alts. rewrite sum_concat. apply sum_map_from. intros k' e _. rewrite sum_concat.
  apply sum_map_from. intros k'' t _. apply rules_ok.
Qed.

Variable own : list parsed_expression -> nat.
Hypothesis own_ok : forall p k es, W (mkProd p (closed_alts num k es)) = own es.

Lemma measure_form pg : list_sum (map W (closed_form num pg)) =
  list_sum (map (fun p => own (pp_rhs p)) pg) + over rules pg.
Proof.
  unfold closed_form. rewrite map_app, list_sum_app. f_equal.
  - apply sum_map_from. intros k p _. apply own_ok.
  - rewrite sum_concat. apply sum_map_from. intros k p _. apply rules_alts.
Qed.
End Measure.

(** Terms: weights that are the same for all nonterminals. *)
Section Weight.
Variable num : nat -> nat.
Variable w : term -> nat.
Variable v : nat.
Hypothesis w_nt : forall n, w (Nonterminal n) = v.

Definition w_own (t : parsed_term) : nat := match t with Simple t => w t | _ => v end.

Fixpoint w_rules (t : parsed_term) : nat :=
  let inside es := list_sum (map (fun e => list_sum (map (fun t => w_own t + w_rules t) e)) es) in
  match t with
  | Simple _ => 0
  | Group [] => w (Terminal [])
  | Group es => inside es
  | Optional es => w (Terminal []) + inside es
  end.

Lemma closed_terms_weight e : forall k, weight_expr w (closed_terms num k e) = list_sum (map w_own e).
Proof. intro k. apply sum_map_from. intros k' [t|es|es] _; cbn; auto. Qed.

Lemma closed_alts_weight es : forall k, weight_alts w (closed_alts num k es) =
  list_sum (map (fun e => list_sum (map w_own e)) es).
Proof. intro k. apply sum_map_from. intros k' e _. apply closed_terms_weight. Qed.

Lemma split_inside (f h : parsed_term -> nat) (es : list parsed_expression) :
  list_sum (map (fun e => list_sum (map (fun t => f t + h t) e)) es) =
  list_sum (map (fun e => list_sum (map f e)) es) + list_sum (map (fun e => list_sum (map h e)) es).
Proof. rewrite <- sum_add. f_equal. apply map_ext. intro e. apply sum_add. Qed.

Definition wp (p : production) : nat := weight_alts w (p_rhs p).

Lemma inner_weight (es : list parsed_expression) k :
  (forall e, In e es -> forall t, In t e -> forall k, list_sum (map wp (closed_rules num t k)) = w_rules t) ->
  list_sum (map wp (concat (map_from count_terms (fun k e =>
                    concat (map_from count_groups (fun k t => closed_rules num t k) k e)) k es))) =
  list_sum (map (fun e => list_sum (map w_rules e)) es).
Proof.
  intro IH. rewrite sum_concat. apply sum_map_from. intros k' e He. rewrite sum_concat.
  apply sum_map_from. intros k'' t Ht. apply (IH e He t Ht).
Qed.

Lemma w_rules_ok t : forall k, list_sum (map wp (closed_rules num t k)) = w_rules t.
Proof.
  induction t as [t|es IH|es IH] using parsed_term_ind'; intro k; [reflexivity| |];
    cbn [closed_rules]; rewrite map_app, list_sum_app, inner_weight by exact IH; cbn [map]; rewrite sum_cons.
  - destruct es as [|e es].
    + cbn. unfold wp, weight_alts, weight_expr. cbn. lia.
    + cbn [w_rules]. rewrite split_inside. unfold wp. cbn [p_rhs]. rewrite closed_alts_weight. change (list_sum []) with 0. lia.
  - cbn [w_rules]. rewrite split_inside. unfold wp. cbn [p_rhs]. unfold weight_alts. rewrite map_app, list_sum_app.
    fold (weight_alts w (closed_alts num (S k) es)). rewrite closed_alts_weight. unfold weight_expr. cbn. lia.
Qed.

Lemma weight_form pg : weight w (closed_form num pg) = over (fun t => w_own t + w_rules t) pg.
Proof.
  unfold weight. change (list_sum (map wp (closed_form num pg)) = over (fun t => w_own t + w_rules t) pg).
  rewrite (measure_form num wp w_rules w_rules_ok (fun es => list_sum (map (fun e => list_sum (map w_own e)) es))).
  2:{ intros p k es. apply closed_alts_weight. }
  unfold over. rewrite <- sum_add. f_equal. apply map_ext. intro p. symmetry. apply split_inside.
Qed.
End Weight.

Lemma over_ext f h pg : (forall t, f t = h t) -> over f pg = over h pg.
Proof.
  intro H. unfold over. f_equal. apply map_ext. intro p. f_equal. apply map_ext. intro e. f_equal. apply map_ext, H.
Qed.

Lemma inside_ext (f h : parsed_term -> nat) (es : list parsed_expression) :
  (forall e, In e es -> forall t, In t e -> f t = h t) ->
  list_sum (map (fun e => list_sum (map f e)) es) = list_sum (map (fun e => list_sum (map h e)) es).
Proof. intro H. f_equal. apply map_ext_in. intros e He. f_equal. apply map_ext_in. intros t Ht. apply (H e He t Ht). Qed.

Lemma items_split t : w_own (fun _ => 1) 1 t + w_rules (fun _ => 1) 1 t = item_terms t.
Proof.
  induction t as [t|es IH|es IH] using parsed_term_ind'; [reflexivity| |].
  - destruct es as [|e es]; [reflexivity|]. cbn [w_own w_rules item_terms]. f_equal. apply inside_ext, IH.
  - cbn [w_own w_rules item_terms]. rewrite (inside_ext _ item_terms es IH). lia.
Qed.

Lemma chars_split t : w_own terminal_chars 0 t + w_rules terminal_chars 0 t = item_chars t.
Proof.
  induction t as [t|es IH|es IH] using parsed_term_ind'; [cbn; lia| |].
  - destruct es as [|e es]; [reflexivity|]. cbn [w_own w_rules item_chars]. rewrite (inside_ext _ item_chars (e :: es) IH). reflexivity.
  - cbn [w_own w_rules item_chars terminal_chars]. rewrite (inside_ext _ item_chars es IH). reflexivity.
Qed.

(** Alternatives. *)
Lemma item_alts_ok num t : forall k, list_sum (map (fun p => length (p_rhs p)) (closed_rules num t k)) = item_alts t.
Proof.
  assert (I : forall es k,
    (forall e, In e es -> forall t, In t e -> forall k, list_sum (map (fun p => length (p_rhs p)) (closed_rules num t k)) = item_alts t) ->
    list_sum (map (fun p => length (p_rhs p)) (concat (map_from count_terms (fun k e =>
                    concat (map_from count_groups (fun k t => closed_rules num t k) k e)) k es))) =
    list_sum (map (fun e => list_sum (map item_alts e)) es)).
  { intros es k IH. rewrite sum_concat. apply sum_map_from. intros k' e He. rewrite sum_concat.
    apply sum_map_from. intros k'' u Hu. apply (IH e He u Hu). }
  induction t as [t|es IH|es IH] using parsed_term_ind'; intro k; [reflexivity| |];
    cbn [closed_rules]; rewrite map_app, list_sum_app, I by exact IH; cbn [map]; rewrite sum_cons; cbn [p_rhs].
  - destruct es as [|e es]; [reflexivity|]. cbn [item_alts]. unfold closed_alts. rewrite map_from_length. change (list_sum []) with 0. rewrite Nat.add_0_r. apply Nat.add_comm.
  - cbn [item_alts]. rewrite app_length. unfold closed_alts. rewrite map_from_length. cbn [length]. change (list_sum []) with 0. rewrite Nat.add_0_r. rewrite Nat.add_comm. reflexivity.
Qed.

Lemma closed_exists pg g : normalize_parsed_grammar pg = Ok g -> exists num, g = closed_form num pg.
Proof. intro H. destruct (normalize_closed_exists pg) as (num & _ & _ & E). exists num. congruence. Qed.

Lemma normalized_size pg g : normalize_parsed_grammar pg = Ok g ->
  length g = length pg + count_all pg /\
  alternatives_in g = list_sum (map (fun p => length (pp_rhs p)) pg) + over item_alts pg /\
  terms_in g = over item_terms pg /\ chars_in g = over item_chars pg.
Proof.
  intro H. split; [apply (C39_names_and_counts pg g H)|]. destruct (closed_exists pg g H) as (num & ->). split; [|split].
  - apply (measure_form num (fun p => length (p_rhs p)) item_alts (item_alts_ok num) (@length _)).
    intros p k es. cbn [p_rhs]. apply map_from_length.
  - unfold terms_in. rewrite (weight_form num (fun _ => 1) 1) by reflexivity. apply over_ext, items_split.
  - unfold chars_in. rewrite (weight_form num terminal_chars 0) by reflexivity. apply over_ext, chars_split.
Qed.

(** ** Text *)

Definition tok_weight (t : token) : nat := match t with TokString _ s => length s + 2 | _ => 1 end.
Definition toks_weight (ts : list token) : nat := list_sum (map tok_weight ts).

Lemma toks_weight_app a b : toks_weight (a ++ b) = toks_weight a + toks_weight b.
Proof. unfold toks_weight. rewrite map_app. apply list_sum_app. Qed.

Lemma toks_weight_cons t l : toks_weight (t :: l) = tok_weight t + toks_weight l.
Proof. reflexivity. Qed.

Lemma token_text_weight alphabetic N tok text : token_text alphabetic N tok text -> tok_weight tok <= length text.
Proof. intro H. destruct H; cbn; rewrite ?app_length; cbn; lia. Qed.

Lemma spells_weight alphabetic N toks s : spells alphabetic N toks s -> toks_weight toks <= length s.
Proof.
  induction 1 as [s H|tok text lay rest toks Ht Hl Ho Hn Hs IH]; [cbn; lia|].
  rewrite toks_weight_cons, !app_length. apply token_text_weight in Ht. lia.
Qed.

Lemma toks_size :
  (forall t ts, term_toks t ts -> item_terms t + item_chars t <= toks_weight ts /\ 2 * count_groups t + 1 <= toks_weight ts) /\
  (forall e ts, terms_toks e ts ->
     list_sum (map item_terms e) + list_sum (map item_chars e) <= toks_weight ts /\
     2 * count_terms e + length e <= toks_weight ts) /\
  (forall es ts, alts_toks es ts ->
     list_sum (map (fun e => list_sum (map item_terms e)) es) + list_sum (map (fun e => list_sum (map item_chars e)) es)
       <= toks_weight ts /\
     2 * count_alts es + 1 <= toks_weight ts).
Proof.
  apply toks_mutind.
  - intros q s. cbn. lia.
  - intros n. cbn. lia.
  - intros es ts Ha [H1 H2]. rewrite toks_weight_cons, toks_weight_app.
    assert (E : toks_weight [TokClose] = 1) by reflexivity. rewrite E. cbn [tok_weight].
    destruct es as [|e es]; [inversion Ha|]. cbn [item_terms item_chars count_groups].
    unfold count_alts, count_terms in H2. unfold parsed_expression in *. lia.
  - intros es ts Ha [H1 H2]. rewrite toks_weight_cons, toks_weight_app.
    assert (E : toks_weight [TokCloseOpt] = 1) by reflexivity. rewrite E. cbn [tok_weight].
    cbn [item_terms item_chars count_groups]. unfold count_alts, count_terms in H2. unfold parsed_expression in *. lia.
  - cbn. lia.
  - intros t e ts ts' H [H1 H2] He [H3 H4]. rewrite toks_weight_app. unfold count_terms in *. cbn [map length].
    rewrite !sum_cons. lia.
  - intros e ts Hne H [H1 H2]. unfold count_alts. cbn [map]. rewrite !sum_cons. cbn [list_sum fold_right].
    destruct e; [congruence|]. cbn [length] in H2. split; lia.
  - intros e es ts ts' Hne H [H1 H2] Hes [H3 H4]. rewrite toks_weight_app, toks_weight_cons. unfold count_alts in *. cbn [map].
    rewrite !sum_cons. cbn [tok_weight]. lia.
Qed.

Lemma productions_size pg ts : productions_toks pg ts ->
  over item_terms pg + over item_chars pg + 2 * length pg <= toks_weight ts /\
  2 * count_all pg + 3 * length pg <= toks_weight ts.
Proof.
  induction 1 as [|p ps ts ts' Hp Hps [IH1 IH2]]; [cbn; lia|].
  destruct Hp as (inc & us & Ha & ->). destruct (proj2 (proj2 toks_size) _ _ Ha) as [H1 H2].
  rewrite toks_weight_app, !toks_weight_cons. cbn [tok_weight length].
  unfold over, count_all in *. cbn [map]. rewrite !sum_cons. unfold count_alts, count_terms in H2. unfold parsed_expression in *. lia.
Qed.

(** The space (or the angle brackets) of the first name. *)
Lemma spells_define alphabetic N n inc toks s :
  spells alphabetic N (TokName n :: TokDefine inc :: toks) s -> toks_weight (TokName n :: TokDefine inc :: toks) + 1 <= length s.
Proof.
  intro H. inversion H as [|tok text lay rest toks' Ht Hl Ho Hn Hs]; subst.
  pose proof (spells_weight _ _ _ _ Hs) as Hw. rewrite toks_weight_cons, !app_length. cbn [tok_weight].
  inversion Ht; subst.
  - rewrite !app_length. unfold str, char in *. cbn in *. lia.
  - destruct lay as [|x lay]; [|cbn [length]; lia]. exfalso.
    destruct (Hn (c :: n0) eq_refl eq_refl) as [E|(d & r & E & Hd)].
    + cbn [app] in E. subst rest. cbn in Hw. lia.
    + cbn [app] in E. subst rest. inversion Hs as [|tok' text' lay' rest' toks'' Ht' Hl' Ho' Hn' Hs' Ea]; subst.
      assert (exists text'', text' = lit "=" ++ text'') as (text'' & ->).
      { inversion Ht'; subst; eexists; [instantiate (1 := []); reflexivity|instantiate (1 := lit "/"); reflexivity]. }
      cbn in H2. injection H2 as <- _. destruct Hd as [Hd|Hd]; [discriminate|]. cbn in Hd. destruct Hd as [Hd|[Hd|[]]]; discriminate.
Qed.

Lemma text_size alphabetic N pg s : grammar_text alphabetic N pg s ->
  over item_terms pg + over item_chars pg + 2 * length pg + 1 <= length s /\
  2 * (length pg + count_all pg) + 2 <= length s.
Proof.
  intros (lay & rest & toks & -> & _ & Hne & Hp & Hs). rewrite app_length.
  pose proof (productions_size pg toks Hp) as [H1 H2].
  assert (toks_weight toks + 1 <= length rest).
  { destruct Hp as [|p ps ts ts' Hq Hps]; [congruence|]. destruct Hq as (inc & us & Ha & ->). exact (spells_define _ _ _ _ _ _ Hs). }
  assert (1 <= length pg) by (destruct pg; [congruence|cbn; lia]). lia.
Qed.

(** ** Well-formed grammars *)

Lemma alternatives_terms g : (forall p e, In p g -> In e (p_rhs p) -> e <> []) -> alternatives_in g <= terms_in g.
Proof.
  intro H. unfold alternatives_in, terms_in, weight. induction g as [|p g IH]; [cbn; lia|]. cbn [map]. rewrite !sum_cons.
  assert (length (p_rhs p) <= weight_alts (fun _ => 1) (p_rhs p)).
  { specialize (fun e => H p e (or_introl eq_refl)). clear IH. induction (p_rhs p) as [|e es IH]; [cbn; lia|].
    unfold weight_alts. cbn [map length]. rewrite sum_cons. fold (weight_alts (fun _ => 1) es).
    assert (1 <= weight_expr (fun _ => 1) e).
    { destruct e as [|t e]; [exfalso; apply (H []); [left|]; reflexivity|]. unfold weight_expr. cbn. lia. }
    assert (length es <= weight_alts (fun _ => 1) es); [|lia]. apply IH. intros e' He'. apply H. right. assumption. }
  assert (list_sum (map (fun p0 => length (p_rhs p0)) g) <= list_sum (map (fun p0 => weight_alts (fun _ => 1) (p_rhs p0)) g)); [|lia].
  apply IH. intros q e Hq. apply H. right. assumption.
Qed.

Lemma read_size alphabetic s g : alphabetic_ok alphabetic -> grammar_from_str alphabetic s = Ok (ROk g) ->
  terms_in g + chars_in g + 3 <= length s /\ alternatives_in g <= terms_in g /\ 2 * length g + 2 <= length s.
Proof.
  intros Ha H. pose proof (C36_well_formed alphabetic s g Ha H) as [[_ Hw] _].
  apply C32_grammar_text in H; [|assumption]. destruct H as (N & pg & Ht & Hn).
  destruct (normalized_size pg g Hn) as (E1 & _ & E3 & E4). destruct (text_size _ _ _ _ Ht) as [H1 H2].
  assert (1 <= length pg).
  { destruct Ht as (? & ? & ? & _ & _ & Hne & _). destruct pg; [congruence|cbn; lia]. }
  split; [lia|]. split; [|lia]. apply alternatives_terms. intros p e Hp He. apply (proj2 (proj2 (Hw p Hp)) e He).
Qed.

(** ** The bounds are attained *)

Fixpoint nest (k : nat) : parsed_term :=
  match k with O => Simple (Nonterminal (lit "b")) | S k => Optional [[nest k]] end.
Definition nest_text (k : nat) : str := lit "a =" ++ repeat 91%N k ++ lit "b" ++ repeat 93%N k.

Lemma nest_toks k : term_toks (nest k) (repeat TokOpenOpt k ++ [TokName (lit "b")] ++ repeat TokCloseOpt k).
Proof.
  induction k as [|k IH]; [constructor|]. cbn [nest repeat app].
  replace (repeat TokOpenOpt k ++ TokName (lit "b") :: TokCloseOpt :: repeat TokCloseOpt k)
    with ((repeat TokOpenOpt k ++ [TokName (lit "b")] ++ repeat TokCloseOpt k) ++ [TokCloseOpt]).
  - constructor. constructor; [discriminate|]. rewrite <- (app_nil_r (repeat TokOpenOpt k ++ _)). constructor; [assumption|constructor].
  - rewrite <- app_assoc. cbn [app]. do 2 f_equal. change (TokCloseOpt :: repeat TokCloseOpt k) with (repeat TokCloseOpt (S k)).
    rewrite <- repeat_cons. reflexivity.
Qed.

Lemma closes_spelled alphabetic k : spells alphabetic Abnf (repeat TokCloseOpt k) (repeat 93%N k).
Proof.
  induction k as [|k IH]; [constructor; left; reflexivity|].
  apply (spells_token alphabetic Abnf TokCloseOpt (lit "]") [] (repeat 93%N k)); auto; try discriminate; constructor.
Qed.

Lemma opens_spelled alphabetic k toks s : spells alphabetic Abnf toks s ->
  spells alphabetic Abnf (repeat TokOpenOpt k ++ toks) (repeat 91%N k ++ s).
Proof.
  intro H. induction k as [|k IH]; [assumption|].
  apply (spells_token alphabetic Abnf TokOpenOpt (lit "[") [] (repeat 91%N k ++ s)); auto; try discriminate; constructor.
Qed.

Lemma nest_spelled alphabetic k : alphabetic 97%N = true -> alphabetic 98%N = true ->
  grammar_text alphabetic Abnf [mkParsed (lit "a") [[nest k]]] (nest_text k).
Proof.
  intros Ha Hb. exists [], (nest_text k), (TokName (lit "a") :: TokDefine false :: repeat TokOpenOpt k ++ [TokName (lit "b")] ++ repeat TokCloseOpt k).
  split; [reflexivity|]. split; [constructor|]. split; [discriminate|]. split.
  - rewrite <- (app_nil_r (TokName _ :: _)). constructor; [|constructor].
    exists false, (repeat TokOpenOpt k ++ [TokName (lit "b")] ++ repeat TokCloseOpt k). split; [|reflexivity].
    constructor; [discriminate|]. rewrite <- (app_nil_r (repeat TokOpenOpt k ++ _)). constructor; [apply nest_toks|constructor].
  - apply (spells_token alphabetic Abnf (TokName (lit "a")) (lit "a") (lit " ") (lit "=" ++ repeat 91%N k ++ lit "b" ++ repeat 93%N k)).
    + constructor; [assumption|]. intros x [<-|[]] [Hx|Hx]; [discriminate|]. cbn in Hx. destruct Hx as [Hx|[Hx|[]]]; discriminate.
    + constructor; [reflexivity|constructor].
    + intros [E|E]; discriminate.
    + intros n _ _. right. eexists 32%N, _. split; [reflexivity|]. left. reflexivity.
    + apply (spells_token alphabetic Abnf (TokDefine false) (lit "=") [] (repeat 91%N k ++ lit "b" ++ repeat 93%N k)).
      * constructor.
      * constructor.
      * intros [E|E]; discriminate.
      * discriminate.
      * apply opens_spelled.
        apply (spells_token alphabetic Abnf (TokName (lit "b")) (lit "b") [] (repeat 93%N k)).
        -- constructor; [assumption|]. intros x [<-|[]] [Hx|Hx]; [discriminate|]. cbn in Hx. destruct Hx as [Hx|[Hx|[]]]; discriminate.
        -- constructor.
        -- intros [E|E]; discriminate.
        -- intros n _ _. destruct k as [|k]; [left; reflexivity|]. right. eexists 93%N, _. split; [reflexivity|]. right. right. left. reflexivity.
        -- apply closes_spelled.
Qed.

Lemma nest_size k : item_terms (nest k) = 2 * k + 1 /\ item_chars (nest k) = 0 /\ item_alts (nest k) = 2 * k /\ count_groups (nest k) = k.
Proof. induction k as [|k (I1 & I2 & I3 & I4)]; [auto|]. cbn. rewrite I1, I2, I3, I4. lia. Qed.

Lemma bounds_attained alphabetic k : alphabetic_ok alphabetic -> alphabetic 97%N = true -> alphabetic 98%N = true ->
  exists g, grammar_from_str alphabetic (nest_text k) = Ok (ROk g) /\ length (nest_text k) = 2 * k + 4 /\
    terms_in g + chars_in g + 3 = length (nest_text k) /\ alternatives_in g = terms_in g /\ 2 * length g + 2 = length (nest_text k).
Proof.
  intros Ho Ha Hb. destruct (normalize_closed_exists [mkParsed (lit "a") [[nest k]]]) as (num & _ & _ & En).
  set (g := closed_form num _) in *. exists g.
  split. { apply C32_grammar_text; [assumption|]. eauto using nest_spelled. }
  assert (El : length (nest_text k) = 2 * k + 4).
  { unfold nest_text. rewrite !app_length, !repeat_length. cbn. lia. }
  rewrite El. split; [reflexivity|]. destruct (normalized_size _ g En) as (E1 & E2 & E3 & E4). destruct (nest_size k) as (I1 & I2 & I3 & I4).
  rewrite E1, E2, E3, E4. unfold over, count_all. cbn [map pp_rhs list_sum fold_right length]. rewrite I1, I2, I3, I4. lia.
Qed.
