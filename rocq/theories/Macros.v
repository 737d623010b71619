(** The macros [term!], [expression!], [production!] and [grammar!] as functions on tokens.

    Tokens: [<name>] is one token here (the three tokens of the Rust source always appear
    together in the patterns), a literal is its text, and [|], [;], [::=].  [None] means that no
    macro rule matches (a compile error).  Rules are tried in source order. *)
From Verif Require Export Syntax.

Inductive mtok : Type := MNt (n : str) | MLit (s : str) | MBar | MSemi | MDef.

(** src/expression.rs:115-127: the [@collect] rules. *)
Fixpoint expression_collect (collected : expression) (toks : list mtok) : option expression :=
  match toks with
  | MNt n :: rest => expression_collect (collected ++ [Nonterminal n]) rest
  | MLit s :: rest => expression_collect (collected ++ [Terminal s]) rest
  | nil => Some collected
  | _ => None
  end.

(** src/expression.rs:106-114: the entry rules of [expression!]. *)
Definition expression_macro (toks : list mtok) : option expression :=
  match toks with
  | MNt n :: rest => expression_collect [Nonterminal n] rest
  | MLit s :: rest => expression_collect [Terminal s] rest
  | _ => None
  end.

(** src/production.rs:145-174: the [@collect_exprs] rules.  [current] is the expression being
    collected, [prev] the finished ones, most recent first; the base case pushes [prev] in the
    order in which it is stored and then [current]. *)
Fixpoint collect_exprs (current : expression) (prev : list expression) (toks : list mtok) : option (list expression) :=
  match toks with
  | MBar :: rest => collect_exprs [] (current :: prev) rest
  | MLit s :: rest => collect_exprs (current ++ [Terminal s]) prev rest
  | MNt n :: rest => collect_exprs (current ++ [Nonterminal n]) prev rest
  | nil => Some (prev ++ [current])
  | _ => None
  end.

(** src/production.rs:132-143: the entry rule of [production!]. *)
Definition production_macro (toks : list mtok) : option production :=
  match toks with
  | MNt lhs :: MDef :: rest => option_map (mkProd (Nonterminal lhs)) (collect_exprs [] [] rest)
  | _ => None
  end.

(** src/grammar.rs:837-903: the [@collect_prods] rules.  [terms] is the current expression,
    [exprs] the finished expressions of the current production (most recent first), [lhs] its
    name, [prods] the finished productions (most recent first).  Finishing a production stores
    the expressions as [terms] followed by [exprs]; the base case builds the stored productions
    in that order and then the last one, as [exprs] followed by [terms]. *)
Fixpoint collect_prods (terms : expression) (exprs : list expression) (lhs : str) (prods : list production)
    (toks : list mtok) {struct toks} : option (list production) :=
  match toks with
  | MSemi :: nil => Some (prods ++ [mkProd (Nonterminal lhs) (exprs ++ [terms])])
  | MSemi :: MNt next :: MDef :: rest =>
      collect_prods [] [] next (mkProd (Nonterminal lhs) (terms :: exprs) :: prods) rest
  | MBar :: rest => collect_prods [] (terms :: exprs) lhs prods rest
  | MLit s :: rest => collect_prods (terms ++ [Terminal s]) exprs lhs prods rest
  | MNt n :: rest => collect_prods (terms ++ [Nonterminal n]) exprs lhs prods rest
  | nil => Some (prods ++ [mkProd (Nonterminal lhs) (exprs ++ [terms])])
  | _ => None
  end.

(** src/grammar.rs:823-835: the entry rules of [grammar!]. *)
Definition grammar_macro (toks : list mtok) : option grammar :=
  match toks with
  | nil => Some []
  | MNt lhs :: MDef :: rest => collect_prods [] [] lhs [] rest
  | _ => None
  end.

(** ** What is written *)

(** The tokens of an expression, of alternatives, of a production and of a grammar (the
    productions separated by semicolons, with or without a final one). *)
Definition write_term (t : term) : mtok := match t with Terminal s => MLit s | Nonterminal n => MNt n end.
Definition write_expression (e : expression) : list mtok := map write_term e.
Fixpoint write_alts (es : list expression) : list mtok :=
  match es with
  | nil => []
  | [e] => write_expression e
  | e :: es => write_expression e ++ MBar :: write_alts es
  end.
Definition write_production (n : str) (es : list expression) : list mtok := MNt n :: MDef :: write_alts es.
Fixpoint write_grammar (ps : list (str * list expression)) (final : bool) : list mtok :=
  match ps with
  | nil => []
  | [(n, es)] => write_production n es ++ (if final then [MSemi] else [])
  | (n, es) :: ps => write_production n es ++ MSemi :: write_grammar ps final
  end.

(** ** Proofs *)

Lemma expression_collect_spec e : forall acc, expression_collect acc (write_expression e) = Some (acc ++ e).
Proof.
  induction e as [|t e IH]; intro acc; cbn; [rewrite app_nil_r; reflexivity|].
  destruct t; cbn; rewrite IH, <- app_assoc; reflexivity.
Qed.

Lemma expression_macro_spec e : e <> [] -> expression_macro (write_expression e) = Some e.
Proof. destruct e as [|t e]; [contradiction|]. intros _. destruct t; cbn; apply expression_collect_spec. Qed.

Lemma collect_exprs_terms e : forall cur prev rest,
  collect_exprs cur prev (write_expression e ++ rest) = collect_exprs (cur ++ e) prev rest.
Proof.
  induction e as [|t e IH]; intros cur prev rest; cbn; [rewrite app_nil_r; reflexivity|].
  destruct t; cbn; rewrite IH, <- app_assoc; reflexivity.
Qed.

Lemma collect_exprs_alts es : forall prev last, collect_exprs [] prev (write_alts (es ++ [last])) = Some (rev es ++ prev ++ [last]).
Proof.
  induction es as [|e es IH]; intros prev last.
  - cbn. rewrite <- (app_nil_r (write_expression last)), collect_exprs_terms. reflexivity.
  - cbn [app write_alts]. destruct (es ++ [last]) as [|x r] eqn:E; [destruct es; discriminate|]. rewrite <- E.
    rewrite collect_exprs_terms. cbn [app collect_exprs]. rewrite IH. cbn [rev]. rewrite <- app_assoc. reflexivity.
Qed.

Lemma production_macro_spec n es last :
  production_macro (write_production n (es ++ [last])) = Some (mkProd (Nonterminal n) (rev es ++ [last])).
Proof. unfold production_macro, write_production. rewrite collect_exprs_alts. reflexivity. Qed.

Lemma collect_prods_terms e : forall cur exprs lhs prods rest,
  collect_prods cur exprs lhs prods (write_expression e ++ rest) = collect_prods (cur ++ e) exprs lhs prods rest.
Proof.
  induction e as [|t e IH]; intros cur exprs lhs prods rest; cbn; [rewrite app_nil_r; reflexivity|].
  destruct t; cbn [write_term collect_prods]; rewrite IH, <- app_assoc; reflexivity.
Qed.

Lemma collect_prods_alts es : forall exprs lhs prods last rest,
  collect_prods [] exprs lhs prods (write_alts (es ++ [last]) ++ rest) = collect_prods last (rev es ++ exprs) lhs prods rest.
Proof.
  induction es as [|e es IH]; intros exprs lhs prods last rest.
  - cbn. rewrite collect_prods_terms. reflexivity.
  - cbn [app write_alts]. destruct (es ++ [last]) as [|x r] eqn:E; [destruct es; discriminate|]. rewrite <- E.
    rewrite <- app_assoc, collect_prods_terms. cbn [app collect_prods]. rewrite IH. cbn [rev]. rewrite <- app_assoc. reflexivity.
Qed.

(** What [grammar!] builds from written productions. *)
Definition reversed (x : str * list expression) : production := mkProd (Nonterminal (fst x)) (rev (snd x)).

Lemma reversed_snoc n es e : reversed (n, es ++ [e]) = mkProd (Nonterminal n) (e :: rev es).
Proof. unfold reversed. cbn [fst snd]. rewrite rev_app_distr. reflexivity. Qed.

Lemma collect_prods_grammar ps : forall exprs lhs prods es last n es' last' final,
  (forall x, In x ps -> snd x <> []) ->
  collect_prods [] exprs lhs prods (write_alts (es ++ [last]) ++ MSemi :: write_grammar (ps ++ [(n, es' ++ [last'])]) final) =
  Some (rev (map reversed ps) ++ mkProd (Nonterminal lhs) (last :: rev es ++ exprs) :: prods ++ [mkProd (Nonterminal n) (rev es' ++ [last'])]).
Proof.
  induction ps as [|[m fs] ps IH]; intros exprs lhs prods es last n es' last' final Hne.
  - cbn [app write_grammar map rev]. rewrite collect_prods_alts. cbn [write_production app collect_prods].
    destruct final.
    + rewrite collect_prods_alts. cbn [collect_prods]. rewrite !app_nil_r. reflexivity.
    + rewrite collect_prods_alts. cbn [collect_prods]. rewrite !app_nil_r. reflexivity.
  - cbn [app write_grammar]. destruct (ps ++ [(n, es' ++ [last'])]) as [|x r] eqn:E; [destruct ps; discriminate|]. rewrite <- E.
    rewrite collect_prods_alts. cbn [write_production app collect_prods].
    assert (Hfs : fs <> []) by (apply (Hne (m, fs)); left; reflexivity).
    destruct (exists_last Hfs) as (fs' & fl & ->). rewrite IH by (intros; apply Hne; right; assumption).
    cbn [map rev]. rewrite reversed_snoc, <- app_assoc, app_nil_r. reflexivity.
Qed.

Lemma grammar_macro_spec ps n es last final : (forall x, In x ps -> snd x <> []) ->
  grammar_macro (write_grammar (ps ++ [(n, es ++ [last])]) final) =
  Some (rev (map reversed ps) ++ [mkProd (Nonterminal n) (rev es ++ [last])]).
Proof.
  intro Hne. destruct ps as [|[m fs] ps].
  - cbn [app write_grammar map rev grammar_macro write_production]. destruct final.
    + rewrite collect_prods_alts. cbn [collect_prods]. rewrite app_nil_r. reflexivity.
    + rewrite collect_prods_alts. cbn [collect_prods]. rewrite app_nil_r. reflexivity.
  - cbn [app write_grammar]. destruct (ps ++ [(n, es ++ [last])]) as [|x r] eqn:E; [destruct ps; discriminate|]. rewrite <- E.
    cbn [write_production app grammar_macro].
    assert (Hfs : fs <> []) by (apply (Hne (m, fs)); left; reflexivity).
    destruct (exists_last Hfs) as (fs' & fl & ->). rewrite collect_prods_grammar by (intros; apply Hne; right; assumption).
    cbn [map rev]. rewrite reversed_snoc, <- app_assoc, app_nil_r. reflexivity.
Qed.

(** ** What is accepted is written *)

Lemma expression_collect_written toks : forall acc e, expression_collect acc toks = Some e -> exists e', e = acc ++ e' /\ toks = write_expression e'.
Proof.
  induction toks as [|[n|s| | |] toks IH]; intros acc e H; cbn in H; try discriminate.
  - injection H as <-. exists []. rewrite app_nil_r. auto.
  - destruct (IH _ _ H) as (e' & -> & ->). exists (Nonterminal n :: e'). rewrite <- app_assoc. auto.
  - destruct (IH _ _ H) as (e' & -> & ->). exists (Terminal s :: e'). rewrite <- app_assoc. auto.
Qed.
Lemma expression_macro_exact toks e : expression_macro toks = Some e <-> e <> [] /\ toks = write_expression e.
Proof.
  split; [|intros [H ->]; exact (expression_macro_spec e H)].
  destruct toks as [|[n|s| | |] toks]; intro H; cbn in H; try discriminate;
    destruct (expression_collect_written _ _ _ H) as (e' & -> & ->); (split; [discriminate|reflexivity]).
Qed.

Lemma write_alts_term t e es : write_term t :: write_alts (e :: es) = write_alts ((t :: e) :: es).
Proof. destruct es; reflexivity. Qed.
Lemma write_alts_bar e es : MBar :: write_alts (e :: es) = write_alts ([] :: e :: es).
Proof. reflexivity. Qed.

Lemma collect_exprs_written toks : forall cur prev, collect_exprs cur prev toks <> None -> exists e es, toks = write_alts (e :: es).
Proof.
  induction toks as [|[n|s| | |] toks IH]; intros cur prev H; cbn in H; try contradiction.
  - exists [], []. reflexivity.
  - destruct (IH _ _ H) as (e & es & ->). exists (Nonterminal n :: e), es. apply (write_alts_term (Nonterminal n)).
  - destruct (IH _ _ H) as (e & es & ->). exists (Terminal s :: e), es. apply (write_alts_term (Terminal s)).
  - destruct (IH _ _ H) as (e & es & ->). exists [], (e :: es). reflexivity.
Qed.
Lemma production_macro_exact toks : production_macro toks <> None <-> exists n es, es <> [] /\ toks = write_production n es.
Proof.
  split.
  - destruct toks as [|[n|s| | |] [|[m|s'| | |] toks]]; intro H; cbn in H; try contradiction.
    destruct (collect_exprs [] [] toks) as [r|] eqn:E; [|contradiction H; reflexivity].
    destruct (collect_exprs_written toks [] [] ltac:(congruence)) as (e & es & ->). exists n, (e :: es). split; [discriminate|reflexivity].
  - intros (n & es & Hne & ->). destruct (exists_last Hne) as (es' & l & ->). rewrite production_macro_spec. discriminate.
Qed.

Definition write_tail (ps : list (str * list expression)) (final : bool) : list mtok :=
  match ps with nil => if final then [MSemi] else [] | _ => MSemi :: write_grammar ps final end.
Lemma write_grammar_cons n es ps final : write_grammar ((n, es) :: ps) final = write_production n es ++ write_tail ps final.
Proof. destruct ps as [|x ps]; reflexivity. Qed.

Lemma collect_prods_written k : forall toks, length toks <= k -> forall terms exprs lhs prods, collect_prods terms exprs lhs prods toks <> None ->
  exists e es ps final, (forall x, In x ps -> snd x <> []) /\ toks = write_alts (e :: es) ++ write_tail ps final.
Proof.
  induction k as [|k IH]; intros toks Hk terms exprs lhs prods H.
  - destruct toks; [|cbn in Hk; lia]. exists [], [], [], false. split; [intros x []|reflexivity].
  - destruct toks as [|tok toks]; [exists [], [], [], false; split; [intros x []|reflexivity]|]. cbn [length] in Hk.
    destruct tok as [n|s| | |]; cbn [collect_prods] in H; try contradiction.
    + destruct (IH toks ltac:(lia) _ _ _ _ H) as (e & es & ps & final & Hps & ->). exists (Nonterminal n :: e), es, ps, final.
      split; [exact Hps|]. rewrite <- write_alts_term. reflexivity.
    + destruct (IH toks ltac:(lia) _ _ _ _ H) as (e & es & ps & final & Hps & ->). exists (Terminal s :: e), es, ps, final.
      split; [exact Hps|]. rewrite <- write_alts_term. reflexivity.
    + destruct (IH toks ltac:(lia) _ _ _ _ H) as (e & es & ps & final & Hps & ->). exists [], (e :: es), ps, final.
      split; [exact Hps|]. reflexivity.
    + destruct toks as [|[n|s| | |] [|[m|s'| | |] toks]]; try contradiction.
      * exists [], [], [], true. split; [intros x []|reflexivity].
      * cbn [length] in Hk. destruct (IH toks ltac:(lia) _ _ _ _ H) as (e & es & ps & final & Hps & ->).
        exists [], [], ((n, e :: es) :: ps), final. split; [intros x [<-|Hx]; [discriminate|exact (Hps x Hx)]|].
        unfold write_tail at 2. rewrite write_grammar_cons. reflexivity.
Qed.
Lemma grammar_macro_exact toks : grammar_macro toks <> None <->
  exists ps final, (forall x, In x ps -> snd x <> []) /\ toks = write_grammar ps final.
Proof.
  split.
  - destruct toks as [|[n|s| | |] [|[m|s'| | |] toks]]; intro H; cbn in H; try contradiction.
    + exists [], false. split; [intros x []|reflexivity].
    + destruct (collect_prods_written _ toks (le_n _) _ _ _ _ H) as (e & es & ps & final & Hps & ->).
      exists ((n, e :: es) :: ps), final. split; [intros x [<-|Hx]; [discriminate|exact (Hps x Hx)]|]. rewrite write_grammar_cons. reflexivity.
  - intros (ps & final & Hps & ->). destruct ps as [|x ps]; [discriminate|].
    destruct (exists_last (l := x :: ps) ltac:(discriminate)) as (ps' & [n es] & E). rewrite E in *.
    assert (Hes : es <> []) by (apply (Hps (n, es)); apply in_or_app; right; left; reflexivity).
    destruct (exists_last Hes) as (es' & l & ->). rewrite grammar_macro_spec by (intros y Hy; apply Hps; apply in_or_app; left; exact Hy). discriminate.
Qed.
Lemma grammar_macro_empty : grammar_macro [] = Some [].
Proof. reflexivity. Qed.
Lemma macros_accept :
  (forall toks e, expression_macro toks = Some e <-> e <> [] /\ toks = write_expression e) /\
  (forall toks, production_macro toks <> None <-> exists n es, es <> [] /\ toks = write_production n es) /\
  (forall toks, grammar_macro toks <> None <-> exists ps final, (forall x, In x ps -> snd x <> []) /\ toks = write_grammar ps final) /\
  grammar_macro [] = Some [].
Proof.
  exact (conj expression_macro_exact (conj production_macro_exact (conj grammar_macro_exact grammar_macro_empty))).
Qed.
