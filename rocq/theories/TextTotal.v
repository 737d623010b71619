(** The text parsers never run out of fuel, for any format. *)
From Verif Require Export Text.
From Coq Require String.
Import String.StringSyntax.

Definition suffix (r s : str) : Prop := exists pre, s = pre ++ r.
Lemma suffix_refl s : suffix s s.
Proof. exists []. reflexivity. Qed.
Lemma suffix_trans a b c : suffix a b -> suffix b c -> suffix a c.
Proof. intros [p ->] [q ->]. exists (q ++ p). rewrite app_assoc. reflexivity. Qed.
Lemma suffix_length r s : suffix r s -> length r <= length s.
Proof. intros [p ->]. rewrite app_length. lia. Qed.
Lemma suffix_cons c s : suffix s (c :: s).
Proof. exists [c]. reflexivity. Qed.
Lemma suffix_bytes r s : suffix r s -> byte_len r <> byte_len s -> length r < length s.
Proof.
  intros [p ->] H. rewrite app_length. destruct p as [|c p]; [contradiction H; reflexivity|]. cbn. lia.
Qed.
Lemma proper_bytes pre r : pre <> [] -> byte_len r <> byte_len (pre ++ r).
Proof.
  intros H E. rewrite byte_len_app in E. apply H, byte_len_0. lia.
Qed.

(** A parser result on [s]: the rest is a suffix (strictly shorter if [strict]). *)
Definition good {A} (strict : bool) (s : str) (x : pres A) : Prop :=
  match x with
  | Ok (Some (_, r)) => suffix r s /\ (strict = true -> length r < length s)
  | Ok None => True
  | _ => False
  end.
Definition ogood {A} (f : A -> str) (strict : bool) (s : str) (x : option A) : Prop :=
  match x with
  | Some y => suffix (f y) s /\ (strict = true -> length (f y) < length s)
  | None => True
  end.

Lemma good_weaken {A} b s (x : pres A) : good b s x -> good false s x.
Proof. destruct x as [[[a r]|]| |]; cbn; intuition discriminate. Qed.

Lemma good_bind {A B} b b1 b2 s (x : pres A) (f : A * str -> pres B) :
  good b1 s x -> (forall a r, x = Ok (Some (a, r)) -> suffix r s -> (b1 = true -> length r < length s) -> good b2 r (f (a, r))) ->
  (b = true -> b1 = true \/ b2 = true) -> good b s (pbind x f).
Proof.
  intros Hx Hf Hb. destruct x as [[[a r]|]| |]; cbn in *; auto. destruct Hx as [Hs Hl]. specialize (Hf a r eq_refl Hs Hl).
  destruct (f (a, r)) as [[[a' r']|]| |]; cbn in *; auto. destruct Hf as [Hs' Hl']. split; [eapply suffix_trans; eauto|].
  intro E. apply suffix_length in Hs. apply suffix_length in Hs'. destruct (Hb E) as [E'|E']; [specialize (Hl E')|specialize (Hl' E')]; lia.
Qed.

Lemma p_char_suffix c s r : p_char c s = Some r -> s = c :: r.
Proof. destruct s as [|x s]; cbn; [discriminate|]. destruct (N.eqb_spec x c); [|discriminate]. intro H; injection H as ->; subst; reflexivity. Qed.
Lemma p_tag_spec t s r : p_tag t s = Some r <-> s = t ++ r.
Proof.
  revert s; induction t as [|x t IH]; intro s; cbn.
  - split; intro H; congruence.
  - destruct s as [|y s]; [split; discriminate|]. destruct (N.eqb_spec x y) as [->|Hn].
    + rewrite IH. split; intro H; [subst; reflexivity | injection H as ->; reflexivity].
    + split; [discriminate|]. intro H; injection H as -> _; congruence.
Qed.
Lemma skip_suffix b s : suffix (skip b s) s.
Proof.
  revert b; induction s as [|c s IH]; intro b; cbn; [apply suffix_refl|].
  destruct b; [eapply suffix_trans; [apply IH|apply suffix_cons]|].
  destruct (is_whitespace c); [eapply suffix_trans; [apply IH|apply suffix_cons]|].
  destruct (N.eqb c c_semi); [eapply suffix_trans; [apply IH|apply suffix_cons]|]. apply suffix_refl.
Qed.
Lemma ws_suffix s : suffix (whitespace_plus_comments s) s.
Proof. apply skip_suffix. Qed.

Lemma take_till_app f s : s = fst (take_till f s) ++ snd (take_till f s).
Proof.
  induction s as [|c s IH]; cbn; [reflexivity|]. destruct (f c); [reflexivity|].
  destruct (take_till f s) as [a b]; cbn in *. congruence.
Qed.
Lemma take_until_spec q s a b : take_until q s = Some (a, b) -> s = a ++ b /\ ~ In q a /\ exists r, b = q :: r.
Proof.
  revert a b; induction s as [|c s IH]; cbn; intros a b H; [discriminate|].
  destruct (N.eqb_spec c q) as [->|Hn].
  - injection H as <- <-. split; [reflexivity|]. split; [intros []|eauto].
  - destruct (take_until q s) as [[a' b']|] eqn:E; [|discriminate]. injection H as <- <-.
    destruct (IH _ _ eq_refl) as (-> & H1 & r & ->). split; [reflexivity|]. split; [|eauto].
    intros [->|Hi]; [congruence|contradiction].
Qed.

Lemma quoted_spec q s a r : quoted q s = Some (a, r) -> s = q :: a ++ q :: r /\ ~ In q a.
Proof.
  unfold quoted. destruct (p_char q s) as [s1|] eqn:E1; [|discriminate]. cbn. apply p_char_suffix in E1.
  destruct (take_until q s1) as [[a' s2]|] eqn:E2; [|discriminate]. cbn.
  destruct (p_char q s2) as [s3|] eqn:E3; [|discriminate]. cbn. apply p_char_suffix in E3.
  intro H; injection H as <- <-. apply take_until_spec in E2. destruct E2 as (-> & H1 & _). subst. auto.
Qed.
Lemma quoted_string_spec s a r : quoted_string s = Some (a, r) ->
  exists q, (q = dquote \/ q = squote) /\ s = q :: a ++ q :: r /\ ~ In q a.
Proof.
  unfold quoted_string. destruct (quoted dquote s) as [[a' r']|] eqn:E.
  - intro H; injection H as <- <-. apply quoted_spec in E. exists dquote. tauto.
  - intro H. apply quoted_spec in H. exists squote. tauto.
Qed.

Lemma terminal_good s : ogood snd true s (terminal s).
Proof.
  unfold terminal. destruct (quoted_string s) as [[a r]|] eqn:E; cbn [obind ogood snd]; [|exact I].
  apply quoted_string_spec in E. destruct E as (q & _ & -> & _).
  pose proof (ws_suffix r) as Hs. split.
  - eapply suffix_trans; [exact Hs|]. exists (q :: a ++ [q]). cbn. rewrite <- app_assoc. reflexivity.
  - intros _. apply suffix_length in Hs. cbn [length]. rewrite app_length. cbn [length]. lia.
Qed.

Section Any.
Variable alphabetic : char -> bool.
Variable F : format.

Lemma name_good s : ogood snd false s (name alphabetic F s).
Proof.
  unfold name. destruct (f_delimiter F) as [[a b]|].
  - destruct (p_char a s) as [s1|] eqn:E1; [|exact I]. cbn. apply p_char_suffix in E1.
    pose proof (take_till_app (fun c => N.eqb c b) s1) as E2. destruct (take_till _ s1) as [n s2]. cbn in E2.
    destruct (p_char b s2) as [s3|] eqn:E3; [|exact I]. cbn. apply p_char_suffix in E3. subst.
    split; [|discriminate]. exists (a :: n ++ [b]). cbn. rewrite <- app_assoc. reflexivity.
  - destruct s as [|c s]; [exact I|]. destruct (alphabetic c); [|exact I].
    unfold ogood. split; [|discriminate]. eexists. apply take_till_app.
Qed.

Lemma nonterminal_good s : ogood snd false s (nonterminal alphabetic F s).
Proof.
  unfold nonterminal. pose proof (name_good s) as H. destruct (name alphabetic F s) as [[n r]|]; cbn in *; [|exact I].
  split; [|discriminate]. eapply suffix_trans; [apply ws_suffix|apply H].
Qed.

Lemma after_lhs_good s : ogood (fun r => r) false s (after_lhs F s).
Proof.
  unfold after_lhs. destruct (p_tag (f_separator F) s) as [s1|] eqn:E; [|exact I]. cbn. apply p_tag_spec in E. subst s.
  split; [|discriminate]. eapply suffix_trans; [apply ws_suffix|].
  destruct (p_char (f_alternative F) s1) as [s2|] eqn:E.
  - apply p_char_suffix in E. subst. exists (f_separator F ++ [f_alternative F]). rewrite <- app_assoc. reflexivity.
  - eexists; reflexivity.
Qed.

Lemma prod_lhs_good s : ogood snd false s (prod_lhs alphabetic F s).
Proof.
  unfold prod_lhs. pose proof (nonterminal_good s) as H1. destruct (nonterminal alphabetic F s) as [[n r]|]; [|exact I].
  cbn in *. pose proof (after_lhs_good r) as H2. destruct (after_lhs F r) as [r'|]; [|exact I]. cbn in *.
  split; [|discriminate]. eapply suffix_trans; [apply H2|apply H1].
Qed.
Lemma read_prod_lhs_good s : ogood snd false s (read_prod_lhs alphabetic F s).
Proof.
  unfold read_prod_lhs. pose proof (name_good s) as H1. destruct (name alphabetic F s) as [[n r]|]; [|exact I].
  cbn in *. pose proof (after_lhs_good (whitespace_plus_comments r)) as H2. destruct (after_lhs F _) as [r'|]; [|exact I]. cbn in *.
  split; [|discriminate]. eapply suffix_trans; [apply H2|]. eapply suffix_trans; [apply ws_suffix|]. apply H1.
Qed.

Lemma parse_term_good s : ogood snd false s (parse_term alphabetic F s).
Proof.
  unfold parse_term. pose proof (terminal_good s) as H. destruct (terminal s) as [[t r]|]; [|apply nonterminal_good].
  cbn in *. intuition discriminate.
Qed.

Lemma expression_next_good s : ogood (fun r => r) true s (expression_next F s).
Proof.
  unfold expression_next. destruct (p_char _ s) as [r|] eqn:E; [|exact I]. cbn. apply p_char_suffix in E. subst.
  pose proof (ws_suffix r) as H. split; [eapply suffix_trans; [exact H|apply suffix_cons]|].
  intros _. apply suffix_length in H. cbn. lia.
Qed.

Lemma ok_good {A} b s (o : option (A * str)) : ogood snd b s o -> good b s (Ok o).
Proof. destruct o as [[a r]|]; cbn; auto. Qed.

Lemma nbs_good {A} b s (x : pres A) : good b s x -> good b s (not_before_separator F x).
Proof.
  intro H. unfold not_before_separator. destruct x as [[[a r]|]| |]; cbn in *; auto.
  destruct (p_tag _ r); cbn; auto.
Qed.

Lemma many1_loop_good {A} (p : str -> pres A) fuel : forall acc s, length s < fuel ->
  (forall r, suffix r s -> good false r (p r)) -> good false s (many1_loop fuel p acc s).
Proof.
  induction fuel as [|fuel IH]; intros acc s Hl Hp; [lia|]. cbn [many1_loop].
  pose proof (Hp s (suffix_refl s)) as H. destruct (p s) as [[[a r]|]| |]; cbn [good] in H; try contradiction.
  - destruct (Nat.eqb_spec (byte_len r) (byte_len s)); [exact I|]. destruct H as [Hs _].
    pose proof (suffix_bytes r s Hs n) as Hlt.
    assert (Hg : good false r (many1_loop fuel p (acc ++ [a]) r)).
    { apply IH; [lia|]. intros r' Hr'. apply Hp. eapply suffix_trans; eauto. }
    destruct (many1_loop fuel p (acc ++ [a]) r) as [[[l r']|]| |]; cbn in *; auto.
    split; [|discriminate]. eapply suffix_trans; [apply Hg|assumption].
  - cbn. split; [apply suffix_refl|discriminate].
Qed.

Lemma many1_good {A} (p : str -> pres A) fuel s : length s < fuel ->
  (forall r, suffix r s -> good false r (p r)) -> good false s (many1 fuel p s).
Proof.
  intros Hl Hp. unfold many1. apply (good_bind false false false); [apply Hp, suffix_refl| |discriminate].
  intros a r _ Hs _. apply many1_loop_good; [apply suffix_length in Hs; lia|].
  intros r' Hr'. apply Hp. eapply suffix_trans; eauto.
Qed.

Lemma xt_list_good {A} (p : str -> pres A) d fuel : forall acc s, length s < fuel ->
  (forall r, suffix r s -> good false r (p r)) ->
  (forall r, ogood (fun x => x) true r (d r)) ->
  good false s (xt_list fuel p d acc s).
Proof.
  induction fuel as [|fuel IH]; intros acc s Hl Hp Hd; [lia|]. cbn [xt_list].
  apply (good_bind false false false); [apply Hp, suffix_refl| |discriminate]. intros a r _ Hs _.
  specialize (Hd r) as H. destruct (d r) as [r'|]; cbn in H.
  - destruct H as [Hs' Hl']. specialize (Hl' eq_refl). pose proof (suffix_length _ _ Hs).
    assert (Hg : good false r' (xt_list fuel p d (acc ++ [a]) r')).
    { apply IH; [lia| |assumption]. intros r'' Hr''. apply Hp. eapply suffix_trans; [exact Hr''|]. eapply suffix_trans; eauto. }
    destruct (xt_list fuel p d (acc ++ [a]) r') as [[[l x]|]| |]; cbn in *; auto.
    split; [|discriminate]. eapply suffix_trans; [apply Hg|assumption].
  - cbn. split; [apply suffix_refl|discriminate].
Qed.

Lemma parse_expression_good fuel s : length s < fuel -> good false s (parse_expression alphabetic F fuel s).
Proof.
  intro H. apply many1_good; [assumption|]. intros r _. apply nbs_good, ok_good, parse_term_good.
Qed.
Lemma prod_rhs_good fuel s : length s < fuel -> good false s (prod_rhs alphabetic F fuel s).
Proof.
  intro H. apply xt_list_good; [assumption| |apply expression_next_good].
  intros r Hr. apply parse_expression_good. apply suffix_length in Hr. lia.
Qed.
Lemma parse_production_good fuel s : length s < fuel -> good false s (parse_production alphabetic F fuel s).
Proof.
  intro H. unfold parse_production. apply (good_bind false false false); [apply ok_good, prod_lhs_good| |discriminate].
  intros lhs r _ Hr _. apply suffix_length in Hr.
  apply (good_bind false false false); [apply prod_rhs_good; lia| |discriminate].
  intros rhs r' _ Hr' _. destruct (production_end _ _ _); cbn; [|exact I]. split; [apply suffix_refl|discriminate].
Qed.
Lemma ws_good {A} s (p : str -> pres A) : good false (whitespace_plus_comments s) (p (whitespace_plus_comments s)) ->
  good false s (p (whitespace_plus_comments s)).
Proof.
  pose proof (ws_suffix s). destruct (p _) as [[[a r]|]| |]; cbn; auto. intros [H1 _]. split; [|discriminate].
  eapply suffix_trans; eauto.
Qed.
Lemma ws_length s : length (whitespace_plus_comments s) <= length s.
Proof. apply suffix_length, ws_suffix. Qed.

Lemma plain_grammar_good fuel s : length s < fuel -> good false s (plain_grammar alphabetic F fuel s).
Proof.
  intro H. unfold plain_grammar. pose proof (ws_length s).
  apply (ws_good s (fun s => let+ (first, s) := parse_production alphabetic F fuel s in _)).
  apply (good_bind false false false); [apply parse_production_good; lia| |discriminate].
  intros p r _ Hr _. apply suffix_length in Hr.
  apply (good_bind false false false); [| |discriminate].
  - apply many1_good; [lia|]. intros r' Hr'. apply suffix_length in Hr'. apply ws_good, parse_production_good.
    pose proof (ws_length r'). lia.
  - intros ps r' _ _ _. cbn. split; [apply suffix_refl|discriminate].
Qed.

Lemma rhs_of_good p fuel s : length s < fuel -> (forall r, suffix r s -> good false r (p r)) ->
  good false s (rhs_of F fuel p s).
Proof.
  intros H Hp. apply xt_list_good; [assumption| |apply expression_next_good].
  intros r Hr. apply many1_good; [apply suffix_length in Hr; lia|].
  intros r' Hr'. apply nbs_good, Hp. eapply suffix_trans; eauto.
Qed.

Lemma bracketed_good a b inner s : (forall r, s = a :: r -> good false r (inner r)) -> good false s (bracketed a b inner s).
Proof.
  intro H. unfold bracketed. apply (good_bind false false false); [| |discriminate].
  - destruct (p_char a s) as [r|] eqn:E; cbn; [|exact I]. apply p_char_suffix in E. subst. split; [apply suffix_cons|discriminate].
  - intros [] r E _ _. assert (Er : s = a :: r).
    { destruct (p_char a s) as [r'|] eqn:E1; cbn in E; [|discriminate]. apply p_char_suffix in E1. congruence. }
    apply (good_bind false false false); [apply H; assumption| |discriminate].
    intros es r' _ _ _. apply (good_bind false false false); [| |discriminate].
    + destruct (p_char b r') as [r''|] eqn:E'; cbn; [|exact I]. apply p_char_suffix in E'. subst r'. split; [apply suffix_cons|discriminate].
    + intros [] r'' _ _ _. cbn. split; [apply ws_suffix|discriminate].
Qed.

Lemma read_term_good fuel : forall s, length s < fuel -> good false s (read_term alphabetic F fuel s).
Proof.
  induction fuel as [|fuel IH]; intros s Hl; [lia|]. cbn [read_term].
  pose proof (terminal_good s) as H1. destruct (terminal s) as [[t r]|].
  { cbn in *. split; [apply H1|discriminate]. }
  pose proof (nonterminal_good s) as H2. destruct (nonterminal alphabetic F s) as [[t r]|].
  { cbn in *. split; [apply H2|discriminate]. }
  assert (Hb : forall a b, good false s (bracketed a b (rhs_of F fuel (read_term alphabetic F fuel)) s)).
  { intros a b. apply bracketed_good. intros r ->. cbn in Hl. apply rhs_of_good; [lia|].
    intros r' Hr'. apply IH. apply suffix_length in Hr'. lia. }
  pose proof (Hb c_open c_close) as H3. destruct (bracketed c_open c_close _ s) as [[[es r]|]| |]; cbn in *; try contradiction; [assumption|].
  apply (good_bind false false false); [apply Hb| |discriminate]. intros es r _ _ _. cbn. split; [apply suffix_refl|discriminate].
Qed.

Lemma read_production_good fuel s : length s < fuel -> good false s (read_production alphabetic F fuel s).
Proof.
  intro H. unfold read_production. apply (good_bind false false false); [apply ok_good, read_prod_lhs_good| |discriminate].
  intros lhs r _ Hr _. apply suffix_length in Hr.
  apply (good_bind false false false); [apply rhs_of_good; [lia|]| |discriminate].
  - intros r' Hr'. apply suffix_length in Hr'. apply read_term_good. lia.
  - intros rhs r' _ _ _. assert (G : good false r' (Ok (Some (mkParsed lhs rhs, r')))) by (split; [apply suffix_refl|discriminate]).
    destruct r'; [exact G|]. destruct (read_prod_lhs _ _ _); [exact G|exact I].
Qed.
Lemma read_grammar_good fuel s : length s < fuel -> good false s (read_grammar alphabetic F fuel s).
Proof.
  intro H. unfold read_grammar. pose proof (ws_length s). apply ws_good.
  apply many1_good; [lia|]. intros r Hr. apply suffix_length in Hr. apply ws_good, read_production_good.
  pose proof (ws_length r). lia.
Qed.

Lemma all_consuming_total {A} b s (x : pres A) : good b s x -> exists o, all_consuming x = Ok o.
Proof. destruct x as [[[a [|c r]]|]| |]; cbn; intro H; try contradiction; eauto. Qed.

Lemma fuel_enough s : length s < fuel_for s.
Proof. unfold fuel_for. lia. Qed.

Lemma parsed_grammar_complete_total s : exists o, parsed_grammar_complete alphabetic F s = Ok o.
Proof. eapply all_consuming_total, read_grammar_good, fuel_enough. Qed.
Lemma plain_grammar_total s : exists o, all_consuming (plain_grammar alphabetic F (fuel_for s) s) = Ok o.
Proof. eapply all_consuming_total, plain_grammar_good, fuel_enough. Qed.
End Any.

(** ** Normalization *)

Lemma fresh_candidates used k n :
  (forall i, i < n -> In (lit "__anon" ++ dec (k + i)) used) -> n <= length used.
Proof.
  intro H. set (l := map (fun i => lit "__anon" ++ dec (k + i)) (seq 0 n)).
  replace n with (length l) by (unfold l; rewrite map_length, seq_length; reflexivity).
  apply NoDup_incl_length.
  - unfold l. apply FinFun.Injective_map_NoDup; [|apply seq_NoDup].
    intros i j E. apply app_inv_head in E. apply dec_inj in E. lia.
  - intros x Hx. unfold l in Hx. apply in_map_iff in Hx. destruct Hx as (i & <- & Hi). apply in_seq in Hi. apply H. lia.
Qed.

Lemma fresh_anon_name_spec used : forall fuel k, (forall i, i < fuel -> In (lit "__anon" ++ dec (k + i)) used) \/
  exists j, k <= j /\ ~ In (lit "__anon" ++ dec j) used /\ fresh_anon_name fuel used k = Ok (lit "__anon" ++ dec j, (lit "__anon" ++ dec j) :: used, S j).
Proof.
  induction fuel as [|fuel IH]; intro k; [left; intros; lia|]. cbn [fresh_anon_name].
  destruct (str_memb (lit "__anon" ++ dec k) used) eqn:E.
  - apply str_memb_In in E. destruct (IH (S k)) as [H|(j & Hj & Hn & Ef)].
    + left. intros [|i] Hi; [rewrite Nat.add_0_r; assumption|]. replace (k + S i) with (S k + i) by lia. apply H. lia.
    + right. exists j. split; [lia|]. auto.
  - right. exists k. split; [lia|]. split; [|reflexivity]. intro H. apply str_memb_In in H. congruence.
Qed.

Lemma fresh_spec st : exists j, l_counter st <= j /\ ~ In (lit "__anon" ++ dec j) (l_used st) /\
  fresh st = Ok (lit "__anon" ++ dec j, mkL ((lit "__anon" ++ dec j) :: l_used st) (S j) (l_anon st)).
Proof.
  destruct (fresh_anon_name_spec (l_used st) (S (length (l_used st))) (l_counter st)) as [H|(j & Hj & Hn & E)].
  - destruct (Nat.nle_succ_diag_l _ (fresh_candidates _ _ _ H)).
  - exists j. split; [assumption|]. split; [assumption|]. unfold fresh. rewrite E. reflexivity.
Qed.

(** Induction over parsed terms. *)
Section PtermInd.
Variable P : parsed_term -> Prop.
Hypothesis HS : forall t, P (Simple t).
Hypothesis HG : forall es, (forall e, In e es -> forall t, In t e -> P t) -> P (Group es).
Hypothesis HO : forall es, (forall e, In e es -> forall t, In t e -> P t) -> P (Optional es).
Fixpoint parsed_term_ind' (t : parsed_term) : P t :=
  let go := fix go (e : list parsed_term) : forall t, In t e -> P t :=
    match e return forall t, In t e -> P t with
    | [] => fun t H => match H with end
    | x :: e => fun t H => match H with
                           | or_introl E => match E in _ = y return P y with eq_refl => parsed_term_ind' x end
                           | or_intror H => go e t H
                           end
    end in
  let gos := fix gos (es : list (list parsed_term)) : forall e, In e es -> forall t, In t e -> P t :=
    match es return forall e, In e es -> forall t, In t e -> P t with
    | [] => fun e H => match H with end
    | x :: es => fun e H => match H with
                            | or_introl E => match E in _ = y return forall t, In t y -> P t with eq_refl => go x end
                            | or_intror H => gos es e H
                            end
    end in
  match t with
  | Simple t => HS t
  | Group es => HG es (gos es)
  | Optional es => HO es (gos es)
  end.
End PtermInd.

Lemma map_st_cons {A B} (f : A -> lstate -> res (B * lstate)) x l st :
  map_st f (x :: l) st = let* (y, st) := f x st in let* (ys, st) := map_st f l st in Ok (y :: ys, st).
Proof. reflexivity. Qed.

Lemma map_st_total {A B} (f : A -> lstate -> res (B * lstate)) l :
  (forall x, In x l -> forall st, exists y st', f x st = Ok (y, st')) ->
  forall st, exists ys st', map_st f l st = Ok (ys, st').
Proof.
  induction l as [|x l IH]; intros H st; [cbn; eauto|]. rewrite map_st_cons.
  destruct (H x (or_introl eq_refl) st) as (y & st' & E). rewrite E. cbn [rbind].
  destruct (IH (fun x Hx => H x (or_intror Hx)) st') as (ys & st'' & E'). rewrite E'. cbn [rbind]. eauto.
Qed.

Lemma lower_term_total t : forall st, exists y st', lower_term t st = Ok (y, st').
Proof.
  induction t as [t|es IH|es IH] using parsed_term_ind'; intro st; cbn [lower_term]; [eauto| |];
    destruct (fresh_spec st) as (j & _ & _ & ->); cbn [rbind];
    (destruct (map_st_total (map_st lower_term) es (fun e He => map_st_total lower_term e (IH e He))
       (mkL ((lit "__anon" ++ dec j) :: l_used st) (S j) (l_anon st))) as (ys & st' & ->)); cbn [rbind]; eauto.
Qed.

Lemma lower_production_total p st : exists y st', lower_production p st = Ok (y, st').
Proof.
  unfold lower_production.
  destruct (map_st_total lower_expression (pp_rhs p) (fun e _ => map_st_total lower_term e (fun t _ => lower_term_total t)) st) as (ys & st' & ->).
  cbn. eauto.
Qed.

Lemma normalize_total g : exists g', normalize_parsed_grammar g = Ok g'.
Proof.
  unfold normalize_parsed_grammar.
  destruct (map_st_total lower_production g (fun p _ => lower_production_total p) (mkL (map pp_lhs g) 0 [])) as (ys & st' & ->).
  cbn. eauto.
Qed.

Section Entry.
Variable alphabetic : char -> bool.

Lemma grammar_complete_total F s : exists o, grammar_complete alphabetic F s = Ok o.
Proof.
  unfold grammar_complete. destruct (parsed_grammar_complete_total alphabetic F s) as [o E].
  assert (H : exists o', (let* o := parsed_grammar_complete alphabetic F s in
      match o with Some pg => let* g := normalize_parsed_grammar pg in Ok (Some g) | None => Ok None end) = Ok o').
  { rewrite E. cbn. destruct o as [pg|]; [|eauto]. destruct (normalize_total pg) as [g ->]. cbn. eauto. }
  destruct (grammar_has_extended_syntax s); [assumption|].
  destruct (plain_grammar_total alphabetic F s) as [[g|] ->]; [eauto|assumption].
Qed.

Lemma to_result_total {A} (x : res (option A)) : (exists o, x = Ok o) ->
  (exists a, to_result x = Ok (ROk a)) \/ exists m, to_result x = Ok (RErr (ParseError m)).
Proof. intros [[a|] ->]; cbn; [left|right]; unfold parse_error; eauto. Qed.

Lemma term_from_str_total s : exists o, all_consuming (Ok (parse_term alphabetic BNF s)) = Ok o.
Proof. eapply all_consuming_total, ok_good, parse_term_good. Qed.
Lemma expression_from_str_total s : exists o, all_consuming (parse_expression alphabetic BNF (fuel_for s) s) = Ok o.
Proof. eapply all_consuming_total, parse_expression_good, fuel_enough. Qed.
Lemma production_from_str_total s : exists o, all_consuming (parse_production alphabetic BNF (fuel_for s) s) = Ok o.
Proof. eapply all_consuming_total, parse_production_good, fuel_enough. Qed.
End Entry.
