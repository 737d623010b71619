(** Proofs about Nesting.v. *)
From Verif Require Export Nesting TextSpec TextMain.
From Coq Require String.
Import String.StringSyntax.

(** ** Specification *)

(** How deep brackets are nested in a term, an alternative, alternatives, a grammar. *)
Fixpoint nesting (t : parsed_term) : nat :=
  match t with
  | Simple _ => 0
  | Group es | Optional es => S (list_max (map (fun e => list_max (map nesting e)) es))
  end.
Definition nesting_alts (es : list parsed_expression) : nat := list_max (map (fun e => list_max (map nesting e)) es).
Definition nesting_all (pg : parsed_grammar) : nat := list_max (map (fun p => nesting_alts (pp_rhs p)) pg).

(** The number of opening brackets in a text. *)
Definition brackets (s : str) : nat := length (filter (fun c => N.eqb c 40 || N.eqb c 91)%bool s).

(** ** The limit does not matter if it is not reached *)

Definition agree {A} (x y : res A) : Prop := x = OutOfFuel \/ y = OutOfFuel \/ x = y.
Lemma agree_refl {A} (x : res A) : agree x x.
Proof. right; right; reflexivity. Qed.
Lemma agree_bind {A B} (x y : pres A) (f g : A * str -> pres B) : agree x y -> (forall a, agree (f a) (g a)) -> agree (pbind x f) (pbind y g).
Proof. intros [->|[->| ->]] H; cbn; [left; reflexivity|right; left; reflexivity|]. destruct y as [[a|]| |]; cbn; try apply agree_refl. apply H. Qed.
Lemma many1_loop_agree {A} (p q : str -> pres A) : (forall s, agree (p s) (q s)) -> forall f f' acc s, agree (many1_loop f p acc s) (many1_loop f' q acc s).
Proof.
  intro H. induction f as [|f IH]; intros [|f'] acc s; try (left; reflexivity); try (right; left; reflexivity).
  cbn [many1_loop]. destruct (H s) as [->|[->| ->]]; [left; reflexivity|right; left; reflexivity|].
  destruct (q s) as [[[a r]|]| |]; try apply agree_refl. destruct (Nat.eqb _ _); [apply agree_refl|apply IH].
Qed.
Lemma many1_agree {A} (p q : str -> pres A) : (forall s, agree (p s) (q s)) -> forall f f' s, agree (many1 f p s) (many1 f' q s).
Proof. intros H f f' s. apply agree_bind; [apply H|]. intros [a r]. apply many1_loop_agree. exact H. Qed.
Lemma xt_list_agree {A} (p q : str -> pres A) delim : (forall s, agree (p s) (q s)) -> forall f f' acc s, agree (xt_list f p delim acc s) (xt_list f' q delim acc s).
Proof.
  intro H. induction f as [|f IH]; intros [|f'] acc s; try (left; reflexivity); try (right; left; reflexivity).
  cbn [xt_list]. apply agree_bind; [apply H|]. intros [a r]. destruct (delim r); [apply IH|apply agree_refl].
Qed.

Section Any.
Variable alphabetic : char -> bool.
Variable F : format.
Notation deep := (read_deep alphabetic F).
Notation read := (read_term alphabetic F).

Lemma rhs_agree p q : (forall s, agree (p s) (q s)) -> forall f f' s, agree (rhs_of F f p s) (rhs_of F f' q s).
Proof.
  intros H f f' s. apply xt_list_agree. intro r. apply many1_agree. intro u. apply agree_bind; [apply H|]. intro a. apply agree_refl.
Qed.
Lemma bracketed_agree a b p q s : (forall s, agree (p s) (q s)) -> agree (bracketed a b p s) (bracketed a b q s).
Proof.
  intro H. apply agree_bind; [apply agree_refl|]. intros [[] r]. apply agree_bind; [apply H|]. intros [es r']. apply agree_refl.
Qed.
Lemma read_agree l : forall d f s, agree (deep l d s) (read f s).
Proof.
  induction d as [|d IH]; intros [|f] s; try (left; reflexivity); try (right; left; reflexivity). cbn [read_deep read_term].
  destruct (terminal s) as [[t r]|]; [apply agree_refl|]. destruct (nonterminal alphabetic F s) as [[t r]|]; [apply agree_refl|].
  pose proof (fun a b => bracketed_agree a b _ _ s (rhs_agree _ _ (IH f) l f)) as H.
  destruct (H c_open c_close) as [->|[->| ->]]; [left; reflexivity|right; left; reflexivity|].
  destruct (bracketed c_open c_close _ s) as [[[es r]|]| |]; try apply agree_refl.
  apply agree_bind; [apply H|]. intro a. apply agree_refl.
Qed.
Lemma production_agree l d f s : agree (production_deep alphabetic F l d s) (read_production alphabetic F f s).
Proof.
  apply agree_bind; [apply agree_refl|]. intros [lhs r]. apply agree_bind; [apply rhs_agree, read_agree|]. intro a. apply agree_refl.
Qed.
Lemma complete_agree d s : agree (complete_deep alphabetic F d s) (parsed_grammar_complete alphabetic F s).
Proof.
  unfold complete_deep, parsed_grammar_complete, grammar_deep, read_grammar.
  assert (H : forall x y : pres parsed_grammar, agree x y -> agree (all_consuming x) (all_consuming y)).
  { intros x y [->|[->| ->]]; [left; reflexivity|right; left; reflexivity|apply agree_refl]. }
  apply H, many1_agree. intro r. apply production_agree.
Qed.

(** The number of opening brackets is enough. *)
Lemma brackets_app a b : brackets (a ++ b) = brackets a + brackets b.
Proof. unfold brackets. rewrite filter_app, app_length. reflexivity. Qed.
Lemma brackets_suffix r s : suffix r s -> brackets r <= brackets s.
Proof. intros [p ->]. rewrite brackets_app. lia. Qed.
Lemma deep_good l : forall d s, length s < l -> brackets s < d -> good false s (deep l d s).
Proof.
  induction d as [|d IH]; intros s Hl Hb; [lia|]. cbn [read_deep].
  pose proof (terminal_good s) as H1. destruct (terminal s) as [[t r]|].
  { cbn in *. split; [apply H1|discriminate]. }
  pose proof (nonterminal_good alphabetic F s) as H2. destruct (nonterminal alphabetic F s) as [[t r]|].
  { cbn in *. split; [apply H2|discriminate]. }
  assert (H : forall a b, a = c_open \/ a = c_lbrack -> good false s (bracketed a b (rhs_of F l (deep l d)) s)).
  { intros a b Ha. apply bracketed_good. intros r ->. cbn in Hl. apply rhs_of_good; [lia|]. intros u Hu.
    assert (Hbr : brackets (a :: r) = S (brackets r)) by (destruct Ha as [->| ->]; reflexivity).
    pose proof (brackets_suffix _ _ Hu). apply suffix_length in Hu. apply IH; lia. }
  pose proof (H c_open c_close (or_introl eq_refl)) as Hg. destruct (bracketed c_open c_close _ s) as [[[es r]|]| |]; cbn [good] in Hg; try contradiction.
  - cbn. exact Hg.
  - apply (good_bind false false false); [apply H; auto| |discriminate]. intros es r _ Hr _. cbn. split; [apply suffix_refl|discriminate].
Qed.
Lemma production_deep_good l d s : length s < l -> brackets s < d -> good false s (production_deep alphabetic F l d s).
Proof.
  intros H Hb. unfold production_deep. apply (good_bind false false false); [apply ok_good, read_prod_lhs_good| |discriminate].
  intros lhs r _ Hr _. pose proof (brackets_suffix _ _ Hr). apply suffix_length in Hr.
  apply (good_bind false false false); [apply rhs_of_good; [lia|]| |discriminate].
  - intros u Hu. pose proof (brackets_suffix _ _ Hu). apply suffix_length in Hu. apply deep_good; lia.
  - intros rhs r' _ _ _. destruct r' as [|c r']; [cbn; split; [apply suffix_refl|discriminate]|].
    destruct (read_prod_lhs alphabetic F (c :: r')); cbn; [split; [apply suffix_refl|discriminate]|exact I].
Qed.
Lemma complete_deep_total d s : brackets s < d -> exists o, complete_deep alphabetic F d s = Ok o.
Proof.
  intro H. apply (all_consuming_total false s). unfold grammar_deep. pose proof (ws_length s). pose proof (brackets_suffix _ _ (ws_suffix s)).
  pose proof (fuel_enough s). apply (ws_good s (many1 (fuel_for s) (fun u => production_deep alphabetic F (fuel_for s) d (whitespace_plus_comments u)))).
  apply many1_good; [lia|]. intros r Hr. pose proof (brackets_suffix _ _ Hr). apply suffix_length in Hr. apply ws_good, production_deep_good.
  - pose proof (ws_length r). lia.
  - pose proof (brackets_suffix _ _ (ws_suffix r)). lia.
Qed.
Lemma complete_deep_enough d s : brackets s < d -> complete_deep alphabetic F d s = parsed_grammar_complete alphabetic F s.
Proof.
  intro H. destruct (complete_deep_total d s H) as [o E]. destruct (parsed_grammar_complete_total alphabetic F s) as [o' E'].
  destruct (complete_agree d s) as [X|[X|X]]; congruence.
Qed.
End Any.

(** ** Exact depth for accepted texts *)

Definition limited {A} (m d : nat) (x : A) : res A := if m <? d then Ok x else OutOfFuel.
Definition not_open (s : str) : Prop := match s with c :: _ => c <> c_open /\ c <> c_lbrack | [] => True end.

Lemma limited_bind {A B} m d (a : A * str) (f : A * str -> pres B) : pbind (limited m d (Some a)) f = if m <? d then f a else OutOfFuel.
Proof. unfold limited. destruct (m <? d); reflexivity. Qed.
Lemma ltb_max a b d : (Nat.max a b <? d) = ((a <? d) && (b <? d))%bool.
Proof. destruct (Nat.ltb_spec (Nat.max a b) d), (Nat.ltb_spec a d), (Nat.ltb_spec b d); cbn; try reflexivity; lia. Qed.

Lemma many1_loop_exact {A} (p q : str -> pres A) (m : A -> nat) d (s1 : str) : 0 < d ->
  (p s1 = Ok None -> q s1 = Ok None) ->
  forall f acc s l, many1_loop f p acc s = Ok (Some (l, s1)) ->
  (forall r, suffix r s -> good false r (p r)) ->
  (forall r a r', suffix r s -> p r = Ok (Some (a, r')) -> q r = limited (m a) d (Some (a, r'))) ->
  exists l', l = acc ++ l' /\ forall L, length s < L -> many1_loop L q acc s = limited (list_max (map m l')) d (Some (acc ++ l', s1)).
Proof.
  intros Hd Hend. induction f as [|f IH]; intros acc s l H Hg Hq; [discriminate|]. cbn [many1_loop] in H.
  pose proof (Hg s (suffix_refl s)) as Hgs. destruct (p s) as [[[a r]|]| |] eqn:E; try discriminate.
  - destruct (Nat.eqb_spec (byte_len r) (byte_len s)) as [|Hne]; [discriminate|]. destruct Hgs as [Hs _].
    pose proof (suffix_bytes _ _ Hs Hne) as Hlen.
    destruct (IH _ _ _ H) as (l' & -> & HL).
    { intros u Hu. apply Hg. eapply suffix_trans; eassumption. }
    { intros u a' u' Hu. apply Hq. eapply suffix_trans; eassumption. }
    exists (a :: l'). split; [rewrite <- app_assoc; reflexivity|]. intros [|L] HLl; [lia|]. cbn [many1_loop].
    rewrite (Hq _ _ _ (suffix_refl s) E). unfold limited at 1. cbn [map list_max fold_right]. unfold limited at 1. rewrite ltb_max.
    destruct (m a <? d); [|reflexivity]. destruct (Nat.eqb_spec (byte_len r) (byte_len s)) as [|_]; [contradiction|].
    rewrite (HL L) by lia. rewrite <- app_assoc. reflexivity.
  - injection H as <- <-. exists []. split; [rewrite app_nil_r; reflexivity|]. intros [|L] HLl; [lia|]. cbn [many1_loop].
    rewrite (Hend E), app_nil_r. unfold limited. cbn. destruct d; [lia|reflexivity].
Qed.
Lemma many1_exact {A} (p q : str -> pres A) (m : A -> nat) d f s l s1 :
  many1 f p s = Ok (Some (l, s1)) ->
  (0 < d -> p s1 = Ok None -> q s1 = Ok None) ->
  (forall r, suffix r s -> good false r (p r)) ->
  (forall r a r', suffix r s -> p r = Ok (Some (a, r')) -> q r = limited (m a) d (Some (a, r'))) ->
  forall L, length s < L -> many1 L q s = limited (list_max (map m l)) d (Some (l, s1)).
Proof.
  intros H Hend Hg Hq L HL. unfold many1 in *. pose proof (Hg s (suffix_refl s)) as Hgs. destruct (p s) as [[[a r]|]| |] eqn:E; try discriminate.
  cbn [pbind] in H. destruct Hgs as [Hs _]. rewrite (Hq _ _ _ (suffix_refl s) E), limited_bind.
  destruct d as [|d]. { unfold limited. reflexivity. }
  destruct (many1_loop_exact p q m (S d) s1 ltac:(lia) (Hend ltac:(lia)) _ _ _ _ H) as (l' & -> & HL').
  { intros u Hu. apply Hg. eapply suffix_trans; eassumption. }
  { intros u a' u' Hu. apply Hq. eapply suffix_trans; eassumption. }
  pose proof (suffix_length _ _ Hs). rewrite HL' by lia. unfold limited. cbn [app map list_max fold_right]. fold (list_max (map m l')). rewrite ltb_max.
  destruct (m a <? S d); reflexivity.
Qed.
Lemma xt_list_exact {A} (p q : str -> pres A) delim (m : A -> nat) d s1 :
  not_open s1 -> (forall r r', delim r = Some r' -> not_open r) -> (forall r, ogood (fun x => x) true r (delim r)) ->
  forall f acc s l, xt_list f p delim acc s = Ok (Some (l, s1)) ->
  (forall r, suffix r s -> good false r (p r)) ->
  (forall r a r', suffix r s -> p r = Ok (Some (a, r')) -> not_open r' -> q r = limited (m a) d (Some (a, r'))) ->
  exists l', l = acc ++ l' /\ forall L, length s < L -> xt_list L q delim acc s = limited (list_max (map m l')) d (Some (acc ++ l', s1)).
Proof.
  intros Hs1 Hdelim Hdg. induction f as [|f IH]; intros acc s l H Hg Hq; [discriminate|]. cbn [xt_list] in H.
  pose proof (Hg s (suffix_refl s)) as Hgs. destruct (p s) as [[[a r]|]| |] eqn:E; try discriminate. cbn [pbind] in H. destruct Hgs as [Hs _].
  destruct (delim r) as [r1|] eqn:Ed.
  - pose proof (Hdg r) as Hd. rewrite Ed in Hd. destruct Hd as [Hr1 Hlt]. specialize (Hlt eq_refl).
    destruct (IH _ _ _ H) as (l' & -> & HL).
    { intros u Hu. apply Hg. eapply suffix_trans; [eassumption|]. eapply suffix_trans; eassumption. }
    { intros u a' u' Hu. apply Hq. eapply suffix_trans; [eassumption|]. eapply suffix_trans; eassumption. }
    exists (a :: l'). split; [rewrite <- app_assoc; reflexivity|]. intros [|L] HLl; [lia|]. cbn [xt_list].
    rewrite (Hq _ _ _ (suffix_refl s) E (Hdelim _ _ Ed)), limited_bind. cbn [map list_max fold_right]. unfold limited. rewrite ltb_max.
    destruct (m a <? d); [|reflexivity]. rewrite Ed. pose proof (suffix_length _ _ Hs). rewrite (HL L) by lia. rewrite <- app_assoc. reflexivity.
  - injection H as <- ->. exists [a]. split; [reflexivity|]. intros [|L] HLl; [lia|]. cbn [xt_list].
    rewrite (Hq _ _ _ (suffix_refl s) E Hs1), limited_bind. cbn [map list_max fold_right]. rewrite Nat.max_0_r. unfold limited.
    destruct (m a <? d); [|reflexivity]. rewrite Ed. reflexivity.
Qed.

Section Exact.
Variable alphabetic : char -> bool.
Hypothesis Hal : alphabetic_ok alphabetic.
Variable Nt : notation.
Let F := format_of Nt.
Notation deep := (read_deep alphabetic F).
Notation read := (read_term alphabetic F).

Lemma deep_not_open s l d f : not_open s -> deep l (S d) s = read (S f) s.
Proof.
  intro H. cbn [read_deep read_term]. destruct (terminal s) as [[t r]|]; [reflexivity|]. destruct (nonterminal alphabetic F s) as [[t r]|]; [reflexivity|].
  assert (Hb : forall a b p, a = c_open \/ a = c_lbrack -> bracketed a b p s = Ok None).
  { intros a b p Ha. unfold bracketed. destruct s as [|c s]; [reflexivity|]. cbn in H. cbn [p_char].
    destruct (N.eqb_spec c a) as [->|]; [destruct Ha; tauto|reflexivity]. }
  rewrite !Hb by auto. reflexivity.
Qed.
Lemma expression_next_not_open r r' : expression_next F r = Some r' -> not_open r.
Proof.
  unfold expression_next. destruct (p_char _ r) as [r1|] eqn:E; [|discriminate]. apply p_char_suffix in E. subst r. intros _. cbn.
  unfold F. destruct Nt; split; discriminate.
Qed.
Lemma rhs_exact l d f s es s1 : length s < f -> length s < l -> not_open s1 ->
  (forall r t r', suffix r s -> read f r = Ok (Some (t, r')) -> deep l d r = limited (nesting t) d (Some (t, r'))) ->
  rhs_of F f (read f) s = Ok (Some (es, s1)) -> rhs_of F l (deep l d) s = limited (nesting_alts es) d (Some (es, s1)).
Proof.
  intros Hf Hl Hs1 IH H. unfold rhs_of in *.
  assert (Hg : forall r, suffix r s -> good false r (not_before_separator F (read f r))).
  { intros r Hr. apply nbs_good, read_term_good. apply suffix_length in Hr. lia. }
  destruct (xt_list_exact (expression_of F f (read f)) (expression_of F l (deep l d)) (expression_next F) (fun e => list_max (map nesting e)) d s1
    Hs1 expression_next_not_open (expression_next_good F) _ _ _ _ H) as (l' & -> & HL).
  - intros r Hr. apply many1_good; [apply suffix_length in Hr; lia|]. intros u Hu. apply Hg. eapply suffix_trans; eassumption.
  - intros r e r' Hr He Hr'. unfold expression_of in *. pose proof (suffix_length _ _ Hr).
    eapply (many1_exact (fun s => not_before_separator F (read f s)) (fun s => not_before_separator F (deep l d s)) nesting); [exact He| | | |lia].
    + intros Hd E. destruct d as [|d]; [lia|]. destruct f as [|f]; [lia|]. rewrite (deep_not_open _ l d f Hr'). exact E.
    + intros u Hu. apply Hg. eapply suffix_trans; eassumption.
    + intros u t u' Hu E. unfold not_before_separator in E. destruct (read f u) as [[[t0 v]|]| |] eqn:Er; try discriminate. cbn [pbind] in E.
      rewrite (IH u t0 v (suffix_trans _ _ _ Hu Hr) Er). unfold not_before_separator. rewrite limited_bind.
      destruct (p_tag _ v); [discriminate|]. injection E as <- <-. reflexivity.
  - rewrite (HL l Hl). reflexivity.
Qed.
Lemma term_exact : forall f s t r, length s < f -> read f s = Ok (Some (t, r)) -> forall l d, length s < l -> deep l d s = limited (nesting t) d (Some (t, r)).
Proof.
  induction f as [|f IH]; intros s t r Hf H l d Hl; [lia|]. destruct d as [|d]; [reflexivity|]. cbn [read_term] in H. cbn [read_deep].
  destruct (terminal s) as [[t0 r0]|]; [injection H as <- <-; reflexivity|].
  destruct (nonterminal alphabetic F s) as [[t0 r0]|]; [injection H as <- <-; reflexivity|].
  assert (Hb : forall a b es u, b = c_close \/ b = c_rbrack -> bracketed a b (rhs_of F f (read f)) s = Ok (Some (es, u)) ->
     bracketed a b (rhs_of F l (deep l d)) s = limited (nesting_alts es) d (Some (es, u))).
  { intros a b es u Hb E. unfold bracketed in *. destruct (p_char a s) as [s1|] eqn:E1; [|discriminate]. apply p_char_suffix in E1. subst s. cbn in Hf, Hl.
    cbn [option_map pbind] in *. destruct (rhs_of F f (read f) s1) as [[[es' s2]|]| |] eqn:E2; try discriminate. cbn [pbind] in E.
    destruct (p_char b s2) as [s3|] eqn:E3; [|discriminate]. cbn [option_map pbind] in E. injection E as -> <-.
    assert (Hn : not_open s2). { apply p_char_suffix in E3. subst s2. cbn. destruct Hb as [->| ->]; split; discriminate. }
    rewrite (rhs_exact l d f s1 es s2 ltac:(lia) ltac:(lia) Hn).
    - rewrite limited_bind. unfold limited. rewrite E3. reflexivity.
    - intros v t' v' Hv Ev. apply suffix_length in Hv. apply (IH v); [lia|exact Ev|lia].
    - exact E2. }
  destruct (bracketed c_open c_close (rhs_of F f (read f)) s) as [[[es u]|]| |] eqn:E; try discriminate.
  - injection H as <- <-. rewrite (Hb _ _ _ _ (or_introl eq_refl) E). unfold limited.
    change (nesting (Group es)) with (S (nesting_alts es)). change (S (nesting_alts es) <? S d) with (nesting_alts es <? d). destruct (nesting_alts es <? d); reflexivity.
  - assert (Ho : exists s', s = c_lbrack :: s').
    { unfold bracketed in H. destruct (p_char c_lbrack s) as [s'|] eqn:E1; [|discriminate]. apply p_char_suffix in E1. eauto. }
    destruct Ho as [s' ->]. change (bracketed c_open c_close (rhs_of F l (deep l d)) (c_lbrack :: s')) with (Ok (@None (list parsed_expression * str))).
    cbv beta iota.
    destruct (bracketed c_lbrack c_rbrack (rhs_of F f (read f)) (c_lbrack :: s')) as [[[es u]|]| |] eqn:E2; try discriminate.
    cbn [pbind] in H. injection H as <- <-. rewrite (Hb _ _ _ _ (or_intror eq_refl) E2), limited_bind.
    change (nesting (Optional es)) with (S (nesting_alts es)). unfold limited. change (S (nesting_alts es) <? S d) with (nesting_alts es <? d).
    destruct (nesting_alts es <? d); reflexivity.
Qed.
Lemma lhs_not_open s x : read_prod_lhs alphabetic F s = Some x -> not_open s.
Proof.
  unfold read_prod_lhs. destruct (name alphabetic F s) as [[n r]|] eqn:E; [|discriminate]. intros _. unfold name, F in E. destruct s as [|c s]; [exact I|].
  destruct Nt; cbn [format_of BNF ABNF f_delimiter] in E.
  - cbn in E. destruct (N.eqb_spec c c_lt) as [->|]; [|discriminate]. split; discriminate.
  - destruct (alphabetic c) eqn:Ea; [|discriminate]. destruct (Hal c Ea) as [_ H]. cbn. split; intros ->; unfold c_open, c_lbrack in H; lia.
Qed.
Lemma production_exact f s p r : length s < f -> read_production alphabetic F f s = Ok (Some (p, r)) ->
  forall l d, length s < l -> production_deep alphabetic F l d s = limited (nesting_alts (pp_rhs p)) d (Some (p, r)).
Proof.
  intros Hf H l d Hl. unfold read_production, production_deep in *. pose proof (read_prod_lhs_good alphabetic F s) as Hg.
  destruct (read_prod_lhs alphabetic F s) as [[n s1]|]; [|discriminate]. cbn [pbind ogood snd] in *. destruct Hg as [Hg _].
  destruct (rhs_of F f (read f) s1) as [[[es s2]|]| |] eqn:E; try discriminate. cbn [pbind] in H. pose proof (suffix_length _ _ Hg).
  assert (Hn : not_open s2).
  { destruct s2 as [|c s2]; [exact I|]. destruct (read_prod_lhs alphabetic F (c :: s2)) eqn:E2; [|discriminate]. eapply lhs_not_open; eassumption. }
  rewrite (rhs_exact l d f s1 es s2); [|lia|lia|exact Hn| |exact E].
  - rewrite limited_bind. assert (Ep : p = mkParsed n es /\ r = s2).
    { destruct s2 as [|c s2]; [injection H as <- <-; auto|]. destruct (read_prod_lhs alphabetic F (c :: s2)); [injection H as <- <-; auto|discriminate]. }
    destruct Ep as [-> ->]. unfold limited. cbn [pp_rhs]. destruct (nesting_alts es <? d); [exact H|reflexivity].
  - intros v t' v' Hv Ev. apply suffix_length in Hv. apply (term_exact f v); [lia|exact Ev|lia].
Qed.
Lemma complete_exact s pg : parsed_grammar_complete alphabetic F s = Ok (Some pg) ->
  forall d, complete_deep alphabetic F d s = limited (nesting_all pg) d (Some pg).
Proof.
  intros H d. unfold parsed_grammar_complete, complete_deep, read_grammar, grammar_deep in *.
  destruct (many1 (fuel_for s) (fun s0 => read_production alphabetic F (fuel_for s) (whitespace_plus_comments s0)) (whitespace_plus_comments s)) as [[[l [|c r]]|]| |] eqn:E;
    cbn in H; try discriminate. injection H as ->. pose proof (fuel_enough s) as Hfe. pose proof (ws_length s) as Hws.
  rewrite (many1_exact (fun s0 => read_production alphabetic F (fuel_for s) (whitespace_plus_comments s0))
             (fun s0 => production_deep alphabetic F (fuel_for s) d (whitespace_plus_comments s0)) (fun p => nesting_alts (pp_rhs p)) d _ _ _ _ E).
  - unfold nesting_all, limited. destruct (_ <? d); reflexivity.
  - intros _ _. unfold production_deep. destruct Nt; reflexivity.
  - intros r Hr. apply suffix_length in Hr. pose proof (ws_length r). apply ws_good, read_production_good. lia.
  - intros r p r' Hr Er. apply suffix_length in Hr. pose proof (ws_length r). eapply production_exact; [|exact Er|]; lia.
  - lia.
Qed.
End Exact.

(** ** Deep texts *)

Lemma deep_opens alphabetic l : 0 < l -> forall d (r : str), read_deep alphabetic BNF l d (repeat c_open d ++ r) = OutOfFuel.
Proof.
  intro Hl. induction d as [|d IH]; intro r; [reflexivity|]. cbn [repeat app read_deep].
  change (terminal (c_open :: repeat c_open d ++ r)) with (@None (term * str)).
  change (nonterminal alphabetic BNF (c_open :: repeat c_open d ++ r)) with (@None (term * str)). cbv beta iota.
  assert (E : rhs_of BNF l (read_deep alphabetic BNF l d) (repeat c_open d ++ r) = OutOfFuel).
  { unfold rhs_of. destruct l as [|l]; [lia|]. cbn [xt_list]. unfold expression_of at 1, many1. rewrite IH. reflexivity. }
  unfold bracketed at 1. cbn [p_char]. rewrite N.eqb_refl. cbn [option_map pbind]. rewrite E. reflexivity.
Qed.
Lemma complete_opens alphabetic d r : complete_deep alphabetic BNF d (lit "<a> ::= " ++ repeat c_open d ++ r) = OutOfFuel.
Proof.
  unfold complete_deep, grammar_deep. set (f := fuel_for _). assert (Hf : 0 < f) by (unfold f, fuel_for; lia). clearbody f.
  change (whitespace_plus_comments (lit "<a> ::= " ++ repeat c_open d ++ r)) with (lit "<a> ::= " ++ repeat c_open d ++ r).
  unfold many1. change (whitespace_plus_comments (lit "<a> ::= " ++ repeat c_open d ++ r)) with (lit "<a> ::= " ++ repeat c_open d ++ r).
  unfold production_deep at 1.
  assert (E : exists r', read_prod_lhs alphabetic BNF (lit "<a> ::= " ++ repeat c_open d ++ r) = Some (lit "a", r') /\ read_deep alphabetic BNF f d r' = OutOfFuel).
  { destruct d as [|d].
    - eexists. split; [cbn; reflexivity|reflexivity].
    - eexists. split; [cbn; reflexivity|]. exact (deep_opens alphabetic f Hf (S d) r). }
  destruct E as (r' & E1 & E2). rewrite E1. cbn [pbind]. unfold rhs_of. destruct f as [|f]; [lia|]. cbn [xt_list]. unfold expression_of at 1, many1. rewrite E2. reflexivity.
Qed.
Lemma complete_same alphabetic F d s : complete_deep alphabetic F d s = OutOfFuel \/ complete_deep alphabetic F d s = parsed_grammar_complete alphabetic F s.
Proof.
  destruct (complete_agree alphabetic F d s) as [H|[H|H]]; [left; exact H| |right; exact H].
  destruct (parsed_grammar_complete_total alphabetic F s) as [o E]. congruence.
Qed.
