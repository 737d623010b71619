(** Bounds on the counts of TextCost.v. *)
From Verif Require Import TextCost TextSpec TextProofs.

Local Notation K := 16.
Local Notation L := 8.

Lemma skip_count_le s : forall b, skip_count b s + 3 * length (skip b s) <= 3 * length s + 3.
Proof.
  induction s as [|c s IH]; intro b; cbn [skip_count skip length]; [lia|]. destruct b.
  - destruct (N.eqb c c_cr || N.eqb c c_lf); cbn [negb]; [specialize (IH false)|specialize (IH true)]; lia.
  - destruct (is_whitespace c); [specialize (IH false); lia|].
    destruct (N.eqb c c_semi); [specialize (IH true); lia|]. cbn [length]. lia.
Qed.
Lemma ws_count s : skip_count false s + 3 * length (whitespace_plus_comments s) <= 3 * length s + 3.
Proof. apply skip_count_le. Qed.
Lemma clean_count s : whitespace_plus_comments s = s -> skip_count false s <= 3.
Proof. intro H. pose proof (ws_count s). rewrite H in *. lia. Qed.
Lemma ws_clean s : whitespace_plus_comments (whitespace_plus_comments s) = whitespace_plus_comments s.
Proof. apply skip_clean. Qed.

Lemma take_until_count q s : snd (take_until_c q s) <= S (length s) /\
  forall a b, take_until q s = Some (a, b) -> snd (take_until_c q s) + length b = S (length s).
Proof.
  unfold take_until_c. cbn [snd]. destruct (take_until q s) as [[a b]|] eqn:E.
  - destruct (take_until_spec _ _ _ _ E) as [-> _]. rewrite app_length. split; [lia|]. intros ? ? H. injection H as <- <-. lia.
  - split; [lia|]. discriminate.
Qed.

(** What a parser may cost: [ok] of the rest and the count if it succeeds, [bad] if it fails. *)
Definition costs {A} (x : counted (option A)) (ok : A -> nat -> Prop) (bad : nat) : Prop :=
  match fst x with Some a => ok a (snd x) | None => snd x <= bad end.
Definition pcosts {A} (x : counted (pres A)) (ok : str -> nat -> Prop) (bad : nat) : Prop :=
  match fst x with Ok (Some (_, s)) => ok s (snd x) | Ok None => snd x <= bad | _ => True end.

Lemma pcosts_weaken {A} (x : counted (pres A)) (ok ok' : str -> nat -> Prop) bad bad' : pcosts x ok bad ->
  (forall s n, ok s n -> ok' s n) -> bad <= bad' -> pcosts x ok' bad'.
Proof. unfold pcosts. destruct (fst x) as [[[a s]|]| |]; intros; auto; lia. Qed.
Lemma pcosts_bind {A B} (x : counted (pres A)) (f : A * str -> counted (pres B)) (ok okx : str -> nat -> Prop) bad badx :
  pcosts x okx badx -> badx <= bad ->
  (forall a s, fst x = Ok (Some (a, s)) -> okx s (snd x) -> pcosts (tick (snd x) (f (a, s))) ok bad) ->
  pcosts (pbind_c x f) ok bad.
Proof.
  unfold pcosts, pbind_c. destruct x as [[[[a s]|]| |] n]; cbn [fst snd]; intros Hx Hb H; auto.
  - apply (H a s eq_refl Hx).
  - lia.
Qed.
Lemma pcosts_tick {A} n (x : counted (pres A)) (ok : str -> nat -> Prop) bad :
  pcosts x (fun s k => ok s (n + k)) (bad - n) -> n <= bad -> pcosts (tick n x) ok bad.
Proof. unfold pcosts. cbn [fst snd tick]. destruct (fst x) as [[[a s]|]| |]; auto. lia. Qed.

(** Where something other than the end of an expression may start. *)
Definition is_quote (c : char) : bool := N.eqb c dquote || N.eqb c squote.

Section Bounds.
Variable alphabetic : char -> bool.
Hypothesis Halpha : alphabetic_ok alphabetic.
Variable Nt : notation.
Notation F := (format_of Nt).

Definition name_start (s : str) : bool :=
  match s with c :: _ => N.eqb c c_lt || alphabetic c | [] => false end.
Definition starter (s : str) : bool :=
  name_start s || match s with c :: _ => is_quote c || N.eqb c c_open || N.eqb c c_lbrack | [] => false end.

(** What a failing attempt at [s] may cost. *)
Definition weight (s : str) : nat :=
  match read_prod_lhs alphabetic F s with
  | Some (_, r) => K * (length s - length r) + L
  | None => if starter s then K * length s + L else L
  end.

Lemma not_alpha c : alphabetic c = true -> is_whitespace c = false /\
  N.eqb c dquote = false /\ N.eqb c squote = false /\ N.eqb c c_open = false /\ N.eqb c c_close = false /\
  N.eqb c c_lbrack = false /\ N.eqb c c_rbrack = false /\ N.eqb c c_slash = false /\ N.eqb c c_bar = false.
Proof.
  intro H. destruct (Halpha _ H) as [Hw Hr]. split; [assumption|].
  repeat split; apply N.eqb_neq; intros ->;
    (destruct Hr as [[? ?]|[? ?]]; [reflexivity| |];
     unfold dquote, squote, c_open, c_close, c_lbrack, c_rbrack, c_slash, c_bar in *; lia).
Qed.

Lemma weight_le s : weight s <= K * length s + L.
Proof.
  unfold weight. destruct (read_prod_lhs alphabetic F s) as [[n r]|]; [lia|]. destruct (starter s); lia.
Qed.
Lemma weight_min s : L <= weight s.
Proof.
  unfold weight. destruct (read_prod_lhs alphabetic F s) as [[n r]|]; [lia|]. destruct (starter s); lia.
Qed.

(** *** Names and left-hand sides *)
Lemma name_costs s : costs (name_c alphabetic F s)
  (fun x n => n + length (snd x) <= length s + 2 /\ S (length (snd x)) <= length s /\ name_start s = true)
  (if name_start s then length s + 3 else 1).
Proof.
  unfold costs, name_c. destruct Nt; cbn [format_of BNF ABNF f_delimiter].
  - destruct s as [|c s]; [cbn; lia|]. cbn [name_start]. unfold obind_c, char_c. cbn [fst snd p_char].
    destruct (N.eqb c c_lt); cbn [orb fst snd tick].
    + cbn [take_till_c fst snd]. pose proof (take_till_app (fun c => N.eqb c c_gt) s) as E.
      destruct (take_till (fun c => N.eqb c c_gt) s) as [a b]. cbn [fst snd] in *. subst s.
      destruct b as [|d b]; cbn [p_char]; [cbn [fst snd length]; rewrite app_length; cbn; lia|].
      destruct (N.eqb d c_gt); cbn [fst snd tick length]; rewrite app_length; cbn [length]; [|lia].
      split; [lia|]. split; [lia|reflexivity].
    + destruct (alphabetic c); lia.
  - destruct s as [|c s]; [cbn; lia|]. cbn [name_start]. destruct (alphabetic c) eqn:Ea; cbn [orb fst snd].
    + rewrite orb_true_r. cbn [take_till_c fst snd].
      set (f := fun c => is_whitespace c || N.eqb c c_close || N.eqb c c_rbrack).
      pose proof (take_till_app f (c :: s)) as E. apply (f_equal (@length _)) in E. rewrite app_length in E.
      assert (1 <= length (fst (take_till f (c :: s)))).
      { cbn [take_till]. unfold f at 1. destruct (not_alpha _ Ea) as (-> & _ & _ & _ & -> & _ & -> & _). cbn [orb].
        destruct (take_till f s). cbn. lia. }
      split; [lia|]. split; [lia|reflexivity].
    + destruct (N.eqb c c_lt); cbn; lia.
Qed.

Lemma separator_le : length (f_separator F) <= 3 /\ 1 <= length (f_separator F).
Proof. destruct Nt; cbn; lia. Qed.

Lemma after_lhs_costs s : costs (after_lhs_c F s)
  (fun r n => n + 3 * length r <= 3 * length s + 7 /\ S (length r) <= length s) 3.
Proof.
  unfold costs, after_lhs_c. unfold obind_c, tag_c. cbn [fst snd]. pose proof separator_le as Hs.
  destruct (p_tag (f_separator F) s) as [s1|] eqn:E; [|cbn; lia].
  apply p_tag_spec in E. subst s. cbn [fst snd tick ws_c]. rewrite app_length.
  set (s2 := match p_char (f_alternative F) s1 with Some r => r | None => s1 end).
  assert (length s2 <= length s1).
  { unfold s2. destruct (p_char (f_alternative F) s1) eqn:E; [|lia]. apply p_char_suffix in E. subst. cbn. lia. }
  pose proof (ws_count s2). pose proof (ws_length s2). lia.
Qed.

Lemma read_prod_lhs_costs s : costs (read_prod_lhs_c alphabetic F s)
  (fun x n => n + 3 * length (snd x) <= 3 * length s + 12 /\ 2 + length (snd x) <= length s) (weight s).
Proof.
  pose proof (name_costs s) as Hn. unfold weight. rewrite <- erase_read_prod_lhs. unfold starter.
  set (x := read_prod_lhs_c alphabetic F s). assert (Hx : x = read_prod_lhs_c alphabetic F s) by reflexivity. clearbody x.
  unfold read_prod_lhs_c, obind_c in Hx. unfold costs in *.
  destruct (fst (name_c alphabetic F s)) as [[n s1]|]; cbn [fst snd tick] in *.
  - destruct Hn as (H1 & H2 & H3). rewrite H3. cbn [orb ws_c fst snd] in *.
    pose proof (ws_count s1). pose proof (ws_length s1).
    pose proof (after_lhs_costs (whitespace_plus_comments s1)) as Ha. unfold costs in Ha.
    destruct (fst (after_lhs_c F (whitespace_plus_comments s1))) as [r|]; cbn [fst snd tick] in Hx; subst x; cbn [fst snd tick] in *; lia.
  - subst x. cbn [fst snd]. destruct (name_start s); cbn [orb]; [lia|].
    destruct (match s with [] => _ | _ => _ end); lia.
Qed.

Lemma prod_lhs_same s :
  prod_lhs alphabetic F s = option_map (fun x => (Nonterminal (fst x), snd x)) (read_prod_lhs alphabetic F s).
Proof.
  unfold prod_lhs, read_prod_lhs, nonterminal. destruct (name alphabetic F s) as [[n s1]|]; cbn [obind]; [|reflexivity].
  destruct (after_lhs F (whitespace_plus_comments s1)); reflexivity.
Qed.
Lemma prod_lhs_count s : snd (prod_lhs_c alphabetic F s) = snd (read_prod_lhs_c alphabetic F s).
Proof.
  unfold prod_lhs_c, read_prod_lhs_c, nonterminal_c, obind_c. destruct (fst (name_c alphabetic F s)) as [[n s1]|]; cbn [fst snd tick]; [|reflexivity].
  cbn [fst snd tick ws_c]. destruct (fst (after_lhs_c F (whitespace_plus_comments s1))); cbn [fst snd tick ws_c]; lia.
Qed.
Lemma prod_lhs_costs s : costs (prod_lhs_c alphabetic F s)
  (fun x n => n + 3 * length (snd x) <= 3 * length s + 12 /\ 2 + length (snd x) <= length s) (weight s).
Proof.
  pose proof (read_prod_lhs_costs s) as H. unfold costs in *. rewrite erase_prod_lhs, prod_lhs_same, prod_lhs_count.
  rewrite erase_read_prod_lhs in H. destruct (read_prod_lhs alphabetic F s) as [[n r]|]; exact H.
Qed.
(** Success is also covered by the weight. *)
Lemma lhs_weight s : snd (read_prod_lhs_c alphabetic F s) <= weight s.
Proof.
  pose proof (read_prod_lhs_costs s) as H. unfold costs in H. rewrite erase_read_prod_lhs in H.
  unfold weight in *. destruct (read_prod_lhs alphabetic F s) as [[n r]|]; cbn [snd] in *; lia.
Qed.

(** *** Terminals *)
Definition quote_start (s : str) : bool := match s with c :: _ => is_quote c | [] => false end.

Lemma quoted_costs q s : costs (quoted_c q s)
  (fun x n => n + length (snd x) <= length s + 1 /\ 2 + length (snd x) <= length s /\ exists r, s = q :: r)
  (match s with c :: _ => if N.eqb c q then S (length s) else 1 | [] => 1 end).
Proof.
  unfold costs, quoted_c, obind_c, char_c. cbn [fst snd]. destruct s as [|c s]; cbn [p_char]; [cbn; lia|].
  destruct (N.eqb_spec c q) as [->|]; [|cbn; lia]. cbn [fst snd tick].
  pose proof (take_until_count q s) as [H1 H2]. unfold take_until_c in *. cbn [fst snd] in *.
  destruct (take_until q s) as [[a b]|] eqn:E; [|cbn [fst snd tick length] in *; lia].
  destruct (take_until_spec _ _ _ _ E) as (-> & _ & r & ->). specialize (H2 _ _ eq_refl). cbn [p_char]. rewrite N.eqb_refl.
  cbn [fst snd tick length] in *. rewrite app_length in *. cbn [length] in *. split; [lia|]. split; [lia|]. eexists; reflexivity.
Qed.

Lemma terminal_costs s : costs (terminal_c s)
  (fun x n => n + 3 * length (snd x) <= 3 * length s + 4 /\ 2 + length (snd x) <= length s /\ quote_start s = true /\
    whitespace_plus_comments (snd x) = snd x)
  (if quote_start s then length s + 2 else 2).
Proof.
  pose proof (quoted_costs dquote s) as H1. pose proof (quoted_costs squote s) as H2.
  unfold costs, terminal_c, quoted_string_c, or_c, obind_c in *.
  destruct (fst (quoted_c dquote s)) as [[a s1]|] eqn:E1.
  - rewrite E1. cbn [fst snd tick ws_c] in *. destruct H1 as (H1 & H1' & r & ->). pose proof (ws_count s1). pose proof (ws_length s1).
    split; [lia|]. split; [lia|]. split; [reflexivity|apply ws_clean].
  - cbn [fst snd tick]. destruct (fst (quoted_c squote s)) as [[a s1]|] eqn:E2; cbn [fst snd tick ws_c] in *.
    + destruct H2 as (H2 & H2' & r & ->). pose proof (ws_count s1). pose proof (ws_length s1).
      change (N.eqb squote dquote) with false in H1. cbv iota in H1.
      split; [lia|]. split; [lia|]. split; [reflexivity|apply ws_clean].
    + unfold quote_start, is_quote. destruct s as [|c s]; [lia|].
      destruct (N.eqb_spec c dquote) as [->|]; cbn [orb]; [change (N.eqb dquote squote) with false in H2; cbv iota in H2; lia|].
      destruct (N.eqb c squote); lia.
Qed.

Lemma nonterminal_costs s : costs (nonterminal_c alphabetic F s)
  (fun x n => n + 3 * length (snd x) <= 3 * length s + 5 /\ 1 + length (snd x) <= length s /\ name_start s = true /\
    whitespace_plus_comments (snd x) = snd x)
  (if name_start s then length s + 3 else 1).
Proof.
  pose proof (name_costs s) as H1. unfold costs, nonterminal_c, obind_c in *.
  destruct (fst (name_c alphabetic F s)) as [[a s1]|] eqn:E1; cbn [fst snd tick ws_c] in *; [|assumption].
  pose proof (ws_count s1). pose proof (ws_length s1). destruct H1 as (H1 & H2 & H3).
  split; [lia|]. split; [lia|]. split; [assumption|apply ws_clean].
Qed.

Lemma quote_no_lhs s : quote_start s = true -> read_prod_lhs alphabetic F s = None.
Proof.
  unfold read_prod_lhs. destruct s as [|c s]; [discriminate|]. cbn [quote_start]. intro Hq.
  replace (name alphabetic F (c :: s)) with (@None (str * str)); [reflexivity|].
  unfold name. destruct Nt; cbn [format_of BNF ABNF f_delimiter p_char].
  - destruct (N.eqb_spec c c_lt) as [->|]; [discriminate|reflexivity].
  - destruct (alphabetic c) eqn:E; [|reflexivity]. destruct (not_alpha _ E) as (_ & E1 & E2 & _).
    unfold is_quote in Hq. rewrite E1, E2 in Hq. discriminate.
Qed.
(** A bracket does not start a left-hand side either. *)
Lemma char_no_lhs c s : name_start (c :: s) = false -> read_prod_lhs alphabetic F (c :: s) = None.
Proof.
  unfold read_prod_lhs. cbn [name_start]. intro Hq.
  replace (name alphabetic F (c :: s)) with (@None (str * str)); [reflexivity|].
  apply orb_false_elim in Hq as [H1 H2].
  unfold name. destruct Nt; cbn [format_of BNF ABNF f_delimiter p_char]; [rewrite H1|rewrite H2]; reflexivity.
Qed.
Lemma weight_quote s : quote_start s = true -> weight s = K * length s + L.
Proof.
  intro H. unfold weight. rewrite quote_no_lhs by assumption. unfold starter. destruct s as [|c s]; [discriminate|].
  cbn [quote_start] in H. rewrite H. cbn [orb]. rewrite orb_true_r. reflexivity.
Qed.
(** The characters after which nothing was attempted in vain. *)
Definition inert (c : char) : Prop := In c [c_bar; c_slash; c_close; c_rbrack].
Lemma weight_inert c s : inert c -> weight (c :: s) = L.
Proof.
  intro H. assert (name_start (c :: s) = false).
  { cbn [name_start]. destruct (alphabetic c) eqn:E.
    - destruct (not_alpha _ E) as (_ & _ & _ & _ & E1 & _ & E2 & E3 & E4).
      destruct H as [<-|[<-|[<-|[<-|[]]]]]; discriminate.
    - destruct H as [<-|[<-|[<-|[<-|[]]]]]; reflexivity. }
  unfold weight. rewrite char_no_lhs by assumption. unfold starter. rewrite H0.
  destruct H as [<-|[<-|[<-|[<-|[]]]]]; reflexivity.
Qed.
Lemma weight_bracket c s : c = c_open \/ c = c_lbrack -> weight (c :: s) = K * length (c :: s) + L.
Proof.
  intro H. assert (E : name_start (c :: s) = false).
  { cbn [name_start]. destruct (alphabetic c) eqn:E.
    - destruct (not_alpha _ E) as (_ & _ & _ & E1 & _ & E2 & _).
      destruct H as [->| ->]; discriminate.
    - destruct H as [->| ->]; reflexivity. }
  unfold weight. rewrite char_no_lhs by assumption. unfold starter. rewrite E. destruct H as [->| ->]; reflexivity.
Qed.

(** *** Terms *)

(** The bound for a parser of terms at [s]. *)
Definition term_bound {A} (s : str) (x : counted (pres A)) : Prop :=
  pcosts x (fun r n => n + K * length r + 5 <= K * length s /\ whitespace_plus_comments r = r /\
                       (p_tag (f_separator F) r <> None -> n + 3 <= weight s)) (weight s).

Lemma nonterminal_separator s t r n : nonterminal alphabetic F s = Some (t, r) -> p_tag (f_separator F) r <> None ->
  n + 3 * length r <= 3 * length s + 7 -> S (length r) <= length s -> n + 3 <= weight s.
Proof.
  intros H1 H2 H3 H4. unfold weight, read_prod_lhs. unfold nonterminal in H1.
  destruct (name alphabetic F s) as [[a s1]|]; cbn [obind] in *; [|discriminate]. injection H1 as _ <-.
  unfold after_lhs. destruct (p_tag (f_separator F) (whitespace_plus_comments s1)) as [s2|] eqn:E; cbn [obind]; [|congruence].
  apply p_tag_spec in E. pose proof separator_le as Hs. pose proof (f_equal (@length _) E) as El. rewrite app_length in El.
  set (s3 := match p_char (f_alternative F) s2 with Some r => r | None => s2 end).
  assert (length s3 <= length s2).
  { unfold s3. destruct (p_char (f_alternative F) s2) eqn:E'; [|lia]. apply p_char_suffix in E'. subst. cbn. lia. }
  pose proof (ws_length s3). lia.
Qed.

Lemma name_start_no_quote s : name_start s = true -> quote_start s = false.
Proof.
  destruct s as [|c s]; [discriminate|]. cbn [name_start quote_start]. intro H. apply orb_prop in H as [H|H].
  - apply N.eqb_eq in H. subst c. reflexivity.
  - destruct (not_alpha _ H) as (_ & E1 & E2 & _). unfold is_quote. rewrite E1, E2. reflexivity.
Qed.

Lemma parse_term_bound s : term_bound s (ok_c (parse_term_c alphabetic F s)).
Proof.
  pose proof (terminal_costs s) as Ht. pose proof (nonterminal_costs s) as Hn. pose proof (weight_min s) as Hm.
  unfold costs in *. unfold term_bound, pcosts, ok_c, parse_term_c, or_c. cbn [fst snd].
  rewrite erase_terminal in *. pose proof (erase_terminal s) as Et. destruct (terminal s) as [[t r]|].
  - rewrite Et. cbn [snd] in *. destruct Ht as (H1 & H2 & H3 & H4). rewrite weight_quote by assumption. split; [lia|]. split; [assumption|]. lia.
  - cbn [fst snd tick]. rewrite erase_nonterminal in *. destruct (nonterminal alphabetic F s) as [[t r]|] eqn:En.
    + cbn [snd] in *. destruct Hn as (H1 & H2 & H3 & H4). rewrite name_start_no_quote in Ht by assumption.
      split; [lia|]. split; [assumption|]. intro Hs. eapply nonterminal_separator; eauto; lia.
    + destruct (quote_start s) eqn:Eq.
      * rewrite weight_quote by assumption. destruct (name_start s); lia.
      * destruct (name_start s) eqn:Es; [|lia]. unfold weight. replace (read_prod_lhs alphabetic F s) with (@None (str * str)).
        -- unfold starter. rewrite Es. cbn [orb]. lia.
        -- unfold read_prod_lhs, nonterminal in *. destruct (name alphabetic F s) as [[? ?]|]; [discriminate|reflexivity].
Qed.

Lemma attempt_bound {A} s (x : counted (pres A)) : term_bound s x ->
  pcosts (not_before_separator_c F x) (fun r n => n + K * length r + 2 <= K * length s /\ whitespace_plus_comments r = r) (weight s).
Proof.
  intro H. unfold not_before_separator_c. eapply pcosts_bind; [exact H|lia|]. cbv beta. intros a r Hx (H1 & H2 & H3).
  pose proof separator_le as Hs. unfold pcosts. destruct (p_tag (f_separator F) r) eqn:E; cbn [fst snd tick].
  - specialize (H3 ltac:(congruence)). lia.
  - split; [lia|assumption].
Qed.

(** *** Expressions and lists of expressions *)
Section Loop.
Context {A : Type}.
Variable p : str -> counted (pres A).
Hypothesis Hp : forall s, pcosts (p s) (fun r n => n + K * length r + 2 <= K * length s /\ whitespace_plus_comments r = r) (weight s).

Lemma many1_loop_bound fuel : forall acc s, whitespace_plus_comments s = s ->
  pcosts (many1_loop_c fuel p acc s) (fun r n => n + K * length r <= K * length s + weight r /\ length r <= length s /\ whitespace_plus_comments r = r)
    (K * length s).
Proof.
  induction fuel as [|fuel IH]; intros acc s Hs; unfold pcosts; cbn [many1_loop_c]; [exact I|].
  pose proof (Hp s) as H. unfold pcosts in H. destruct (fst (p s)) as [[[a r]|]| |]; try exact I.
  - destruct H as [H Hr]. destruct (byte_len r =? byte_len s); cbn [fst snd tick]; [lia|].
    specialize (IH (acc ++ [a]) r Hr). unfold pcosts in IH.
    destruct (fst (many1_loop_c fuel p (acc ++ [a]) r)) as [[[l r']|]| |]; try exact I; [|lia].
    destruct IH as (? & ? & ?). split; [lia|]. split; [lia|assumption].
  - cbn [fst snd]. split; [lia|]. split; [lia|assumption].
Qed.
Lemma many1_bound fuel s :
  pcosts (many1_c fuel p s) (fun r n => n + K * length r + 2 <= K * length s + weight r /\ length r <= length s /\ whitespace_plus_comments r = r)
    (K * length s + L).
Proof.
  unfold many1_c. pose proof (weight_le s). eapply pcosts_bind; [apply Hp|lia|]. cbv beta. intros a r Hx [H1 H2].
  apply pcosts_tick; [|lia]. eapply pcosts_weaken; [apply many1_loop_bound; assumption| |lia].
  cbv beta. intros r' n (H3 & H4 & H5). split; [lia|]. split; [lia|assumption].
Qed.
End Loop.

Lemma expression_next_costs s : costs (expression_next_c F s)
  (fun r n => n + 3 * length r <= 3 * length s + 1 /\ S (length r) <= length s /\ weight s = L) 1.
Proof.
  unfold costs, expression_next_c, obind_c, char_c. cbn [fst snd]. destruct (p_char (f_alternative F) s) as [s1|] eqn:E; [|cbn; lia].
  apply p_char_suffix in E. cbn [fst snd tick ws_c]. subst s. pose proof (ws_count s1). pose proof (ws_length s1). cbn [length].
  split; [lia|]. split; [lia|]. apply weight_inert. destruct Nt; cbn; auto.
Qed.

Section List.
Context {A : Type}.
Variable p : str -> counted (pres A).
Hypothesis Hp : forall s, pcosts (p s)
  (fun r n => n + K * length r + 2 <= K * length s + weight r /\ length r <= length s /\ whitespace_plus_comments r = r) (K * length s + L).

Lemma xt_list_bound fuel : forall acc s,
  pcosts (xt_list_c fuel p (expression_next_c F) acc s)
    (fun r n => n + K * length r + 1 <= K * length s + weight r /\ length r <= length s /\ whitespace_plus_comments r = r) (K * length s + L).
Proof.
  induction fuel as [|fuel IH]; intros acc s; cbn [xt_list_c]; [exact I|].
  eapply pcosts_bind; [apply Hp|lia|]. cbv beta. intros a r Hx (H1 & Hlen & H2).
  pose proof (expression_next_costs r) as Hd. unfold costs in Hd. destruct (fst (expression_next_c F r)) as [r1|].
  - destruct Hd as (H3 & H4 & H5). specialize (IH (acc ++ [a]) r1). unfold pcosts in *. cbn [fst snd tick].
    destruct (fst (xt_list_c fuel p (expression_next_c F) (acc ++ [a]) r1)) as [[[l r']|]| |]; try exact I; [|lia].
    destruct IH as (? & ? & ?). split; [lia|]. split; [lia|assumption].
  - unfold pcosts. cbn [fst snd tick]. split; [lia|]. split; [lia|assumption].
Qed.
End List.

Lemma prod_rhs_bound fuel s : pcosts (prod_rhs_c alphabetic F fuel s)
  (fun r n => n + K * length r + 1 <= K * length s + weight r /\ length r <= length s /\ whitespace_plus_comments r = r) (K * length s + L).
Proof. apply xt_list_bound. intro r. apply many1_bound. intro r'. apply attempt_bound, parse_term_bound. Qed.
Lemma rhs_of_bound p fuel s : (forall r, term_bound r (p r)) -> pcosts (rhs_of_c F fuel p s)
  (fun r n => n + K * length r + 1 <= K * length s + weight r /\ length r <= length s /\ whitespace_plus_comments r = r) (K * length s + L).
Proof. intro H. apply xt_list_bound. intro r. apply many1_bound. intro r'. apply attempt_bound, H. Qed.

(** *** Groups *)
Lemma bracketed_bound a b inner s : (forall r, pcosts (inner r)
    (fun r' n => n + K * length r' + 1 <= K * length r + weight r' /\ length r' <= length r /\ whitespace_plus_comments r' = r') (K * length r + L)) ->
  inert b ->
  pcosts (bracketed_c a b inner s)
    (fun r n => n + K * length r + 16 <= K * length s /\ whitespace_plus_comments r = r /\ exists s', s = a :: s')
    (match s with c :: _ => if N.eqb c a then K * length s else 1 | [] => 1 end).
Proof.
  intros Hi Hb. unfold bracketed_c. destruct s as [|c s]; cbn [p_char option_map]; [cbn; lia|].
  destruct (N.eqb_spec c a) as [->|]; [|cbn; lia]. cbn [option_map pbind_c fst snd].
  apply pcosts_tick; [|cbn [length]; lia].
  eapply pcosts_bind; [apply Hi|cbn [length]; lia|]. cbv beta. intros es r Hx (H1 & Hlen & H2).
  destruct r as [|d r]; cbn [p_char option_map].
  { unfold pcosts. cbn [fst snd tick pbind_c length] in *. pose proof (weight_le []). cbn [length] in *. lia. }
  destruct (N.eqb_spec d b) as [->|].
  - rewrite weight_inert in H1 by assumption. unfold pcosts. cbn [option_map pbind_c fst snd tick ws_c length] in *.
    pose proof (ws_count r). pose proof (ws_length r). split; [lia|]. split; [apply ws_clean|eexists; reflexivity].
  - unfold pcosts. cbn [fst snd tick pbind_c length option_map] in *. pose proof (weight_le (d :: r)). cbn [length] in *. lia.
Qed.

Lemma read_term_bound fuel : forall s, term_bound s (read_term_c alphabetic F fuel s).
Proof.
  induction fuel as [|fuel IH]; intro s; [exact I|]. cbn [read_term_c].
  pose proof (terminal_costs s) as Ht. pose proof (nonterminal_costs s) as Hn. pose proof (weight_min s) as Hm.
  unfold costs in *. unfold term_bound, pcosts.
  destruct (fst (terminal_c s)) as [[t r]|].
  - cbn [fst snd] in *. destruct Ht as (H1 & H2 & H3 & H4). rewrite weight_quote by assumption. split; [lia|]. split; [assumption|]. lia.
  - cbn [fst snd tick]. rewrite erase_nonterminal in *. destruct (nonterminal alphabetic F s) as [[t r]|] eqn:En.
    + cbn [fst snd] in *. destruct Hn as (H1 & H2 & H3 & H4). rewrite name_start_no_quote in Ht by assumption.
      split; [lia|]. split; [assumption|]. intro Hs. eapply nonterminal_separator; eauto; lia.
    + cbn [fst snd tick].
      pose proof (bracketed_bound c_open c_close (rhs_of_c F fuel (read_term_c alphabetic F fuel)) s
                    (fun r => rhs_of_bound _ fuel r IH) ltac:(cbn; auto)) as Hg. unfold pcosts in Hg.
      pose proof (bracketed_bound c_lbrack c_rbrack (rhs_of_c F fuel (read_term_c alphabetic F fuel)) s
                    (fun r => rhs_of_bound _ fuel r IH) ltac:(cbn; auto 6)) as Ho. unfold pcosts in Ho.
      set (group := bracketed_c c_open c_close (rhs_of_c F fuel (read_term_c alphabetic F fuel)) s) in *.
      set (opt := bracketed_c c_lbrack c_rbrack (rhs_of_c F fuel (read_term_c alphabetic F fuel)) s) in *.
      destruct (fst group) as [[[es r]|]| |]; cbn [fst snd tick]; try exact I.
      * destruct Hg as (H1 & H2 & s' & ->). assert (name_start (c_open :: s') = false).
        { cbn [name_start]. destruct (alphabetic c_open) eqn:E; [|reflexivity]. destruct (not_alpha _ E) as (_ & _ & _ & E' & _). discriminate. }
        rewrite H in Hn. cbn [quote_start is_quote] in Ht. change (is_quote c_open) with false in Ht. cbv iota in Ht.
        rewrite weight_bracket by auto. split; [lia|]. split; [assumption|]. lia.
      * unfold pbind_c. destruct (fst opt) as [[[es r]|]| |]; cbn [fst snd tick]; try exact I.
        -- destruct Ho as (H1 & H2 & s' & ->). assert (name_start (c_lbrack :: s') = false).
           { cbn [name_start]. destruct (alphabetic c_lbrack) eqn:E; [|reflexivity]. destruct (not_alpha _ E) as (_ & _ & _ & _ & _ & E' & _). discriminate. }
           rewrite H in Hn. change (quote_start (c_lbrack :: s')) with false in Ht. change (N.eqb c_lbrack c_open) with false in Hg. cbv iota in Ht, Hg, Hn.
           rewrite weight_bracket by auto. split; [lia|]. split; [assumption|]. lia.
        -- assert (Hstart : starter s = true -> weight s = K * length s + L).
           { intro E. unfold weight. replace (read_prod_lhs alphabetic F s) with (@None (str * str)); [rewrite E; reflexivity|].
             unfold read_prod_lhs, nonterminal in *. destruct (name alphabetic F s) as [[? ?]|]; [discriminate|reflexivity]. }
           unfold starter in Hstart. unfold quote_start in Ht. destruct s as [|c s]; [cbn [name_start] in Hn; lia|].
           cbv beta iota in *.
           assert (Ex : N.eqb c c_open = true -> N.eqb c c_lbrack = false /\ is_quote c = false).
           { intro E. apply N.eqb_eq in E. subst c. split; reflexivity. }
           assert (Ex' : N.eqb c c_lbrack = true -> is_quote c = false).
           { intro E. apply N.eqb_eq in E. subst c. reflexivity. }
           assert (Ex2 : name_start (c :: s) = true -> N.eqb c c_open = false /\ N.eqb c c_lbrack = false /\ is_quote c = false).
           { intro E. cbn [name_start] in E. apply orb_prop in E as [E|E].
             - apply N.eqb_eq in E. subst c. repeat split.
             - destruct (not_alpha _ E) as (_ & E1 & E2 & E3 & _ & E4 & _). unfold is_quote. rewrite E1, E2, E3, E4. repeat split. }
           destruct (name_start (c :: s)), (is_quote c), (N.eqb c c_open), (N.eqb c c_lbrack); cbn [orb] in Hstart;
             try (destruct (Ex eq_refl); discriminate); try (destruct (Ex2 eq_refl) as (? & ? & ?); discriminate); try (discriminate (Ex' eq_refl));
             try (rewrite (Hstart eq_refl)); cbn [length] in *; lia.
Qed.

(** *** Productions and grammars *)

(** From the left-hand side to the end of the production. *)
Definition production_bound {A} (s : str) (x : counted (pres A)) : Prop :=
  match fst x with
  | Ok (Some (_, r)) => exists s', read_prod_lhs alphabetic F s = Some s' /\ 2 + length (snd s') <= length s /\
      length r <= length (snd s') /\
      snd x + K * length r <= weight s + K * length (snd s') + 2 * weight r /\ whitespace_plus_comments r = r
  | Ok None => match read_prod_lhs alphabetic F s with
               | Some s' => 2 + length (snd s') <= length s /\ snd x <= weight s + 2 * K * length (snd s') + 2 * L
               | None => snd x <= weight s
               end
  | _ => True
  end.

Lemma parse_production_bound fuel s : production_bound s (parse_production_c alphabetic F fuel s).
Proof.
  unfold production_bound, parse_production_c, pbind_c, ok_c. cbn [fst snd].
  pose proof (prod_lhs_costs s) as Hl. unfold costs in Hl. pose proof (lhs_weight s) as Hw. rewrite <- prod_lhs_count in Hw.
  rewrite erase_prod_lhs, prod_lhs_same in *. destruct (read_prod_lhs alphabetic F s) as [[n s1]|]; cbn [option_map fst snd tick] in *; [|lia].
  pose proof (prod_rhs_bound fuel s1) as Hr. unfold pcosts in Hr.
  destruct (fst (prod_rhs_c alphabetic F fuel s1)) as [[[es r]|]| |]; cbn [fst snd tick]; try exact I; [|lia].
  destruct Hr as (H1 & Hlen & H2). destruct Hl as [H3 H4]. pose proof (weight_le r) as H5. pose proof (weight_min r) as H6.
  assert (He : snd (production_end_c alphabetic F r) <= weight r + 1).
  { unfold production_end_c. destruct r as [|c r]; [cbn [snd]; lia|]. destruct (f_start F).
    - cbn [snd ws_c]. pose proof (clean_count (c :: r) H2). lia.
    - cbn [snd]. rewrite prod_lhs_count. pose proof (lhs_weight (c :: r)). lia. }
  destruct (fst (production_end_c alphabetic F r)); cbn [fst snd tick].
  - eexists. split; [reflexivity|]. cbn [snd]. repeat (split; [lia|]). assumption.
  - split; lia.
Qed.
Lemma read_production_bound fuel s : production_bound s (read_production_c alphabetic F fuel s).
Proof.
  unfold production_bound, read_production_c, pbind_c, ok_c. cbn [fst snd].
  pose proof (read_prod_lhs_costs s) as Hl. unfold costs in Hl. pose proof (lhs_weight s) as Hw.
  rewrite erase_read_prod_lhs in *. destruct (read_prod_lhs alphabetic F s) as [[n s1]|]; cbn [fst snd tick] in *; [|lia].
  pose proof (rhs_of_bound _ fuel s1 (read_term_bound fuel)) as Hr. unfold pcosts in Hr.
  destruct (fst (rhs_of_c F fuel (read_term_c alphabetic F fuel) s1)) as [[[es r]|]| |]; cbn [fst snd tick]; try exact I; [|lia].
  destruct Hr as (H1 & Hlen & H2). destruct Hl as [H3 H4]. pose proof (weight_le r) as H5. pose proof (weight_min r) as H6.
  pose proof (lhs_weight r) as H7. destruct r as [|c r].
  - cbn [fst snd tick]. eexists. split; [reflexivity|]. cbn [snd]. repeat (split; [lia|]). assumption.
  - cbn [fst snd tick]. rewrite erase_read_prod_lhs. destruct (read_prod_lhs alphabetic F (c :: r)) as [y|]; cbn [fst snd].
    + eexists. split; [reflexivity|]. cbn [snd]. repeat (split; [lia|]). assumption.
    + split; lia.
Qed.

Lemma weight_lhs s s' : read_prod_lhs alphabetic F s = Some s' -> weight s = K * (length s - length (snd s')) + L.
Proof. intro H. unfold weight. rewrite H. destruct s'. reflexivity. Qed.

Section Productions.
Context {A : Type}.
Variable p : str -> counted (pres A).
Hypothesis Hp : forall s, production_bound s (p s).
Let q s := tick (snd (ws_c s)) (p (fst (ws_c s))).

Lemma q_clean s : whitespace_plus_comments s = s -> fst (q s) = fst (p s) /\ snd (q s) <= 3 + snd (p s).
Proof. intro Hs. unfold q. cbn [fst snd tick ws_c]. rewrite Hs. pose proof (clean_count s Hs). split; [reflexivity|lia]. Qed.

Lemma productions_loop fuel : forall acc s, whitespace_plus_comments s = s ->
  match fst (many1_loop_c fuel q acc s) with
  | Ok _ => snd (many1_loop_c fuel q acc s) + 2 * weight s <= 4 * K * length s + 43
  | _ => True
  end.
Proof.
  induction fuel as [|fuel IH]; intros acc s Hs; cbn [many1_loop_c]; [exact I|].
  destruct (q_clean s Hs) as [Hf Hc]. pose proof (Hp s) as H. unfold production_bound in H. rewrite <- Hf in H.
  pose proof (weight_le s) as Hw.
  destruct (fst (q s)) as [[[a r]|]| |]; cbn [fst snd]; try exact I.
  - destruct H as (s' & H1 & H2 & H3 & H4 & H5). pose proof (weight_lhs _ _ H1). pose proof (weight_le r).
    destruct (byte_len r =? byte_len s); cbn [fst snd tick]; [lia|].
    specialize (IH (acc ++ [a]) r H5). destruct (fst (many1_loop_c fuel q (acc ++ [a]) r)); try exact I. lia.
  - destruct (read_prod_lhs alphabetic F s) as [s'|] eqn:E; [|lia]. destruct H. pose proof (weight_lhs _ _ E). lia.
Qed.
Lemma productions_many1 fuel s : whitespace_plus_comments s = s ->
  match fst (many1_c fuel q s) with
  | Ok _ => snd (many1_c fuel q s) + 2 * weight s <= 4 * K * length s + 43
  | _ => True
  end.
Proof.
  intro Hs. unfold many1_c, pbind_c.
  destruct (q_clean s Hs) as [Hf Hc]. pose proof (Hp s) as H. unfold production_bound in H. rewrite <- Hf in H.
  pose proof (weight_le s) as Hw.
  destruct (fst (q s)) as [[[a r]|]| |]; cbn [fst snd tick]; try exact I.
  - destruct H as (s' & H1 & H2 & H3 & H4 & H5). pose proof (weight_lhs _ _ H1). pose proof (weight_le r).
    pose proof (productions_loop fuel [a] r H5) as IH. destruct (fst (many1_loop_c fuel q [a] r)); try exact I. lia.
  - destruct (read_prod_lhs alphabetic F s) as [s'|] eqn:E; [|lia]. destruct H. pose proof (weight_lhs _ _ E). lia.
Qed.
End Productions.

Lemma read_grammar_bound fuel s :
  match fst (read_grammar_c alphabetic F fuel s) with
  | Ok _ => snd (read_grammar_c alphabetic F fuel s) <= 4 * K * length s + 46
  | _ => True
  end.
Proof.
  unfold read_grammar_c. cbn [fst snd tick ws_c]. pose proof (ws_count s). pose proof (ws_length s).
  pose proof (productions_many1 _ (read_production_bound fuel) fuel (whitespace_plus_comments s) (ws_clean s)) as H1.
  cbn [fst snd tick ws_c] in H1. destruct (fst (many1_c fuel _ _)); try exact I. lia.
Qed.
Lemma plain_grammar_bound fuel s :
  match fst (plain_grammar_c alphabetic F fuel s) with
  | Ok _ => snd (plain_grammar_c alphabetic F fuel s) <= 4 * K * length s + 54
  | _ => True
  end.
Proof.
  unfold plain_grammar_c. cbn [fst snd tick ws_c]. pose proof (ws_count s) as Ha. pose proof (ws_length s) as Hb.
  set (s0 := whitespace_plus_comments s) in *. unfold pbind_c.
  pose proof (parse_production_bound fuel s0) as H1. unfold production_bound in H1. pose proof (weight_le s0) as Hc.
  destruct (fst (parse_production_c alphabetic F fuel s0)) as [[[a r]|]| |]; cbn [fst snd tick]; try exact I.
  - destruct H1 as (s' & H1 & H2 & H3 & H4 & H5). pose proof (weight_lhs _ _ H1).
    pose proof (productions_many1 _ (parse_production_bound fuel) fuel r H5) as H7. cbn [ws_c fst snd] in H7.
    destruct (fst (many1_c fuel _ r)) as [[[l r']|]| |]; cbn [fst snd tick]; try exact I; lia.
  - destruct (read_prod_lhs alphabetic F s0) as [s'|] eqn:E; [|lia]. destruct H1. pose proof (weight_lhs _ _ E). lia.
Qed.

Lemma parse_production_count fuel s :
  match fst (parse_production_c alphabetic F fuel s) with
  | Ok _ => snd (parse_production_c alphabetic F fuel s) <= 2 * K * length s + 24
  | _ => True
  end.
Proof.
  pose proof (parse_production_bound fuel s) as H. unfold production_bound in H. pose proof (weight_le s) as Hc.
  destruct (fst (parse_production_c alphabetic F fuel s)) as [[[a r]|]| |]; try exact I.
  - destruct H as (s' & H1 & H2 & H3 & H4 & H5). pose proof (weight_lhs _ _ H1). pose proof (weight_le r). lia.
  - destruct (read_prod_lhs alphabetic F s) as [s'|] eqn:E; [|lia]. destruct H. pose proof (weight_lhs _ _ E). lia.
Qed.
Lemma parse_expression_count fuel s :
  match fst (parse_expression_c alphabetic F fuel s) with
  | Ok _ => snd (parse_expression_c alphabetic F fuel s) <= K * length s + L
  | _ => True
  end.
Proof.
  assert (H : pcosts (parse_expression_c alphabetic F fuel s)
    (fun r n => n + K * length r + 2 <= K * length s + weight r /\ length r <= length s /\ whitespace_plus_comments r = r) (K * length s + L)).
  { apply many1_bound. intro r. apply attempt_bound, parse_term_bound. }
  unfold pcosts in H. destruct (fst (parse_expression_c alphabetic F fuel s)) as [[[a r]|]| |]; try exact I; [|lia].
  destruct H as (H1 & H2 & H3). pose proof (weight_le r). lia.
Qed.
Lemma parse_term_count s : snd (parse_term_c alphabetic F s) <= K * length s + L.
Proof.
  pose proof (parse_term_bound s) as H. unfold term_bound, pcosts, ok_c in H. cbn [fst snd] in H. pose proof (weight_le s) as Hc.
  destruct (fst (parse_term_c alphabetic F s)) as [[t r]|]; lia.
Qed.

(** *** Entry points *)
Lemma grammar_complete_count s : exists o, fst (grammar_complete_c alphabetic F s) = Ok o /\
  snd (grammar_complete_c alphabetic F s) <= 131 * length s + 102.
Proof.
  unfold grammar_complete_c, extended_count. cbn [fst snd tick].
  pose proof (read_grammar_bound (fuel_for s) s) as H1. pose proof (plain_grammar_bound (fuel_for s) s) as H2.
  pose proof (parsed_grammar_complete_total alphabetic F s) as [o1 E1]. unfold parsed_grammar_complete in E1.
  pose proof (plain_grammar_total alphabetic F s) as [o2 E2]. rewrite <- erase_read_grammar in E1. rewrite <- erase_plain_grammar in E2.
  assert (Hx : snd (read_grammar_c alphabetic F (fuel_for s) s) <= 4 * K * length s + 46).
  { destruct (fst (read_grammar_c alphabetic F (fuel_for s) s)); [exact H1| |]; discriminate. }
  assert (Hy : snd (plain_grammar_c alphabetic F (fuel_for s) s) <= 4 * K * length s + 54).
  { destruct (fst (plain_grammar_c alphabetic F (fuel_for s) s)); [exact H2| |]; discriminate. }
  rewrite E1, E2. destruct (grammar_has_extended_syntax s); cbn [fst snd tick].
  - destruct o1; eexists; (split; [reflexivity|lia]).
  - destruct o2; cbn [fst snd tick]; [eexists; split; [reflexivity|lia]|]. destruct o1; eexists; (split; [reflexivity|lia]).
Qed.
End Bounds.

Section Main.
Variable alphabetic : char -> bool.
Hypothesis Halpha : alphabetic_ok alphabetic.

Lemma grammar_from_str_count s : exists o, fst (grammar_from_str_c alphabetic s) = Ok o /\
  snd (grammar_from_str_c alphabetic s) <= 134 * length s + 106.
Proof.
  unfold grammar_from_str_c. cbn [fst snd tick ws_c]. pose proof (ws_count s).
  destruct (is_format_standard_bnf s).
  - destruct (grammar_complete_count alphabetic Halpha Bnf s) as (o & H1 & H2). cbn [format_of] in *. exists o. split; [assumption|lia].
  - destruct (grammar_complete_count alphabetic Halpha Abnf s) as (o & H1 & H2). cbn [format_of] in *. exists o. split; [assumption|lia].
Qed.
Lemma term_from_str_count s : snd (term_from_str_c alphabetic s) <= 16 * length s + 9.
Proof. unfold term_from_str_c, ok_c. cbn [fst snd]. pose proof (parse_term_count alphabetic Halpha Bnf s). cbn [format_of] in *. lia. Qed.
Lemma expression_from_str_count s : snd (expression_from_str_c alphabetic s) <= 16 * length s + 9.
Proof.
  unfold expression_from_str_c. cbn [fst snd]. pose proof (parse_expression_count alphabetic Halpha Bnf (fuel_for s) s) as H. cbn [format_of] in *.
  destruct (expression_from_str_total alphabetic s) as [o E]. rewrite <- erase_parse_expression in E.
  destruct (fst (parse_expression_c alphabetic BNF (fuel_for s) s)); [lia| |]; discriminate.
Qed.
Lemma production_from_str_count s : snd (production_from_str_c alphabetic s) <= 32 * length s + 25.
Proof.
  unfold production_from_str_c. cbn [fst snd]. pose proof (parse_production_count alphabetic Halpha Bnf (fuel_for s) s) as H. cbn [format_of] in *.
  destruct (production_from_str_total alphabetic s) as [o E]. rewrite <- erase_parse_production in E.
  destruct (fst (parse_production_c alphabetic BNF (fuel_for s) s)); [lia| |]; discriminate.
Qed.
End Main.
