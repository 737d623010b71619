(** Proofs about the cost of building a tree. *)
From Verif Require Export TreeCost EarleyTree EarleyMain EarleyBounds.

(** ** Counting changes nothing *)

Lemma root_counted_same fuel tr : forall c r n, root_counted fuel tr c = Ok (r, n) -> match_iter_root fuel tr c = Ok r.
Proof.
  induction fuel as [|fuel IH]; intros c r n H; cbn [root_counted match_iter_root] in *; [discriminate|].
  destruct (tt_get tr c) as [t| |]; cbn [rbind] in *; try discriminate. destruct (t_from t) as [e|]; [|congruence].
  destruct (root_counted fuel tr (snd e)) as [[r' n']| |] eqn:E; cbn [rbind] in H; try discriminate. injection H as <- _. exact (IH _ _ _ E).
Qed.
Lemma scan_counted_same fuel tr c : forall s r n, scan_counted fuel tr c s = Ok (r, n) -> match_iter_scan fuel tr c s = Ok r.
Proof.
  induction fuel as [|fuel IH]; intros s r n H; cbn [scan_counted match_iter_scan] in *; [discriminate|].
  destruct (tt_get tr s) as [t| |]; cbn [rbind] in *; try discriminate. destruct (t_from t) as [e|]; [|congruence]. destruct (c =? snd e); [congruence|].
  destruct (scan_counted fuel tr c (snd e)) as [[r' n']| |] eqn:E; cbn [rbind] in H; try discriminate. injection H as <- _. exact (IH _ _ _ E).
Qed.
Lemma all_counted_same walk tr last fuel : forall c ms n, all_counted fuel walk tr c last = Ok (ms, n) -> match_iter_all fuel walk tr c last = Ok ms.
Proof.
  induction fuel as [|fuel IH]; intros c ms n H; cbn [all_counted match_iter_all] in *; [discriminate|].
  unfold next_counted, match_iter_next in *. destruct (c =? last); cbn [rbind] in *; [congruence|].
  destruct (scan_counted walk tr c last) as [[o k]| |] eqn:E; cbn [rbind] in H; try discriminate. rewrite (scan_counted_same _ _ _ _ _ _ E). cbn [rbind].
  destruct o as [[c' m]|]; [|congruence].
  destruct (all_counted fuel walk tr c' last) as [[r' n']| |] eqn:E'; cbn [rbind] in H; try discriminate. injection H as <- _. rewrite (IH _ _ _ E'). reflexivity.
Qed.
Lemma matched_counted_same tr id ms n : matched_counted tr id = Ok (ms, n) -> get_matched tr id = Ok ms.
Proof.
  unfold matched_counted, get_matched. intro H. cbv zeta in *.
  destruct (root_counted (S (length (tt_arena tr))) tr id) as [[r k]| |] eqn:E; cbn [rbind] in H; try discriminate. rewrite (root_counted_same _ _ _ _ _ E). cbn [rbind].
  destruct (all_counted (S (length (tt_arena tr))) (S (length (tt_arena tr))) tr r id) as [[ms' k']| |] eqn:E'; cbn [rbind] in H; try discriminate.
  injection H as <- _. exact (all_counted_same _ _ _ _ _ _ _ E').
Qed.
Lemma map_counted_same {A B} (f : A -> res (B * nat)) (f' : A -> res B) l : (forall x y n, f x = Ok (y, n) -> f' x = Ok y) ->
  forall ys n, map_counted f l = Ok (ys, n) -> res_map f' l = Ok ys.
Proof.
  intro Hf. induction l as [|x l IH]; intros ys n H; cbn [map_counted res_map] in *; [congruence|].
  destruct (f x) as [[y k]| |] eqn:E; cbn [rbind] in H; try discriminate. rewrite (Hf _ _ _ E). cbn [rbind].
  destruct (map_counted f l) as [[r k']| |] eqn:E'; cbn [rbind] in H; try discriminate. injection H as <- _. rewrite (IH _ _ eq_refl). reflexivity.
Qed.
Lemma tree_counted_same tr pg fuel : forall id t n, tree_counted fuel tr pg id = Ok (t, n) -> parse_tree fuel tr pg id = Ok t.
Proof.
  induction fuel as [|fuel IH]; intros id t n H; cbn [tree_counted parse_tree] in *; [discriminate|].
  destruct (tt_get tr id) as [tv| |]; cbn [rbind] in *; try discriminate. destruct (get_production_by_id pg (t_pid tv)) as [pr| |]; cbn [rbind] in *; try discriminate.
  destruct (matched_counted tr id) as [[ms k]| |] eqn:E; cbn [rbind] in H; try discriminate. rewrite (matched_counted_same _ _ _ _ E). cbn [rbind].
  match type of H with rbind ?x _ = _ => destruct x as [[rhs k']| |] eqn:E' end; cbn [rbind] in H; try discriminate. injection H as <- _.
  erewrite map_counted_same; [reflexivity| |exact E']. intros [s|i] y m Hy; cbn in *; [congruence|].
  destruct (tree_counted fuel tr pg i) as [[st q]| |] eqn:Et; cbn [rbind] in Hy; try discriminate. injection Hy as <- _. rewrite (IH _ _ _ Et). reflexivity.
Qed.
Lemma next_tree_counted_same fuel it o it' n : next_tree_counted fuel it = Ok (o, it', n) -> iter_next fuel it = Ok (o, it').
Proof.
  unfold next_tree_counted, iter_next. intro H. destruct (earley fuel (gp_pg (it_parser it)) (it_state it)) as [[f st]| |]; cbn [rbind] in *; try discriminate.
  destruct f as [id|]; [|congruence]. match type of H with rbind ?x _ = _ => destruct x as [[t k]| |] eqn:E end; cbn [rbind] in H; try discriminate.
  injection H as <- <- _. rewrite (tree_counted_same _ _ _ _ _ _ E). reflexivity.
Qed.

(** ** The count *)

Lemma list_sum_seq_S n : list_sum (seq 1 (S n)) = S n + list_sum (seq 1 n).
Proof. rewrite seq_S, list_sum_app. cbn. lia. Qed.

Lemma F2len {A B} (R : A -> B -> Prop) l l' : Forall2 R l l' -> length l = length l'.
Proof. induction 1; cbn; congruence. Qed.

Section Count.
  Variable pg : parse_grammar.
  Variable input : str.
  Variable start : term.
  Notation TInv := (TInv pg input start).

  Lemma root_counted_ok tr r id l fuel : path tr r id l -> id < fuel -> root_counted fuel tr id = Ok (r, S (length l)).
  Proof.
    intro H. revert fuel. induction H as [id t Ht Hf|r par id m' t l Ht Hf Hlt Hp IH]; intros [|fuel] Hfu; try lia;
      cbn [root_counted]; unfold tt_get; rewrite Ht; cbn [expect rbind]; rewrite Hf; [reflexivity|]. cbn [snd].
    rewrite (IH fuel) by lia. cbn [rbind]. rewrite app_length. cbn [length]. rewrite Nat.add_1_r. reflexivity.
  Qed.

  Lemma scan_counted_ok tr r id l1 x m l2 fuel : path tr r id (l1 ++ (x, m) :: l2) -> id < fuel ->
    scan_counted fuel tr (last (map fst l1) r) id = Ok (Some (x, m), S (length l2)).
  Proof.
    remember (l1 ++ (x, m) :: l2) as l eqn:E. intro H. revert l1 l2 E fuel.
    induction H as [id t Ht Hf|r par id m' t l Ht Hf Hlt Hp IH]; intros l1 l2 E [|fuel] Hfu; try lia.
    - destruct l1; discriminate.
    - cbn [scan_counted]. unfold tt_get. rewrite Ht. cbn [expect rbind]. rewrite Hf. cbn [snd fst].
      apply snoc_split in E. destruct E as [(-> & -> & E)|(l2' & -> & ->)].
      + injection E as -> ->. rewrite (path_last _ _ _ _ Hp), Nat.eqb_refl. reflexivity.
      + pose proof (path_lt _ _ _ _ _ _ _ Hp) as Hlt'.
        destruct (Nat.eqb_spec (last (map fst l1) r) par); [lia|]. rewrite (IH l1 l2' eq_refl) by lia. cbn [rbind].
        rewrite app_length. cbn [length]. rewrite Nat.add_1_r. reflexivity.
  Qed.

  Lemma all_counted_ok tr r id walk : id < walk -> forall l2 l1 fuel, path tr r id (l1 ++ l2) -> length l2 < fuel ->
    all_counted fuel walk tr (last (map fst l1) r) id = Ok (map snd l2, list_sum (seq 1 (length l2))).
  Proof.
    intros Hw. induction l2 as [|[x m] l2 IH]; intros l1 [|fuel] Hp Hf; try (cbn in Hf; lia); cbn [all_counted].
    - unfold next_counted. rewrite app_nil_r in Hp. rewrite <- (path_last _ _ _ _ Hp), Nat.eqb_refl. reflexivity.
    - unfold next_counted. pose proof (path_lt _ _ _ _ _ _ _ Hp) as Hlt. destruct (Nat.eqb_spec (last (map fst l1) r) id); [lia|].
      rewrite (scan_counted_ok _ _ _ _ _ _ _ _ Hp Hw). cbn [rbind].
      replace x with (last (map fst (l1 ++ [(x, m)])) r) by (rewrite map_app; cbn [map fst]; apply last_last).
      rewrite IH; [|rewrite <- app_assoc; exact Hp|cbn in Hf; lia]. cbn [rbind length map]. rewrite list_sum_seq_S. reflexivity.
  Qed.

  Lemma matched_counted_ok tr gh id it : TInv tr gh -> nth_error gh id = Some it ->
    exists ms, matched_counted tr id = Ok (ms, S (length (i_kids it)) + list_sum (seq 1 (length (i_kids it)))) /\ Forall2 (kid_of gh id) ms (i_kids it).
  Proof.
    intros HI Hit. destruct (path_exists pg input start tr gh HI id it Hit) as (r & l & Hp & HF). exists (map snd l). split; [|assumption].
    unfold matched_counted. cbv zeta. pose proof (ti_len _ _ _ _ _ HI) as Hlen. apply nth_error_lt in Hit.
    assert (Hk : length l = length (i_kids it)) by (rewrite <- (map_length snd l); exact (F2len _ _ _ HF)). rewrite <- Hk.
    rewrite (root_counted_ok _ _ _ _ _ Hp) by lia. cbn [rbind].
    rewrite (all_counted_ok tr r id (S (length (tt_arena tr))) ltac:(lia) l [] _ Hp); [reflexivity|]. apply path_length in Hp. lia.
  Qed.

  Lemma tree_counted_ok tr gh : TInv tr gh -> forall fuel id it, id < fuel ->
    nth_error gh id = Some it -> tree_counted fuel tr pg id = Ok (erase pg (i_tree it), lookups (erase pg (i_tree it))).
  Proof.
    intro HI. induction fuel as [|fuel IH]; intros id it Hlt Hit; [lia|]. cbn [tree_counted].
    destruct (TInv_arena _ _ _ _ _ _ _ HI Hit) as (t & Et & Rt). unfold tt_get. rewrite Et. cbn [expect rbind].
    destruct (tr_view _ _ _ _ _ _ _ Rt) as (lhs & (pre & Hv & _) & _).
    unfold get_production_by_id. rewrite (tr_pid _ _ _ _ _ _ _ Rt), Hv. cbn [expect rbind].
    destruct (matched_counted_ok _ _ _ _ HI Hit) as (ms & -> & HF). cbn [rbind].
    match goal with |- rbind (map_counted ?f ms) _ = _ =>
      assert (Hm : map_counted f ms = Ok (map (erase_node pg) (i_kids it), list_sum (map node_lookups (map (erase_node pg) (i_kids it))))) end.
    { clear Hv Hit Rt Et. induction HF as [|m k ms ks Hmk HF IHF]; cbn [map_counted]; [reflexivity|].
      destruct m as [s|c]; cbn in Hmk.
      - subst k. cbn [rbind]. rewrite IHF. reflexivity.
      - destruct Hmk as [Hc (cit & Hcit & ->)]. rewrite (IH c cit) by (assumption || lia). cbn [rbind]. rewrite IHF. reflexivity. }
    rewrite Hm. cbn [rbind]. unfold i_tree. cbn [fst].
    replace (erase pg (Node (i_pid it) (i_kids it))) with (Node lhs (map (erase_node pg) (i_kids it))) by (cbn [erase]; unfold lhs_of; rewrite Hv; reflexivity).
    f_equal. f_equal. change (lookups (Node lhs (map (erase_node pg) (i_kids it)))) with
      (2 + length (map (erase_node pg) (i_kids it)) + list_sum (seq 1 (length (map (erase_node pg) (i_kids it)))) + list_sum (map node_lookups (map (erase_node pg) (i_kids it)))).
    rewrite map_length. lia.
  Qed.
End Count.

Lemma earley_found_inv pg (Hpg : pg_ok pg) input start fuel st gh d id st' : Inv pg input start st gh d -> earley fuel pg st = Ok (Some id, st') ->
  exists gh' d', Inv pg input start st' gh' d' /\ id < length gh'.
Proof.
  intros HI E. destruct (earley_spec pg Hpg input start fuel st gh d HI)
    as [(E' & H)|[(st1 & new & E' & H)|(st1 & new & id1 & it & E' & H1 & H2 & H3 & H4)]]; rewrite E' in E; try discriminate.
  injection E as <- <-. exists (gh ++ new), (S id1). split; [exact H1|]. eapply nth_error_lt. exact H3.
Qed.

Lemma cost_proof g start input it ts it1 fuel o it2 : opens g start input it -> produces it ts it1 ->
  iter_next fuel it1 = Ok (o, it2) -> next_tree_counted fuel it1 = Ok (o, it2, match o with Some t => lookups t | None => 0 end).
Proof.
  intros Ho Hp Hn. destruct (run_summary _ _ _ _ _ _ Ho Hp) as (st0 & gh' & d' & ids & Hpar & HI' & _).
  pose proof (proj1 (pg_new_unchecked_ok g)) as Hpg.
  unfold iter_next, next_tree_counted in *. rewrite Hpar in *. cbn [gp_pg] in *.
  destruct (earley fuel (pg_new_unchecked g) (it_state it1)) as [[[id|] st1]| |] eqn:Ee; cbn [rbind] in *; try discriminate; [|injection Hn as <- <-; reflexivity].
  destruct (earley_found_inv _ Hpg _ _ _ _ _ _ _ _ HI' Ee) as (gh2 & d2 & HI2 & Hlt).
  destruct (nth_error gh2 id) as [x|] eqn:Ex; [|apply nth_error_None in Ex; lia].
  pose proof (inv_t _ _ _ _ _ _ HI2) as HT. assert (Hf : id < S (length (tt_arena (s_tree st1)))) by (rewrite (ti_len _ _ _ _ _ HT); lia).
  rewrite (tree_counted_ok _ _ _ _ _ HT _ _ _ Hf Ex). rewrite (parse_tree_ok _ _ _ _ _ HT _ _ _ Hf Ex) in Hn. cbn [rbind] in *. injection Hn as <- <-. reflexivity.
Qed.

(** ** Bounds *)

Lemma list_sum_seq n : 2 * list_sum (seq 1 n) = n * (n + 1).
Proof. induction n as [|n IH]; [reflexivity|]. rewrite list_sum_seq_S. lia. Qed.

Lemma nodes_Node {L} (l : L) ks : nodes (Node l ks) = S (list_sum (map node_nodes ks)).
Proof. reflexivity. Qed.

Lemma lookups_le {L} (t : tree L) : forall b, width t <= b -> 2 * lookups t <= (b * b + 3 * b + 4) * nodes t.
Proof.
  induction t as [l ks IH] using tree_ind'. intros b Hb. rewrite nodes_Node.
  change (lookups (Node l ks)) with (2 + length ks + list_sum (seq 1 (length ks)) + list_sum (map node_lookups ks)).
  change (width (Node l ks)) with (Nat.max (length ks) (list_max (map node_width ks))) in Hb.
  assert (Hks : 2 * list_sum (map node_lookups ks) <= (b * b + 3 * b + 4) * list_sum (map node_nodes ks)).
  { assert (Hw : list_max (map node_width ks) <= b) by lia. clear Hb. revert IH Hw. induction ks as [|k ks IHk]; intros IH Hw; [cbn; lia|].
    cbn [map] in *. change (list_max (node_width k :: map node_width ks)) with (Nat.max (node_width k) (list_max (map node_width ks))) in Hw.
    change (list_sum (node_lookups k :: map node_lookups ks)) with (node_lookups k + list_sum (map node_lookups ks)).
    change (list_sum (node_nodes k :: map node_nodes ks)) with (node_nodes k + list_sum (map node_nodes ks)).
    assert (H1 : 2 * list_sum (map node_lookups ks) <= (b * b + 3 * b + 4) * list_sum (map node_nodes ks)) by (apply IHk; [intros t Ht; apply IH; right; exact Ht|lia]).
    assert (H2 : 2 * node_lookups k <= (b * b + 3 * b + 4) * node_nodes k).
    { destruct k as [s|t]; [cbn; lia|]. apply (IH t (or_introl eq_refl) b). cbn [node_width] in Hw. lia. }
    rewrite Nat.mul_add_distr_l. lia. }
  pose proof (list_sum_seq (length ks)) as Hs. assert (Hn : length ks <= b) by lia.
  assert (length ks * (length ks + 1) <= b * (b + 1)) by (apply Nat.mul_le_mono; lia). lia.
Qed.

Lemma width_le g b : (forall p e, In p g -> In e (p_rhs p) -> length e <= b) -> forall t, derives g t -> width t <= b.
Proof.
  intro Hb. induction t as [l ks IH] using tree_ind'. intro Hd. inversion Hd as [p rhs kids Hp Hr Hk E]; subst.
  change (width (Node (p_lhs p) ks)) with (Nat.max (length ks) (list_max (map node_width ks))). apply Nat.max_lub.
  - specialize (Hb _ _ Hp Hr). assert (length ks = length rhs); [|lia]. clear - Hk. induction Hk; cbn; congruence.
  - apply list_max_le. rewrite Forall_map. apply Forall_forall. intros [s|t] Ht; [cbn; lia|]. apply IH; [exact Ht|].
    clear - Hk Ht. induction Hk as [|s r ks Hk IHk|n t' r ks Hroot Hd Hk IHk]; [destruct Ht| |];
    destruct Ht as [E|Ht]; try discriminate; auto. injection E as <-. exact Hd.
Qed.
Lemma bound_proof g b t : (forall p e, In p g -> In e (p_rhs p) -> length e <= b) -> derives g t ->
  2 * lookups t <= (b * b + 3 * b + 4) * nodes t.
Proof. intros Hb Hd. apply lookups_le. exact (width_le g b Hb t Hd). Qed.

(** ** The doubling grammar *)

Fixpoint doubled (n : nat) : ptree :=
  match n with
  | 0 => Node (Nonterminal (doubling_name 0)) [Leaf []]
  | S m => Node (Nonterminal (doubling_name n)) [Sub (doubled m); Sub (doubled m)]
  end.

Lemma doubling_name_inj a b : Nonterminal (doubling_name a) = Nonterminal (doubling_name b) -> a = b.
Proof. intro H. assert (E : doubling_name a = doubling_name b) by congruence. clear H. rename E into H. apply (f_equal (@length _)) in H. unfold doubling_name in H. rewrite !repeat_length in H. congruence. Qed.

Definition doubling_alt (k : nat) : expression :=
  match k with 0 => [Terminal []] | S m => [Nonterminal (doubling_name m); Nonterminal (doubling_name m)] end.
Lemma doubling_In n p : In p (doubling n) <-> exists k, k <= n /\ p = mkProd (Nonterminal (doubling_name k)) [doubling_alt k].
Proof.
  induction n as [|n IH]; cbn [doubling In].
  - split.
    + intros [<-|[]]. exists 0. split; [lia|reflexivity].
    + intros (k & Hk & ->). assert (k = 0) as -> by lia. left. reflexivity.
  - rewrite IH. split.
    + intros [<-|(k & Hk & ->)]; [exists (S n); split; [lia|reflexivity]|exists k; split; [lia|reflexivity]].
    + intros (k & Hk & ->). destruct (Nat.eq_dec k (S n)) as [->|Hne]; [left; reflexivity|right; exists k; split; [lia|reflexivity]].
Qed.

Lemma doubled_root k : root (doubled k) = Nonterminal (doubling_name k).
Proof. destruct k; reflexivity. Qed.
Lemma doubled_yield k : yield (doubled k) = [].
Proof. induction k as [|k IH]; [reflexivity|]. cbn [doubled yield flat_map yield_node]. rewrite IH. reflexivity. Qed.
Lemma doubled_derives n k : k <= n -> derives (doubling n) (doubled k).
Proof.
  induction k as [|k IH]; intro Hk.
  - apply (derives_node _ (mkProd (Nonterminal (doubling_name 0)) [doubling_alt 0]) (doubling_alt 0)); [apply doubling_In; eauto|left; reflexivity|].
    apply km_term. apply km_nil.
  - apply (derives_node _ (mkProd (Nonterminal (doubling_name (S k))) [doubling_alt (S k)]) (doubling_alt (S k))); [apply doubling_In; eauto|left; reflexivity|].
    apply km_nt; [apply doubled_root|apply IH; lia|]. apply km_nt; [apply doubled_root|apply IH; lia|]. apply km_nil.
Qed.
Lemma doubled_unique n k : forall t, derives (doubling n) t -> root t = Nonterminal (doubling_name k) -> t = doubled k.
Proof.
  induction k as [|k IH]; intros t Hd Hr; inversion Hd as [p rhs ks Hp Hin Hk E]; subst; apply doubling_In in Hp; destruct Hp as (j & Hj & ->);
    cbn [p_rhs p_lhs root] in *; apply doubling_name_inj in Hr; subst j; destruct Hin as [<-|[]]; cbn [doubling_alt] in Hk.
  - inversion Hk as [|s r ks' Hk'|]; subst. inversion Hk'; subst. reflexivity.
  - inversion Hk as [| |m t1 r ks' Hr1 Hd1 Hk']; subst. inversion Hk' as [| |m t2 r ks2 Hr2 Hd2 Hk2]; subst. inversion Hk2; subst.
    rewrite (IH t1 Hd1 Hr1), (IH t2 Hd2 Hr2). reflexivity.
Qed.

Lemma kids_unique n x : Forall (fun t => match t with Terminal _ => True | Nonterminal m => exists k, m = doubling_name k end) x ->
  forall ks ks', kids_match (doubling n) x ks -> kids_match (doubling n) x ks' -> ks = ks'.
Proof.
  induction 1 as [|t x Ht Hx IH]; intros ks ks' Hk Hk'.
  - inversion Hk; inversion Hk'. reflexivity.
  - inversion Hk as [|s r ks1 H1|m t1 r ks1 Hr1 Hd1 H1]; subst; inversion Hk' as [|s' r' ks1' H1'|m' t1' r' ks1' Hr1' Hd1' H1']; subst; try discriminate.
    + rewrite (IH _ _ H1 H1'). reflexivity.
    + destruct Ht as (k & ->). rewrite (doubled_unique n k t1 Hd1 Hr1), (doubled_unique n k t1' Hd1' Hr1'), (IH _ _ H1 H1'). reflexivity.
Qed.

Lemma doubling_flat_In n pe : In pe (flat_prods (doubling n)) -> exists k, k <= n /\ fst pe = Nonterminal (doubling_name k).
Proof.
  intro H. unfold flat_prods in H. apply in_flat_map in H. destruct H as (p & Hp & H). apply doubling_In in Hp. destruct Hp as (k & Hk & ->).
  cbn [p_rhs p_lhs map] in H. destruct H as [<-|[]]. eauto.
Qed.
Lemma doubling_matching n : uniquely_matching (doubling n).
Proof.
  split.
  - induction n as [|n IH]; [constructor; [intros []|constructor]|]. change (flat_prods (doubling (S n))) with
      ((Nonterminal (doubling_name (S n)), doubling_alt (S n)) :: flat_prods (doubling n)). constructor; [|exact IH].
    intro H. apply doubling_flat_In in H. destruct H as (k & Hk & E). cbn [fst] in E. apply doubling_name_inj in E. lia.
  - intros p x y ks ks' Hp Hin Hk Hk' _. apply doubling_In in Hp. destruct Hp as (j & Hj & ->). cbn [p_rhs] in Hin. destruct Hin as [E|[]].
    apply (kids_unique n x); [|exact Hk|exact Hk'].
    assert (H : Forall (fun t => match t with Terminal _ => True | Nonterminal m => exists k, m = doubling_name k end) (doubling_alt j)).
    { destruct j as [|j]; cbn [doubling_alt]; repeat constructor; eauto. }
    rewrite E in H. apply Forall_app in H. exact (proj1 H).
Qed.
Lemma doubling_size n : grammar_size (doubling n) = 3 * n + 2.
Proof.
  induction n as [|n IH]; [reflexivity|]. change (grammar_size (doubling (S n))) with (3 + grammar_size (doubling n)). lia.
Qed.
Lemma doubled_lookups n : lookups (doubled n) + 7 = 11 * 2 ^ n.
Proof.
  induction n as [|n IH]; [reflexivity|]. change (lookups (doubled (S n))) with (7 + (lookups (doubled n) + (lookups (doubled n) + 0))). cbn [Nat.pow]. lia.
Qed.
Lemma doubled_nodes n : nodes (doubled n) + 1 = 2 ^ S n.
Proof. induction n as [|n IH]; [reflexivity|]. change (nodes (doubled (S n))) with (S (nodes (doubled n) + (nodes (doubled n) + 0))). cbn [Nat.pow] in *. lia. Qed.

Lemma doubling_proof n : exists it t it1, opens (doubling n) (Nonterminal (doubling_name n)) [] it /\
  (forall t', parses (doubling n) (Nonterminal (doubling_name n)) [] t' <-> t' = t) /\
  iter_next (3 * n + 3) it = Ok (Some t, it1) /\ length (tt_arena (s_tree (it_state it1))) <= 3 * n + 2 /\
  next_tree_counted (3 * n + 3) it = Ok (Some t, it1, 11 * 2 ^ n - 7).
Proof.
  destruct (opens_deprecated_ok (doubling n) [] (Nonterminal (doubling_name n))) as [_ H].
  destruct H as [_ (it & Hit)]; [destruct n; discriminate|]. apply opens_deprecated_with in Hit.
  destruct (quadratic _ _ _ _ _ _ (doubling_matching n) Hit (produces_nil it)) as (_ & [o it1] & E).
  assert (Hb : traversal_bound (doubling n) [] = 3 * n + 2) by (unfold traversal_bound; rewrite doubling_size; change (byte_len []) with 0; lia).
  rewrite Hb in E. replace (S (3 * n + 2)) with (3 * n + 3) in E by lia.
  assert (Hu : forall t', parses (doubling n) (Nonterminal (doubling_name n)) [] t' <-> t' = doubled n).
  { intro t'. split; [intros (Hd & Hr & _); exact (doubled_unique n n t' Hd Hr)|intros ->].
    split; [apply doubled_derives; lia|split; [apply doubled_root|apply doubled_yield]]. }
  destruct o as [t|].
  - assert (Hp : produces it [t] it1) by (eapply produces_next; [exact E|constructor]).
    assert (t = doubled n) as -> by (apply Hu; eapply soundness; [exact Hit|exact Hp|left; reflexivity]).
    exists it, (doubled n), it1. split; [exact Hit|]. split; [exact Hu|]. split; [exact E|]. split.
    + destruct (quadratic _ _ _ _ _ _ (doubling_matching n) Hit Hp) as (Hl & _). rewrite Hb in Hl. exact Hl.
    + rewrite (cost_proof _ _ _ _ _ _ _ _ _ Hit (produces_nil it) E). rewrite <- doubled_lookups. f_equal. f_equal. lia.
  - exfalso. destruct (completeness _ _ _ _ (doubled n) Hit (proj2 (Hu _) eq_refl)) as (ts & it' & Hp & Hin). destruct ts as [|t ts]; [destruct Hin|].
    eapply exhausted_no_more; [exists (3 * n + 3), it1; exact E|exact Hp].
Qed.
