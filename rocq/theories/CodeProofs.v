(** The parser goes through corresponding states for a grammar and an input, and for both written in a prefix
    code; the positions in the input are those of the code words. *)
From Verif Require Export CodeSpec EarleySim IterateProofs.

(** ** Codes *)
Lemma encode_app c a b : encode c (a ++ b) = encode c a ++ encode c b.
Proof. apply flat_map_app. Qed.

Lemma app_prefix {A} (a b r s : list A) : a ++ r = b ++ s -> (exists d, b = a ++ d) \/ (exists d, a = b ++ d).
Proof.
  revert b. induction a as [|x a IH]; intros b H; [left; exists b; reflexivity|].
  destruct b as [|y b]; [right; exists (x :: a); reflexivity|].
  injection H as -> H. destruct (IH _ H) as [[d ->]|[d ->]]; [left|right]; exists d; reflexivity.
Qed.

Section Code.
  Variable A : char -> Prop.
  Variable c : char -> str.
  Hypothesis Hc : prefix_code A c.
  Notation enc := (encode c).

  Lemma code_first a b r s : A a -> A b -> c a ++ r = c b ++ s -> a = b /\ r = s.
  Proof.
    intros Ha Hb E. assert (a = b).
    { destruct (app_prefix _ _ _ _ E) as [[d H]|[d H]]; [|symmetry]; eapply (proj2 Hc); eassumption. }
    subst b. split; [reflexivity|]. apply app_inv_head in E. exact E.
  Qed.

  Lemma encode_nil s : Forall A s -> enc s = [] -> s = [].
  Proof.
    destruct s as [|a s]; [reflexivity|]. intros H E. inversion H; subst. cbn in E.
    apply app_eq_nil in E. exfalso. apply (proj1 Hc a); [assumption|apply E].
  Qed.

  Lemma encode_inj s : forall t, Forall A s -> Forall A t -> enc s = enc t -> s = t.
  Proof.
    induction s as [|a s IH]; intros t Hs Ht E.
    - symmetry. apply encode_nil; [assumption|]. symmetry; exact E.
    - destruct t as [|b t]; [apply encode_nil in E; [discriminate|assumption]|].
      inversion Hs; inversion Ht; subst. cbn in E. apply code_first in E; [|assumption|assumption].
      destruct E as [-> E]. f_equal. apply IH; assumption.
  Qed.

  Lemma starts_with_encode p : forall s, Forall A s -> Forall A p -> starts_with (enc s) (enc p) = starts_with s p.
  Proof.
    intros s Hs Hp. destruct (starts_with s p) eqn:E.
    - apply starts_with_spec in E. destruct E as [r ->]. apply starts_with_spec. exists (enc r). apply encode_app.
    - destruct (starts_with (enc s) (enc p)) eqn:E2; [|reflexivity]. exfalso.
      apply starts_with_spec in E2. destruct E2 as [r E2].
      assert (H : exists d, s = p ++ d).
      { clear E. revert s Hs r E2. induction p as [|b p IH]; intros s Hs r E; [exists s; reflexivity|].
        inversion Hp; subst. destruct s as [|a s].
        - cbn in E. symmetry in E. apply app_eq_nil in E. destruct E as [E _]. apply app_eq_nil in E.
          exfalso. apply (proj1 Hc b); [assumption|apply E].
        - inversion Hs; subst. cbn in E. rewrite <- app_assoc in E. apply code_first in E; [|assumption|assumption].
          destruct E as [-> E]. destruct (IH H2 s H4 _ E) as [d ->]. exists d. reflexivity. }
      apply starts_with_spec in H. congruence.
  Qed.
End Code.

(** ** Positions *)
Fixpoint take (o : nat) (s : str) : str :=
  match s with
  | [] => []
  | x :: r => if Nat.leb (utf8_len x) o then x :: take (o - utf8_len x) r else []
  end.

Lemma take_app a b : take (byte_len a) (a ++ b) = a.
Proof.
  induction a as [|x a IH]; cbn [byte_len app].
  - destruct b as [|y b]; cbn [take]; [reflexivity|]. pose proof (utf8_len_pos y).
    destruct (Nat.leb_spec (utf8_len y) 0); [lia|reflexivity].
  - cbn [take]. destruct (Nat.leb_spec (utf8_len x) (utf8_len x + byte_len a)); [|lia].
    replace (utf8_len x + byte_len a - utf8_len x) with (byte_len a) by lia. rewrite IH. reflexivity.
Qed.

Section Sim.
  Variable A : char -> Prop.
  Variable c : char -> str.
  Hypothesis Hc : prefix_code A c.
  Notation enc := (encode c).
  Notation en := (on_terminal (encode c)).
  Variable input : str.
  Hypothesis Hin : Forall A input.
  Variables pg pg' : parse_grammar.
  Definition okterm (t : term) : Prop := match t with Terminal s => Forall A s | Nonterminal _ => True end.
  Hypothesis Hby : forall l, get_productions_by_lhs pg' l = get_productions_by_lhs pg l.
  Hypothesis Hprod : forall id, match nth_error (pg_prods pg) id with
    | Some (l, e) => nth_error (pg_prods pg') id = Some (l, map en e) /\ Forall okterm e
    | None => nth_error (pg_prods pg') id = None
    end.

  Definition off (o : nat) : nat := byte_len (enc (take o input)).
  Definition boundary (o : nat) : Prop := exists a b, input = a ++ b /\ o = byte_len a.

  Lemma off_app a b : input = a ++ b -> off (byte_len a) = byte_len (enc a).
  Proof. intro E. unfold off. rewrite E, take_app. reflexivity. Qed.

  Lemma off_inj o o' : boundary o -> boundary o' -> off o = off o' -> o = o'.
  Proof.
    intros (a & b & E & ->) (a' & b' & E' & ->). rewrite (off_app _ _ E), (off_app _ _ E'). intro H.
    assert (Ha : Forall A a) by (rewrite E in Hin; apply Forall_app in Hin; apply Hin).
    assert (Ha' : Forall A a') by (rewrite E' in Hin; apply Forall_app in Hin; apply Hin).
    assert (Hp : a ++ b = a' ++ b') by congruence.
    destruct (app_prefix _ _ _ _ Hp) as [[d ->]|[d ->]].
    - rewrite encode_app, byte_len_app in H. apply Forall_app in Ha'. destruct Ha' as [_ Hd].
      assert (byte_len (enc d) = 0) by lia. apply byte_len_0 in H0. apply (encode_nil A c Hc) in H0; [|assumption].
      subst d. rewrite app_nil_r. reflexivity.
    - rewrite encode_app, byte_len_app in H. apply Forall_app in Ha. destruct Ha as [_ Hd].
      assert (byte_len (enc d) = 0) by lia. apply byte_len_0 in H0. apply (encode_nil A c Hc) in H0; [|assumption].
      subst d. rewrite app_nil_r. reflexivity.
  Qed.

  (** A window between two positions of the input. *)
  Definition shown (r : irange) (a b d : str) : Prop :=
    input = a ++ b ++ d /\ r = mkR input (byte_len a) (byte_len b).
  Definition okrange (r : irange) : Prop := exists a b d, shown r a b d.
  Definition f_range (r : irange) : irange := mkR (enc input) (off (r_start r)) (off (total_len r) - off (r_start r)).

  Lemma f_shown r a b d : shown r a b d -> f_range r = mkR (enc input) (byte_len (enc a)) (byte_len (enc b)).
  Proof.
    intros [E ->]. unfold f_range, total_len. cbn [r_start r_len]. rewrite <- byte_len_app.
    rewrite (off_app a (b ++ d)) by exact E. rewrite (off_app (a ++ b) d) by (rewrite <- app_assoc; exact E).
    rewrite encode_app, byte_len_app. f_equal. lia.
  Qed.

  Lemma total_boundary r : okrange r -> boundary (total_len r).
  Proof.
    intros (a & b & d & E & ->). exists (a ++ b), d. split; [rewrite <- app_assoc; exact E|].
    unfold total_len. cbn. rewrite byte_len_app. reflexivity.
  Qed.
  Lemma start_boundary r : okrange r -> boundary (r_start r).
  Proof. intros (a & b & d & E & ->). exists a, (b ++ d). auto. Qed.

  Lemma f_total r : okrange r -> total_len (f_range r) = off (total_len r).
  Proof.
    intros (a & b & d & H). rewrite (f_shown _ _ _ _ H). destruct H as [E ->]. unfold total_len. cbn [r_start r_len].
    rewrite <- !byte_len_app, <- encode_app. symmetry. apply (off_app (a ++ b) d). rewrite <- app_assoc. exact E.
  Qed.

  Lemma f_after r : okrange r -> range_after (f_range r) = f_range (range_after r) /\ okrange (range_after r).
  Proof.
    intros (a & b & d & H). assert (H2 : shown (range_after r) (a ++ b) [] d).
    { destruct H as [E ->]. split; [rewrite <- app_assoc; exact E|]. unfold range_after. cbn. rewrite byte_len_app. reflexivity. }
    split; [|exists (a ++ b), [], d; exact H2].
    rewrite (f_shown _ _ _ _ H2), (f_shown _ _ _ _ H). unfold range_after. cbn.
    rewrite encode_app, byte_len_app. reflexivity.
  Qed.

  Lemma f_next_text r : okrange r -> range_next (f_range r) = enc (range_next r) /\ Forall A (range_next r).
  Proof.
    intros (a & b & d & H). rewrite (f_shown _ _ _ _ H). destruct H as [E ->]. unfold range_next. cbn [r_start r_len r_input].
    rewrite <- !byte_len_app, <- encode_app. rewrite E, !app_assoc, (encode_app _ (a ++ b) d), !str_get_from_app.
    split; [reflexivity|]. rewrite E in Hin. apply Forall_app in Hin. destruct Hin as [_ H].
    apply Forall_app in H. apply H.
  Qed.

  Lemma f_complete r : okrange r -> is_complete (f_range r) = is_complete r.
  Proof.
    intros (a & b & d & H). rewrite (f_shown _ _ _ _ H). destruct H as [E ->]. unfold is_complete. cbn [r_start r_len r_input].
    rewrite E in Hin. apply Forall_app in Hin. destruct Hin as [Ha H]. apply Forall_app in H. destruct H as [Hb Hd].
    rewrite E, !encode_app, !byte_len_app.
    destruct (Nat.eqb_spec (byte_len a) 0) as [Ea|Ea].
    - apply byte_len_0 in Ea. subst a. cbn [encode flat_map byte_len Nat.eqb andb plus].
      destruct (Nat.eqb_spec (byte_len b) (byte_len b + byte_len d)) as [Ed|Ed].
      + assert (byte_len d = 0) by lia. apply byte_len_0 in H. subst d. cbn. apply Nat.eqb_eq. lia.
      + apply Nat.eqb_neq. intro X. assert (byte_len (enc d) = 0) by lia. apply byte_len_0 in H.
        apply (encode_nil A c Hc) in H; [|assumption]. subst d. cbn in Ed. lia.
    - cbn [andb]. destruct (Nat.eqb_spec (byte_len (enc a)) 0) as [X|X]; [|reflexivity].
      apply byte_len_0 in X. apply (encode_nil A c Hc) in X; [|assumption]. subst a. cbn in Ea. lia.
  Qed.

  (** Advancing over a piece of the rest. *)
  Lemma advance_shown r a b u d : shown r a b (u ++ d) ->
    exists r1, advance_by r (byte_len u) = Ok r1 /\ shown r1 a (b ++ u) d /\
      advance_by (f_range r) (byte_len (enc u)) = Ok (f_range r1).
  Proof.
    intro H. assert (H2 : shown (mkR input (byte_len a) (byte_len (b ++ u))) a (b ++ u) d).
    { destruct H as [E _]. split; [rewrite <- app_assoc; exact E|reflexivity]. }
    exists (mkR input (byte_len a) (byte_len (b ++ u))). rewrite (f_shown _ _ _ _ H2), (f_shown _ _ _ _ H).
    destruct H as [E ->]. unfold advance_by. cbn [r_input r_start r_len]. split; [|split; [exact H2|]].
    - rewrite E, !byte_len_app. destruct (Nat.ltb_spec (byte_len a + (byte_len b + (byte_len u + byte_len d))) (byte_len a)); [lia|].
      f_equal. f_equal. lia.
    - rewrite E, !encode_app, !byte_len_app.
      destruct (Nat.ltb_spec (byte_len (enc a) + (byte_len (enc b) + (byte_len (enc u) + byte_len (enc d)))) (byte_len (enc a))); [lia|].
      f_equal. f_equal. lia.
  Qed.

  (** ** States *)
  Definition f_match (m : tmatch) : tmatch := match m with MTerminal s => MTerminal (enc s) | MNonterminal i => MNonterminal i end.
  Definition f_edge (e : tedge) : tedge := (f_match (fst e), snd e).
  Definition f_trav (t : traversal) : traversal :=
    mkT (t_id t) (map en (t_unmatched t)) (f_range (t_range t)) (t_pid t) (t_starting t) (option_map f_edge (t_from t)).
  Definition f_root (k : troot) : troot := (fst k, off (snd k)).
  Definition f_tree (tr : ttree) : ttree :=
    mkTT (map f_trav (tt_arena tr)) (map (fun x => (f_root (fst x), snd x)) (tt_roots tr))
         (map (fun x => (f_edge (fst x), snd x)) (tt_edges tr)).
  Definition f_key (k : ckey) : ckey := (fst k, off (snd k)).
  Definition f_cmap (cm : cmap) : cmap :=
    mkCM (map (fun x => (f_key (fst x), snd x)) (cm_incomplete cm))
         (map (fun x => (f_key (fst x), snd x)) (cm_complete cm)).
  Definition f_state (st : pstate) : pstate := mkS (f_tree (s_tree st)) (s_queue st) (f_cmap (s_comp st)).

  Definition okt (t : traversal) : Prop := okrange (t_range t) /\ Forall okterm (t_unmatched t).
  Definition okmatch (m : tmatch) : Prop := match m with MTerminal s => Forall A s | MNonterminal _ => True end.
  Definition oktree (tr : ttree) : Prop :=
    Forall okt (tt_arena tr) /\ (forall i t, nth_error (tt_arena tr) i = Some t -> t_id t = i) /\
    Forall (fun x => boundary (snd (fst x))) (tt_roots tr) /\ Forall (fun x => okmatch (fst (fst x))) (tt_edges tr).
  (** The traversals filed under a key end, or start, at its position. *)
  Definition filed (where_ : irange -> nat) (tr : ttree) (m : hmap ckey (list nat)) : Prop :=
    Forall (fun x => boundary (snd (fst x)) /\
      Forall (fun i => exists t, nth_error (tt_arena tr) i = Some t /\ where_ (t_range t) = snd (fst x)) (snd x)) m.
  Definition okcm (tr : ttree) (cm : cmap) : Prop := filed total_len tr (cm_incomplete cm) /\ filed r_start tr (cm_complete cm).
  Definition okst (st : pstate) : Prop := oktree (s_tree st) /\ okcm (s_tree st) (s_comp st).
  Definition ext (tr tr1 : ttree) : Prop := exists l, tt_arena tr1 = tt_arena tr ++ l.

  Lemma ext_refl tr : ext tr tr.
  Proof. exists []. rewrite app_nil_r. reflexivity. Qed.
  Lemma ext_trans a b d : ext a b -> ext b d -> ext a d.
  Proof. intros [l E] [l2 E2]. exists (l ++ l2). rewrite E2, E, app_assoc. reflexivity. Qed.
  Lemma ext_nth tr tr1 i t : ext tr tr1 -> nth_error (tt_arena tr) i = Some t -> nth_error (tt_arena tr1) i = Some t.
  Proof. intros [l ->] H. rewrite nth_error_app1; [exact H|]. apply nth_error_Some. congruence. Qed.
  Lemma filed_ext w tr tr1 m : ext tr tr1 -> filed w tr m -> filed w tr1 m.
  Proof.
    intros He H. eapply Forall_impl; [|exact H]. intros x [H1 H2]. split; [exact H1|].
    eapply Forall_impl; [|exact H2]. intros i (t & E & Ew). exists t. split; [eapply ext_nth; eassumption|exact Ew].
  Qed.
  Lemma okcm_ext tr tr1 cm : ext tr tr1 -> okcm tr cm -> okcm tr1 cm.
  Proof. intros He [H1 H2]. split; eapply filed_ext; eassumption. Qed.

  Lemma f_next t : next_unmatched (f_trav t) = option_map en (next_unmatched t).
  Proof. unfold next_unmatched. cbn. destruct (t_unmatched t); reflexivity. Qed.

  Lemma oktree_nth tr id t : oktree tr -> nth_error (tt_arena tr) id = Some t -> okt t /\ t_id t = id.
  Proof.
    intros (H & Hi & _) E. split; [|apply Hi; exact E]. rewrite Forall_forall in H. apply H. eapply nth_error_In; exact E.
  Qed.

  Lemma sim_arena tr id : oktree tr ->
    sim f_trav (fun t => nth_error (tt_arena tr) id = Some t) (expect (nth_error (tt_arena tr) id)) (expect (nth_error (tt_arena (f_tree tr)) id)).
  Proof.
    intros H. cbn [tt_arena f_tree]. rewrite nth_error_map.
    destruct (nth_error (tt_arena tr) id) as [t|] eqn:E; cbn; [|reflexivity]. split; reflexivity.
  Qed.

  Lemma sim_production id :
    sim (fun p => (fst p, map en (snd p))) (fun p => Forall okterm (snd p))
        (get_production_by_id pg id) (get_production_by_id pg' id).
  Proof.
    pose proof (Hprod id) as H. unfold get_production_by_id. destruct (nth_error (pg_prods pg) id) as [[l e]|].
    - destruct H as [-> H]. cbn. auto.
    - rewrite H. reflexivity.
  Qed.

  Lemma arena_snoc ar t : (forall i x, nth_error ar i = Some x -> t_id x = i) -> t_id t = length ar ->
    forall i x, nth_error (ar ++ [t]) i = Some x -> t_id x = i.
  Proof.
    intros H Ht i x E. destruct (Nat.lt_ge_cases i (length ar)) as [Hl|Hl].
    - rewrite nth_error_app1 in E by assumption. auto.
    - rewrite nth_error_app2 in E by assumption. destruct (i - length ar) as [|k] eqn:Ek; cbn in E.
      + injection E as <-. rewrite Ht. lia.
      + destruct k; discriminate.
  Qed.

  Lemma f_predict tr range pid rhs starting : oktree tr -> okrange range -> Forall okterm rhs ->
    tt_predict (f_tree tr) (f_range range) pid (map en rhs) starting =
      (fst (tt_predict tr range pid rhs starting), f_tree (snd (tt_predict tr range pid rhs starting))) /\
    oktree (snd (tt_predict tr range pid rhs starting)) /\ ext tr (snd (tt_predict tr range pid rhs starting)).
  Proof.
    intros (Ha & Hi & Hr & He) Hp Hrhs. unfold tt_predict. cbn [tt_roots f_tree]. rewrite f_total by assumption.
    change (pid, off (total_len range)) with (f_root (pid, total_len range)).
    destruct (f_after _ Hp) as [Ef Hf]. pose proof (total_boundary _ Hp) as Hb.
    rewrite (hm_get_map troot_eqb troot_eqb f_root).
    - destruct (hm_get troot_eqb (tt_roots tr) (pid, total_len range)) as [id|]; cbn [fst snd].
      + split; [reflexivity|]. split; [|apply ext_refl]. repeat split; assumption.
      + cbn [tt_arena f_tree tt_edges]. rewrite map_length. split; [|split].
        * f_equal. unfold f_tree. cbn [tt_arena tt_roots tt_edges]. rewrite map_app, Ef. reflexivity.
        * split; [|split; [|split]]; cbn [tt_arena tt_roots tt_edges].
          -- apply Forall_app. split; [assumption|]. constructor; [|constructor]. split; assumption.
          -- apply arena_snoc; [assumption|reflexivity].
          -- constructor; assumption.
          -- assumption.
        * eexists. reflexivity.
    - eapply Forall_impl; [|exact Hr]. intros [[p s] v] Hd. cbn in Hd.
      unfold troot_eqb, f_root. cbn [fst snd]. f_equal.
      destruct (Nat.eqb_spec s (total_len range)) as [->|Hne]; [apply Nat.eqb_refl|].
      apply Nat.eqb_neq. intro E. apply Hne. apply off_inj; assumption.
  Qed.

  Lemma f_predict_all range starting pids : okrange range -> forall tr q, oktree tr ->
    sim (fun x => (f_tree (fst x), snd x)) (fun x => oktree (fst x) /\ ext tr (fst x))
        (predict_all pg range starting pids tr q)
        (predict_all pg' (f_range range) starting pids (f_tree tr) q).
  Proof.
    intro Hr. induction pids as [|pid pids IH]; intros tr q Ht; cbn [predict_all].
    - apply sim_ok; [reflexivity|]. split; [assumption|apply ext_refl].
    - eapply sim_bind; [apply sim_production|]. intros [l e] He. cbn [fst snd] in *.
      destruct (f_predict tr range pid e starting Ht Hr He) as (E & Hok & Hx). rewrite E.
      destruct (tt_predict tr range pid e starting) as [id tr1]. cbn [fst snd] in *.
      specialize (IH tr1 (q_push q id) Hok).
      destruct (predict_all pg range starting pids tr1 (q_push q id)) as [[tr2 q2]| |]; cbn in *; [|assumption|assumption].
      destruct IH as (E2 & H2 & H3). split; [exact E2|]. split; [exact H2|]. eapply ext_trans; eassumption.
  Qed.

  (** Which matches are made. *)
  Definition okpair (tr : ttree) (x : nat * tmatch) : Prop :=
    exists t, nth_error (tt_arena tr) (fst x) = Some t /\
      match snd x with
      | MTerminal s => Forall A s /\ starts_with (range_next (t_range t)) s = true
      | MNonterminal i => exists t2, nth_error (tt_arena tr) i = Some t2 /\ r_start (t_range t2) = total_len (t_range t)
      end.
  Definition f_pair (x : nat * tmatch) : nat * tmatch := (fst x, f_match (snd x)).

  Lemma okpair_ext tr tr1 x : ext tr tr1 -> okpair tr x -> okpair tr1 x.
  Proof.
    intros He (t & E & H). exists t. split; [eapply ext_nth; eassumption|]. destruct (snd x) as [s|i]; [exact H|].
    destruct H as (t2 & E2 & H). exists t2. split; [eapply ext_nth; eassumption|exact H].
  Qed.

  Lemma next_shown r a b d : shown r a b d -> range_next r = d.
  Proof.
    intros [E ->]. unfold range_next. cbn [r_start r_len r_input]. rewrite <- byte_len_app, E, app_assoc, str_get_from_app. reflexivity.
  Qed.

  Lemma f_match_inj m m' : okmatch m -> okmatch m' -> f_match m = f_match m' -> m = m'.
  Proof.
    destruct m as [s|i], m' as [s'|i']; cbn; intros H H' E; try discriminate; [|exact E].
    injection E as E. f_equal. exact (encode_inj A c Hc s s' H H' E).
  Qed.

  Lemma tmatch_eqb_eq a b : tmatch_eqb a b = true <-> a = b.
  Proof.
    destruct a as [s|i], b as [s'|i']; cbn; try (split; discriminate).
    - rewrite str_eqb_eq. split; congruence.
    - rewrite Nat.eqb_eq. split; congruence.
  Qed.

  Lemma f_match_term tr parent m : oktree tr -> okpair tr (parent, m) ->
    sim (fun x => (fst x, f_tree (snd x))) (fun x => oktree (snd x) /\ ext tr (snd x))
        (tt_match_term tr parent m) (tt_match_term (f_tree tr) parent (f_match m)).
  Proof.
    intros Ht (t0 & E0 & Hm). unfold tt_match_term. eapply sim_bind; [apply sim_arena; assumption|].
    intros t Et. cbn beta. cbn [fst snd] in *. rewrite E0 in Et. injection Et as <-.
    destruct (oktree_nth _ _ _ Ht E0) as [[Hr Hu] Hid].
    assert (Hmo : okmatch m) by (destruct m; [apply Hm|exact I]).
    apply (sim_bind f_range okrange).
    - destruct Hr as (a & b & d & Hs). cbn [t_range f_trav]. destruct m as [s|i]; cbn [f_match].
      + destruct Hm as [_ Hm]. rewrite (next_shown _ _ _ _ Hs) in Hm. apply starts_with_spec in Hm. destruct Hm as [d2 ->].
        destruct (advance_shown _ _ _ _ _ Hs) as (r1 & E1 & S1 & E1'). rewrite E1, E1'. split; [reflexivity|].
        exists a, (b ++ s), d2. exact S1.
      + destruct Hm as (t2 & E2 & Hst). cbn [tt_arena f_tree]. rewrite nth_error_map, E2. cbn [option_map expect rbind].
        destruct (oktree_nth _ _ _ Ht E2) as [[(a2 & b2 & d2 & S2) _] _]. cbn [t_range f_trav].
        rewrite (f_shown _ _ _ _ S2). destruct S2 as [I2 R2]. rewrite R2 in *. cbn [r_len r_start] in *.
        assert (Ed : d = b2 ++ d2).
        { destruct Hs as [I1 R1]. rewrite R1 in Hst. unfold total_len in Hst. cbn in Hst. rewrite <- byte_len_app in Hst.
          assert (E : a2 ++ (b2 ++ d2) = (a ++ b) ++ d) by (rewrite <- app_assoc; congruence).
          apply app_byte_len_inj in E; [|exact Hst]. symmetry. apply E. }
        subst d. destruct (advance_shown _ _ _ _ _ Hs) as (r1 & E1 & S1 & E1'). rewrite E1, E1'. split; [reflexivity|].
        exists a, (b ++ b2), d2. exact S1.
    - intros r Hr1. apply (sim_bind (map en) (fun u => Forall okterm u)).
      + cbn [t_unmatched f_trav]. destruct (t_unmatched t0) as [|x u]; cbn; [reflexivity|].
        inversion Hu; subst. auto.
      + intros u Hu1. cbn [t_id f_trav tt_edges f_tree].
        change (f_match m, t_id t0) with (f_edge (m, t_id t0)).
        rewrite (hm_get_map tedge_eqb tedge_eqb f_edge).
        * destruct (hm_get tedge_eqb (tt_edges tr) (m, t_id t0)) as [id|].
          -- apply sim_ok; [reflexivity|]. cbn. split; [assumption|apply ext_refl].
          -- apply sim_ok.
             ++ cbn [fst snd]. unfold f_tree. cbn [tt_arena tt_roots tt_edges]. rewrite map_length, map_app. reflexivity.
             ++ cbn [snd]. destruct Ht as (Ha & Hi & Hrt & He). split; [|eexists; reflexivity].
                split; [|split; [|split]]; cbn [tt_arena tt_roots tt_edges].
                ** apply Forall_app. split; [assumption|]. constructor; [|constructor]. split; assumption.
                ** apply arena_snoc; [assumption|reflexivity].
                ** assumption.
                ** constructor; assumption.
        * destruct Ht as (_ & _ & _ & He). eapply Forall_impl; [|exact He]. intros [[m1 p1] v] Hm1. cbn in Hm1.
          unfold tedge_eqb, f_edge. cbn [fst snd]. f_equal.
          destruct (tmatch_eqb m1 m) eqn:E.
          -- apply tmatch_eqb_eq in E. subst. apply tmatch_eqb_eq. reflexivity.
          -- destruct (tmatch_eqb (f_match m1) (f_match m)) eqn:E2; [|reflexivity].
             apply tmatch_eqb_eq in E2. apply f_match_inj in E2; [|assumption|assumption].
             apply tmatch_eqb_eq in E2. congruence.
  Qed.

  Lemma f_match_all l : forall tr q, oktree tr -> Forall (okpair tr) l ->
    sim (fun x => (f_tree (fst x), snd x)) (fun x => oktree (fst x) /\ ext tr (fst x))
        (match_all l tr q) (match_all (map f_pair l) (f_tree tr) q).
  Proof.
    induction l as [|[p m] l IH]; intros tr q Ht Hl; cbn [match_all map f_pair fst snd].
    - apply sim_ok; [reflexivity|]. split; [assumption|apply ext_refl].
    - inversion Hl as [|? ? Hl1 Hl2]; subst. eapply sim_bind; [apply f_match_term; assumption|].
      intros [id tr1] [H1 Hx]. cbn [fst snd] in *. assert (Hl3 : Forall (okpair tr1) l).
      { eapply Forall_impl; [|exact Hl2]. intros x Hp. eapply okpair_ext; eassumption. }
      specialize (IH tr1 (q_push q id) H1 Hl3).
      destruct (match_all l tr1 (q_push q id)) as [[tr2 q2]| |]; cbn in *; [|assumption|assumption].
      destruct IH as (E2 & H2 & H3). split; [exact E2|]. split; [exact H2|]. eapply ext_trans; eassumption.
  Qed.

  Lemma filed_boundary w tr m : filed w tr m -> Forall (fun x => boundary (snd (fst x))) m.
  Proof. intro H. eapply Forall_impl; [|exact H]. intros x Hx. apply Hx. Qed.

  Lemma f_lookup (m : hmap ckey (list nat)) k : Forall (fun x => boundary (snd (fst x))) m -> boundary (snd k) ->
    cm_lookup (map (fun x => (f_key (fst x), snd x)) m) (f_key k) = cm_lookup m k.
  Proof.
    intros Hm Hk. unfold cm_lookup. rewrite (hm_get_map ckey_eqb ckey_eqb f_key); [reflexivity|].
    eapply Forall_impl; [|exact Hm]. intros [[t s] v] Ht. cbn in Ht. destruct k as [t' s']. cbn in Hk.
    unfold ckey_eqb, f_key. cbn [fst snd]. f_equal.
    destruct (Nat.eqb_spec s s') as [->|Hne]; [apply Nat.eqb_refl|].
    apply Nat.eqb_neq. intro E. apply Hne. apply off_inj; assumption.
  Qed.

  Lemma filed_lookup w tr m k i : filed w tr m -> In i (cm_lookup m k) ->
    exists t, nth_error (tt_arena tr) i = Some t /\ w (t_range t) = snd k.
  Proof.
    unfold cm_lookup. intro H. induction H as [|[k0 v] m [_ H1] _ IH]; cbn [hm_get]; [intros []|].
    destruct (ckey_eqb k0 k) eqn:E; [|exact IH]. apply ckey_eqb_eq in E. subst k0. intro Hi.
    rewrite Forall_forall in H1. exact (H1 i Hi).
  Qed.

  Lemma filed_insert w tr m k i t : filed w tr m -> boundary (snd k) -> nth_error (tt_arena tr) i = Some t -> w (t_range t) = snd k ->
    filed w tr (hm_insert m k (sorted_vec_insert (cm_lookup m k) i)).
  Proof.
    intros H Hk Et Ew. constructor; [|exact H]. cbn [fst snd]. split; [exact Hk|]. apply Forall_forall. intros j Hj.
    apply sorted_vec_insert_In in Hj. destruct Hj as [Hj| ->]; [eapply filed_lookup; eassumption|eauto].
  Qed.

  Lemma f_cm_insert tr cm t id l : okcm tr cm -> oktree tr -> nth_error (tt_arena tr) id = Some t ->
    cm_insert (f_cmap cm) (f_trav t) l = f_cmap (cm_insert cm t l) /\ okcm tr (cm_insert cm t l).
  Proof.
    intros [Hi Hc'] Ht Et. destruct (oktree_nth _ _ _ Ht Et) as [[Hr Hu] Hid].
    unfold cm_insert. rewrite f_next. unfold next_unmatched.
    destruct (t_unmatched t) as [|[s|n] u]; cbn [hd_error option_map on_terminal].
    - cbn [t_range f_trav t_id]. split.
      + unfold f_cmap. cbn [cm_incomplete cm_complete]. f_equal.
        change (key_start l (f_range (t_range t))) with (f_key (key_start l (t_range t))).
        rewrite f_lookup; [reflexivity|eapply filed_boundary; exact Hc'|apply start_boundary; exact Hr].
      + split; cbn [cm_incomplete cm_complete]; [assumption|].
        eapply filed_insert; [assumption|apply start_boundary; exact Hr|rewrite Hid; exact Et|reflexivity].
    - split; [reflexivity|]. split; assumption.
    - cbn [t_range f_trav t_id]. split.
      + unfold f_cmap. cbn [cm_incomplete cm_complete]. f_equal.
        replace (key_total (Nonterminal n) (f_range (t_range t))) with (f_key (key_total (Nonterminal n) (t_range t)))
          by (unfold key_total, f_key; cbn [fst snd]; rewrite f_total by exact Hr; reflexivity).
        rewrite f_lookup; [reflexivity|eapply filed_boundary; exact Hi|apply total_boundary; exact Hr].
      + split; cbn [cm_incomplete cm_complete]; [|assumption].
        eapply filed_insert; [assumption|apply total_boundary; exact Hr|rewrite Hid; exact Et|reflexivity].
  Qed.

  Lemma f_process tr q cm id : oktree tr -> okcm tr cm ->
    sim (fun x => (fst x, f_state (snd x))) (fun x => okst (snd x))
        (process pg tr q cm id) (process pg' (f_tree tr) q (f_cmap cm) id).
  Proof.
    intros Ht Hcm. unfold process. eapply sim_bind; [apply sim_arena; assumption|].
    intros t Et. cbn beta. destruct (oktree_nth _ _ _ Ht Et) as [[Hr Hnx] Hid]. rewrite f_next. unfold next_unmatched at 1 2.
    destruct (t_unmatched t) as [|[s|n] u] eqn:Hu; cbn [hd_error option_map on_terminal].
    - (* complete *)
      eapply sim_bind; [apply sim_production|]. intros [l e] _. cbn [fst snd] in *.
      cbn [t_starting f_trav t_pid].
      destruct (f_cm_insert tr cm t id l Hcm Ht Et) as [E1 Hcm1].
      unfold get_incomplete. cbn [t_range f_trav t_starting].
      rewrite E1. change (key_start l (f_range (t_range t))) with (f_key (key_start l (t_range t))).
      unfold f_cmap at 1. cbn [cm_incomplete]. rewrite f_lookup; [|eapply filed_boundary; apply Hcm1|apply start_boundary; exact Hr].
      set (ids := cm_lookup (cm_incomplete (cm_insert cm t l)) (key_start l (t_range t))).
      assert (Hids : Forall (okpair tr) (map (fun i => (i, MNonterminal id)) ids)).
      { apply Forall_forall. intros x Hx. apply in_map_iff in Hx. destruct Hx as (i & <- & Hx).
        destruct (filed_lookup _ _ _ _ _ (proj1 Hcm1) Hx) as (t1 & Et1 & Ew). exists t1. cbn [fst snd]. split; [exact Et1|].
        exists t. split; [exact Et|]. rewrite Ew. reflexivity. }
      replace (map (fun i => (i, MNonterminal id)) ids) with (map f_pair (map (fun i => (i, MNonterminal id)) ids)) at 2
        by (rewrite map_map; reflexivity).
      eapply sim_bind; [apply f_match_all; assumption|]. intros [tr1 q1] [H1 Hx]. cbn [fst snd] in *.
      apply sim_ok; [rewrite f_complete by exact Hr; reflexivity|]. split; [assumption|]. eapply okcm_ext; eassumption.
    - (* terminal *)
      inversion Hnx as [|? ? Hs _]; subst. cbn in Hs. cbn [t_range f_trav].
      destruct (f_next_text _ Hr) as [En Hn]. rewrite En, (starts_with_encode A c Hc) by assumption.
      destruct (starts_with (range_next (t_range t)) s) eqn:Es.
      + change [(t_id t, MTerminal (enc s))] with (map f_pair [(t_id t, MTerminal s)]).
        eapply sim_bind; [apply f_match_all; [assumption|]|].
        { constructor; [|constructor]. exists t. split; [exact Et|]. split; assumption. }
        intros [tr1 q1] [H1 Hx]. cbn [fst snd] in *.
        apply sim_ok; [reflexivity|]. split; [assumption|]. eapply okcm_ext; eassumption.
      + apply sim_ok; [reflexivity|]. split; assumption.
    - (* nonterminal *)
      eapply sim_bind; [apply sim_production|]. intros [l e] _. cbn [fst snd] in *.
      destruct (f_cm_insert tr cm t id l Hcm Ht Et) as [E1 Hcm1]. rewrite E1. cbn [t_range f_trav]. rewrite Hby.
      eapply sim_bind; [apply f_predict_all; assumption|]. intros [tr1 q1] [H1 Hx]. cbn [fst snd] in *.
      unfold get_complete.
      replace (key_total (Nonterminal n) (f_range (t_range t))) with (f_key (key_total (Nonterminal n) (t_range t)))
        by (unfold key_total, f_key; cbn [fst snd]; rewrite f_total by exact Hr; reflexivity).
      unfold f_cmap at 1. cbn [cm_complete]. rewrite f_lookup; [|eapply filed_boundary; apply Hcm1|apply total_boundary; exact Hr].
      set (ids := cm_lookup (cm_complete (cm_insert cm t l)) (key_total (Nonterminal n) (t_range t))).
      assert (Hids : Forall (okpair tr1) (map (fun i => (id, MNonterminal i)) ids)).
      { apply Forall_forall. intros x Hx1. apply in_map_iff in Hx1. destruct Hx1 as (i & <- & Hx1).
        destruct (filed_lookup _ _ _ _ _ (proj2 Hcm1) Hx1) as (t1 & Et1 & Ew).
        apply (okpair_ext tr); [exact Hx|]. exists t. cbn [fst snd]. split; [exact Et|].
        exists t1. split; [exact Et1|]. rewrite Ew. reflexivity. }
      replace (map (fun i => (id, MNonterminal i)) ids) with (map f_pair (map (fun i => (id, MNonterminal i)) ids)) at 2
        by (rewrite map_map; reflexivity).
      eapply sim_bind; [apply f_match_all; assumption|]. intros [tr2 q2] [H2 Hx2]. cbn [fst snd] in *.
      apply sim_ok; [reflexivity|]. split; [assumption|]. apply (okcm_ext tr); [apply (ext_trans tr tr1 tr2); assumption|assumption].
  Qed.

  Lemma f_earley fuel : forall st, okst st ->
    sim (fun x => (fst x, f_state (snd x))) (fun x => okst (snd x))
        (earley fuel pg st) (earley fuel pg' (f_state st)).
  Proof.
    induction fuel as [|fuel IH]; intros st [Ht Hcm]; cbn [earley]; [reflexivity|].
    change (s_queue (f_state st)) with (s_queue st).
    destruct (q_queue (s_queue st)) as [|id rest].
    - apply sim_ok; [reflexivity|]. split; assumption.
    - eapply sim_bind; [apply f_process; assumption|]. intros [[i|] st1] H1; cbn [fst snd] in *.
      + apply sim_ok; [reflexivity|]. assumption.
      + apply IH. assumption.
  Qed.

  (** ** Trees *)
  Lemma f_tt_get tr id : tt_get (f_tree tr) id =
    match tt_get tr id with Ok t => Ok (f_trav t) | Panic => Panic | OutOfFuel => OutOfFuel end.
  Proof.
    unfold tt_get. cbn [f_tree tt_arena]. rewrite nth_error_map. destruct (nth_error (tt_arena tr) id); reflexivity.
  Qed.

  Lemma f_match_iter_root fuel tr : forall id, match_iter_root fuel (f_tree tr) id = match_iter_root fuel tr id.
  Proof.
    induction fuel as [|fuel IH]; intro id; cbn [match_iter_root]; [reflexivity|].
    rewrite f_tt_get. destruct (tt_get tr id) as [t| |]; cbn; try reflexivity.
    destruct (t_from t); cbn; [apply IH|reflexivity].
  Qed.

  Lemma f_match_iter_scan fuel tr k : forall s,
    sim (option_map (fun x => (fst x, f_match (snd x)))) (fun _ => True) (match_iter_scan fuel tr k s) (match_iter_scan fuel (f_tree tr) k s).
  Proof.
    induction fuel as [|fuel IH]; intro s; cbn [match_iter_scan]; [reflexivity|].
    rewrite f_tt_get. destruct (tt_get tr s) as [t| |]; cbn; try reflexivity.
    destruct (t_from t) as [e|]; cbn; [|auto]. destruct (k =? snd e); [cbn; auto|apply IH].
  Qed.

  Lemma f_match_iter_all walk tr last fuel : forall k,
    sim (map f_match) (fun _ => True) (match_iter_all fuel walk tr k last) (match_iter_all fuel walk (f_tree tr) k last).
  Proof.
    induction fuel as [|fuel IH]; intro k; cbn [match_iter_all]; [reflexivity|].
    unfold match_iter_next. destruct (k =? last); [cbn; auto|].
    eapply sim_bind; [apply f_match_iter_scan|]. intros [[k' m]|] _; cbn [option_map fst snd]; [|cbn; auto].
    eapply sim_bind; [apply IH|]. intros r _. cbn. auto.
  Qed.

  Lemma f_get_matched tr id : sim (map f_match) (fun _ => True) (get_matched tr id) (get_matched (f_tree tr) id).
  Proof.
    unfold get_matched. replace (length (tt_arena (f_tree tr))) with (length (tt_arena tr)) by (cbn; rewrite map_length; reflexivity).
    rewrite f_match_iter_root. destruct (match_iter_root _ tr id); unfold rbind; [|reflexivity|reflexivity]. apply f_match_iter_all.
  Qed.

  Lemma sim_res_map2 {X Y B B'} (f : B -> B') (j : X -> Y) (k : X -> res B) (k' : Y -> res B') l :
    (forall a, sim f (fun _ => True) (k a) (k' (j a))) ->
    sim (map f) (fun _ => True) (res_map k l) (res_map k' (map j l)).
  Proof.
    intro H. induction l as [|a l IH]; cbn [res_map map]; [split; auto|].
    eapply sim_bind; [apply H|]. intros b _. eapply sim_bind; [apply IH|]. intros r _. split; auto.
  Qed.

  Lemma f_parse_tree fuel tr : oktree tr -> forall id,
    sim (map_leaves enc) (fun _ => True) (parse_tree fuel tr pg id) (parse_tree fuel (f_tree tr) pg' id).
  Proof.
    intro Ht. induction fuel as [|fuel IH]; intro id; cbn [parse_tree]; [reflexivity|].
    eapply sim_bind; [apply sim_arena; assumption|]. intros t _. cbn [t_pid f_trav].
    eapply sim_bind; [apply sim_production|]. intros [l e] _. cbn [fst].
    eapply sim_bind; [apply f_get_matched|]. intros ms _. cbn beta.
    eapply sim_bind; [apply (sim_res_map2 (map_leaves_node enc) f_match)|].
    - intros [s|i]; [split; auto|]. cbn [f_match]. eapply sim_bind; [apply IH|]. intros st _. split; auto.
    - intros rhs _. apply sim_ok; auto.
  Qed.

  (** ** The iterator *)
  Lemma f_iter_next fuel st0 st0' st : okst st ->
    sim (fun x => (option_map (map_leaves enc) (fst x), mkI (mkGP st0' pg') (f_state (it_state (snd x)))))
        (fun x => okst (it_state (snd x)) /\ it_parser (snd x) = mkGP st0 pg)
        (iter_next fuel (mkI (mkGP st0 pg) st)) (iter_next fuel (mkI (mkGP st0' pg') (f_state st))).
  Proof.
    intro Hs. unfold iter_next. cbn [it_parser it_state gp_pg].
    eapply sim_bind; [apply f_earley; assumption|]. intros [[i|] st1] H1; cbn [fst snd] in *.
    - cbn [f_state s_tree]. replace (length (tt_arena (f_tree (s_tree st1)))) with (length (tt_arena (s_tree st1)))
        by (cbn; rewrite map_length; reflexivity).
      eapply sim_bind; [apply f_parse_tree; apply H1|]. intros t _. apply sim_ok; [reflexivity|]. auto.
    - apply sim_ok; [reflexivity|]. auto.
  Qed.

  (** Two iterators in corresponding states. *)
  Definition corresponds (it it' : piter) : Prop :=
    exists st0 st0' st, it = mkI (mkGP st0 pg) st /\ it' = mkI (mkGP st0' pg') (f_state st) /\ okst st.

  Lemma corresponds_next fuel it it' : corresponds it it' ->
    match iter_next fuel it with
    | Ok (o, it1) => exists it1', iter_next fuel it' = Ok (option_map (map_leaves enc) o, it1') /\ corresponds it1 it1'
    | Panic => iter_next fuel it' = Panic
    | OutOfFuel => iter_next fuel it' = OutOfFuel
    end.
  Proof.
    intros (st0 & st0' & st & -> & -> & Hs). pose proof (f_iter_next fuel st0 st0' st Hs) as H.
    destruct (iter_next fuel (mkI (mkGP st0 pg) st)) as [[o [p st1]]| |]; cbn in H; [|assumption|assumption].
    destruct H as [-> [H1 H2]]. subst p. eexists. split; [reflexivity|]. exists st0, st0', st1. auto.
  Qed.

  Lemma okrange_new : okrange (range_new input) /\ f_range (range_new input) = range_new (enc input).
  Proof.
    assert (H : shown (range_new input) [] [] input) by (split; reflexivity).
    split; [exists [], [], input; exact H|]. rewrite (f_shown _ _ _ _ H). reflexivity.
  Qed.

  Lemma corresponds_new st0 st0' start it it' :
    iter_new (mkGP st0 pg) input (Some start) = Ok it ->
    iter_new (mkGP st0' pg') (enc input) (Some start) = Ok it' -> corresponds it it'.
  Proof.
    unfold iter_new. cbn [gp_pg]. rewrite Hby. destruct okrange_new as [Hr Er].
    pose proof (f_predict_all (range_new input) true (get_productions_by_lhs pg start) Hr (mkTT [] [] []) (mkQ [] [])) as H.
    intros E E'. destruct (predict_all pg (range_new input) true (get_productions_by_lhs pg start) (mkTT [] [] []) (mkQ [] []))
      as [[tr q]| |]; cbn in E; try discriminate. injection E as <-.
    cbn [sim] in H. destruct H as [E2 [H2 _]].
    { split; [constructor|]. split; [intros [|i] t; discriminate|]. split; constructor. }
    change (f_tree (mkTT [] [] [])) with (mkTT [] [] []) in E2. rewrite Er in E2. rewrite E2 in E'. cbn in E'. injection E' as <-.
    exists st0, st0', (mkS tr q (mkCM [] [])). split; [reflexivity|]. split; [reflexivity|].
    split; [exact H2|]. split; constructor.
  Qed.

  Lemma corresponds_solo fuels : forall it it', corresponds it it' ->
    solo it' fuels = map (encode_outcome c) (solo it fuels).
  Proof.
    induction fuels as [|f fuels IH]; intros it it' H; cbn [solo map]; [reflexivity|].
    pose proof (corresponds_next f it it' H) as Hn.
    destruct (iter_next f it) as [[o it1]| |].
    - destruct Hn as (it1' & -> & H1). cbn [map]. rewrite (IH _ _ H1). destruct o; reflexivity.
    - rewrite Hn. cbn [map]. rewrite (IH _ _ H). reflexivity.
    - rewrite Hn. cbn [map]. rewrite (IH _ _ H). reflexivity.
  Qed.

  Lemma corresponds_produces it ts itf : produces it ts itf -> forall it', corresponds it it' ->
    exists itf', produces it' (map (map_leaves enc) ts) itf' /\ corresponds itf itf'.
  Proof.
    induction 1 as [it|it t it1 ts it2 fuel H1 H2 IH]; intros it' Hco.
    - exists it'. split; [constructor|assumption].
    - pose proof (corresponds_next fuel it it' Hco) as Hn. rewrite H1 in Hn.
      destruct Hn as (it1' & E & Hc1). destruct (IH _ Hc1) as (itf' & Hp & Hcf).
      exists itf'. split; [|assumption]. econstructor; eassumption.
  Qed.

  Lemma corresponds_exhausted it it' : corresponds it it' -> (exhausted it <-> exhausted it').
  Proof.
    intro Hco. split; intros (f & it1 & E); exists f; pose proof (corresponds_next f it it' Hco) as Hn.
    - rewrite E in Hn. destruct Hn as (it1' & E' & _). eauto.
    - destruct (iter_next f it) as [[[t|] it2]| |].
      + destruct Hn as (it1' & E' & _). rewrite E in E'. discriminate.
      + eauto.
      + congruence.
      + congruence.
  Qed.

  Lemma corresponds_diverges it it' : corresponds it it' -> (diverges it <-> diverges it').
  Proof.
    intro Hco. split; intros H f; specialize (H f); pose proof (corresponds_next f it it' Hco) as Hn.
    - rewrite H in Hn. assumption.
    - destruct (iter_next f it) as [[o it2]| |]; [|congruence|reflexivity].
      destruct Hn as (it1' & E' & _). congruence.
  Qed.

  Lemma corresponds_traversals it it' : corresponds it it' -> traversals it' = traversals it.
  Proof. intros (st0 & st0' & st & -> & -> & _). unfold traversals. cbn. apply map_length. Qed.
End Sim.

(** ** The tables of the encoded grammar *)
Lemma pg_push_map (k : expression -> expression) pg pg' l e :
  pg_prods pg' = map (fun x => (fst x, k (snd x))) (pg_prods pg) -> pg_by_lhs pg' = pg_by_lhs pg ->
  pg_prods (pg_push pg' (l, k e)) = map (fun x => (fst x, k (snd x))) (pg_prods (pg_push pg (l, e))) /\
  pg_by_lhs (pg_push pg' (l, k e)) = pg_by_lhs (pg_push pg (l, e)).
Proof.
  intros E1 E2. unfold pg_push. cbn [fst snd pg_prods pg_by_lhs]. rewrite E1, E2, map_app, map_length. split; reflexivity.
Qed.

Lemma pg_map (k : expression -> expression) ps : forall pg pg',
  pg_prods pg' = map (fun x => (fst x, k (snd x))) (pg_prods pg) -> pg_by_lhs pg' = pg_by_lhs pg ->
  pg_prods (fold_left pg_push (map (fun x => (fst x, k (snd x))) ps) pg') =
    map (fun x => (fst x, k (snd x))) (pg_prods (fold_left pg_push ps pg)) /\
  pg_by_lhs (fold_left pg_push (map (fun x => (fst x, k (snd x))) ps) pg') = pg_by_lhs (fold_left pg_push ps pg).
Proof.
  induction ps as [|[l e] ps IH]; intros pg pg' E1 E2; cbn [map fold_left fst snd]; [split; assumption|].
  destruct (pg_push_map k pg pg' l e E1 E2) as [F1 F2]. apply IH; assumption.
Qed.

Lemma opens_corresponds A c g start input it it' : prefix_code A c -> written_in A g -> Forall A input ->
  opens g start input it -> opens (map_terminals (encode c) g) start (encode c input) it' ->
  corresponds A c input (pg_new_unchecked g) (pg_new_unchecked (map_terminals (encode c) g)) it it' /\
  (forall l, get_productions_by_lhs (pg_new_unchecked (map_terminals (encode c) g)) l = get_productions_by_lhs (pg_new_unchecked g) l) /\
  (forall id, match nth_error (pg_prods (pg_new_unchecked g)) id with
    | Some (l, e) => nth_error (pg_prods (pg_new_unchecked (map_terminals (encode c) g))) id = Some (l, map (on_terminal (encode c)) e) /\
        Forall (okterm A) e
    | None => nth_error (pg_prods (pg_new_unchecked (map_terminals (encode c) g))) id = None
    end).
Proof.
  intros Hc Hg Hin Ho Ho'.
  destruct (pg_map (map (on_terminal (encode c))) (flat_prods g) (mkPG [] []) (mkPG [] []) eq_refl eq_refl) as [E1 E2].
  assert (Hby : forall l, get_productions_by_lhs (pg_new_unchecked (map_terminals (encode c) g)) l = get_productions_by_lhs (pg_new_unchecked g) l).
  { intro l. unfold get_productions_by_lhs, pg_new_unchecked. rewrite flat_prods_map.
    exact (f_equal (fun m => match hm_get term_eqb m l with Some v => v | None => [] end) E2). }
  assert (Hpr : forall id, match nth_error (pg_prods (pg_new_unchecked g)) id with
    | Some (l, e) => nth_error (pg_prods (pg_new_unchecked (map_terminals (encode c) g))) id = Some (l, map (on_terminal (encode c)) e) /\
        Forall (okterm A) e
    | None => nth_error (pg_prods (pg_new_unchecked (map_terminals (encode c) g))) id = None
    end).
  { intro id. assert (E3 : pg_prods (pg_new_unchecked (map_terminals (encode c) g)) =
      map (fun x => (fst x, map (on_terminal (encode c)) (snd x))) (pg_prods (pg_new_unchecked g)))
      by (unfold pg_new_unchecked; rewrite flat_prods_map; exact E1).
    destruct (nth_error (pg_prods (pg_new_unchecked g)) id) as [[l e]|] eqn:E; rewrite E3.
    2:{ apply nth_error_None. rewrite map_length. apply nth_error_None. exact E. }
    split; [exact (map_nth_error (fun x : term * expression => (fst x, map (on_terminal (encode c)) (snd x))) id _ E)|].
    rewrite (proj2 (pg_new_unchecked_ok g)) in E. apply nth_error_In in E. unfold flat_prods in E. apply in_flat_map in E.
    destruct E as (p & Hp & E). apply in_map_iff in E. destruct E as (e0 & E & He). injection E as <- <-.
    apply Forall_forall. intros [s|n] Hs; [|exact I]. exact (Hg p e0 s Hp He Hs). }
  split; [|split; assumption]. apply opens_inv in Ho, Ho'. destruct Ho as (st0 & _ & Ho). destruct Ho' as (st0' & _ & Ho').
  eapply corresponds_new; eassumption.
Qed.
