(** Proofs about the data structures of the parser. *)
From Verif Require Import StructSpec ParseGrammarProofs EarleyInv EarleyTree EarleyMain.
From Coq Require Import Lia Sorting.Sorted.

(** ** First occurrences *)

Section Firsts.
  Context {A : Type} (eqb : A -> A -> bool) (Heqb : forall a b, eqb a b = true <-> a = b).

  Lemma firsts_snoc l x : firsts eqb (l ++ [x]) = if memb eqb x (firsts eqb l) then firsts eqb l else firsts eqb l ++ [x].
  Proof. unfold firsts. rewrite fold_left_app. reflexivity. Qed.

  Lemma firsts_In l x : In x (firsts eqb l) <-> In x l.
  Proof.
    induction l as [|y l IH] using rev_ind; [reflexivity|]. rewrite firsts_snoc. destruct (memb eqb y (firsts eqb l)) eqn:E.
    - apply (memb_In eqb Heqb) in E. rewrite in_app_iff, IH. cbn. split; [auto|]. intros [H|[<-|[]]]; [exact H|]. apply IH, E.
    - rewrite !in_app_iff, IH. reflexivity.
  Qed.

  Lemma firsts_NoDup l : NoDup (firsts eqb l).
  Proof.
    induction l as [|y l IH] using rev_ind; [constructor|]. rewrite firsts_snoc. destruct (memb eqb y (firsts eqb l)) eqn:E; [exact IH|].
    apply NoDup_snoc; [exact IH|]. intro H. apply (memb_In eqb Heqb) in H. congruence.
  Qed.

  Lemma firsts_prefix l m : exists r, firsts eqb (l ++ m) = firsts eqb l ++ r.
  Proof.
    induction m as [|y m IH] using rev_ind; [exists []; rewrite !app_nil_r; reflexivity|]. destruct IH as [r E].
    rewrite app_assoc, firsts_snoc, E. destruct (memb eqb y _); [exists r; reflexivity|]. exists (r ++ [y]). rewrite app_assoc. reflexivity.
  Qed.
End Firsts.

(** ** The table of productions *)

Lemma by_lhs_push pg x l : get_productions_by_lhs (pg_push pg x) l =
  get_productions_by_lhs pg l ++ (if term_eqb (fst x) l then [length (pg_prods pg)] else []).
Proof.
  unfold get_productions_by_lhs, pg_push. cbn [pg_by_lhs]. destruct (term_eqb (fst x) l) eqn:E.
  - apply term_eqb_eq in E. subst l. unfold hm_insert. cbn [hm_get]. rewrite term_eqb_refl. reflexivity.
  - unfold hm_insert. cbn [hm_get]. rewrite E, app_nil_r. reflexivity.
Qed.

Lemma by_lhs_ids ps l : get_productions_by_lhs (fold_left pg_push ps (mkPG [] [])) l =
  filter (fun id => match nth_error ps id with Some x => term_eqb (fst x) l | None => false end) (seq 0 (length ps)).
Proof.
  induction ps as [|x ps IH] using rev_ind; [reflexivity|]. rewrite fold_left_app, app_length, Nat.add_comm. cbn [fold_left length Nat.add].
  rewrite by_lhs_push, IH, seq_S, filter_app. cbn [filter Nat.add]. rewrite (nth_error_app2 ps [x]) by lia. rewrite Nat.sub_diag. cbn [nth_error].
  destruct (fold_pg_push ps (mkPG [] []) pg_empty_ok) as [_ ->]. cbn [pg_prods app]. f_equal.
  apply filter_ext_in. intros a Ha. apply in_seq in Ha. rewrite nth_error_app1 by lia. reflexivity.
Qed.

Lemma table_spec g :
  (forall id x, get_production_by_id (pg_new_unchecked g) id = Ok x <-> nth_error (flat_prods g) id = Some x) /\
  (forall id, length (flat_prods g) <= id -> get_production_by_id (pg_new_unchecked g) id = Panic) /\
  (forall l, get_productions_by_lhs (pg_new_unchecked g) l =
     filter (fun id => match nth_error (flat_prods g) id with Some x => term_eqb (fst x) l | None => false end) (seq 0 (length (flat_prods g)))).
Proof.
  unfold get_production_by_id. rewrite (proj2 (pg_new_unchecked_ok g)). split; [|split].
  - intros id x. destruct (nth_error (flat_prods g) id) as [y|]; cbn; split; intro H; congruence.
  - intros id H. apply nth_error_None in H. rewrite H. reflexivity.
  - intro l. apply by_lhs_ids.
Qed.

(** ** The window *)

Lemma shows_new s : shows (range_new s) [] [] s.
Proof. reflexivity. Qed.

Lemma window_next r a b c : shows r a b c -> range_next r = c.
Proof.
  intros ->. unfold range_next. cbn. rewrite <- byte_len_app, app_assoc, str_get_from_app. reflexivity.
Qed.

Lemma window_after r a b c : shows r a b c -> shows (range_after r) (a ++ b) [] c.
Proof. intros ->. unfold shows, range_after. cbn. rewrite byte_len_app, <- app_assoc. reflexivity. Qed.

Lemma window_advance r a b s c : shows r a b (s ++ c) -> exists r', advance_by r (byte_len s) = Ok r' /\ shows r' a (b ++ s) c.
Proof.
  intros ->. unfold advance_by. cbn [r_input r_start r_len]. rewrite !byte_len_app.
  destruct (Nat.ltb_spec (byte_len a + (byte_len b + (byte_len s + byte_len c))) (byte_len a)); [lia|].
  eexists. split; [reflexivity|]. unfold shows. rewrite byte_len_app, <- app_assoc. f_equal. lia.
Qed.

Lemma window_clamp r a b c step : shows r a b c -> byte_len c <= step -> exists r', advance_by r step = Ok r' /\ shows r' a (b ++ c) [].
Proof.
  intros -> H. unfold advance_by. cbn [r_input r_start r_len]. rewrite !byte_len_app.
  destruct (Nat.ltb_spec (byte_len a + (byte_len b + byte_len c)) (byte_len a)); [lia|].
  eexists. split; [reflexivity|]. unfold shows. rewrite byte_len_app, app_nil_r. f_equal. lia.
Qed.

Lemma window_torn r a b c step : shows r a b c -> step <= byte_len c -> (forall s t, c = s ++ t -> byte_len s <> step) ->
  exists r', advance_by r step = Ok r' /\ range_next r' = [].
Proof.
  intros -> H Hno. unfold advance_by. cbn [r_input r_start r_len]. rewrite !byte_len_app.
  destruct (Nat.ltb_spec (byte_len a + (byte_len b + byte_len c)) (byte_len a)); [lia|].
  eexists. split; [reflexivity|]. unfold range_next. cbn [r_input r_start r_len].
  destruct (str_get_from _ _) as [t|] eqn:E; [exfalso|reflexivity]. apply str_get_from_inv in E. destruct E as (u & E & Hl).
  rewrite app_assoc in E. replace (Nat.min _ _) with (byte_len b + step) in Hl by lia.
  assert (Hu : exists v, u = (a ++ b) ++ v).
  { clear Hno H. revert Hl E. rewrite Nat.add_assoc, <- byte_len_app. generalize (a ++ b) as p. clear. intros p. revert u.
    induction p as [|x p IH]; intros [|y u] Hl E; cbn in *; try (eexists; reflexivity).
    - pose proof (utf8_len_pos x). lia.
    - injection E as -> E. destruct (IH u) as [v ->]; [lia|exact E|]. exists v. reflexivity. }
  destruct Hu as [v ->]. rewrite <- !app_assoc in E. do 2 apply app_inv_head in E. apply (Hno v t E).
  rewrite !byte_len_app in Hl. lia.
Qed.

Lemma window_complete r a b c : shows r a b c -> (is_complete r = true <-> a = [] /\ c = []).
Proof.
  intros ->. unfold is_complete. cbn [r_input r_start r_len]. rewrite !byte_len_app, Bool.andb_true_iff, !Nat.eqb_eq. split.
  - intros [H1 H2]. split; apply byte_len_0; lia.
  - intros [-> ->]. cbn. lia.
Qed.

(** ** The tree of traversals *)

Lemma tree_key_eqb_eq a b : tree_key_eqb a b = true <-> a = b.
Proof.
  destruct a, b; cbn [tree_key_eqb]; try (split; discriminate).
  - rewrite troot_eqb_eq. split; intro H; injection H as -> ->; reflexivity.
  - rewrite tedge_eqb_eq. split; intro H; injection H as -> ->; reflexivity.
Qed.

Notation fk := (firsts tree_key_eqb).

Record tree_inv (ops : list tree_op) (tr : ttree) : Prop := {
  v_len : length (tt_arena tr) = length (fk (map key_of ops));
  v_roots : forall pid pos id, hm_get troot_eqb (tt_roots tr) (pid, pos) = Some id <-> nth_error (fk (map key_of ops)) id = Some (KRoot pid pos);
  v_edges : forall m par id, hm_get tedge_eqb (tt_edges tr) (m, par) = Some id <-> nth_error (fk (map key_of ops)) id = Some (KEdge m par);
  v_stored : forall id t k, nth_error (tt_arena tr) id = Some t -> nth_error (fk (map key_of ops)) id = Some k -> stored ops (tt_arena tr) id t k
}.

Lemma stored_mono ops arena id t k o x : stored ops arena id t k -> stored (ops ++ [o]) (arena ++ [x]) id t k.
Proof.
  intros [Hid H]. split; [exact Hid|]. destruct k as [pid pos|m par].
  - destruct H as (ops1 & range & rhs & st & ops2 & -> & Hp & Hn & Ht). exists ops1, range, rhs, st, (ops2 ++ [o]).
    split; [rewrite <- app_assoc; reflexivity|]. auto.
  - destruct H as (Hlt & Hf & tp & y & Hn & Hu & Hpid & Hst & Hm). split; [exact Hlt|]. split; [exact Hf|]. exists tp, y.
    split; [apply nth_error_ext, Hn|]. split; [exact Hu|]. split; [exact Hpid|]. split; [exact Hst|].
    destruct m as [s|c]; [exact Hm|]. destruct Hm as (Hc & tc & Htc & Ha). split; [exact Hc|]. exists tc. split; [apply nth_error_ext, Htc|exact Ha].
Qed.

Lemma stored_same ops arena id t k o : stored ops arena id t k -> stored (ops ++ [o]) arena id t k.
Proof.
  intros [Hid H]. split; [exact Hid|]. destruct k as [pid pos|m par]; [|exact H].
  destruct H as (ops1 & range & rhs & st & ops2 & -> & Hp & Hn & Ht). exists ops1, range, rhs, st, (ops2 ++ [o]).
  split; [rewrite <- app_assoc; reflexivity|]. auto.
Qed.

Lemma tree_inv_empty : tree_inv [] empty_tree.
Proof.
  split; cbn; intros; try (split; [discriminate|]); try (destruct id; discriminate). reflexivity.
Qed.

Lemma inv_old ops tr o id : tree_inv ops tr -> nth_error (fk (map key_of ops)) id = Some (key_of o) -> tree_inv (ops ++ [o]) tr.
Proof.
  intros HI Hk. assert (E : fk (map key_of (ops ++ [o])) = fk (map key_of ops)).
  { rewrite map_app. cbn [map]. rewrite firsts_snoc. apply nth_error_In in Hk. apply (memb_In _ tree_key_eqb_eq) in Hk. rewrite Hk. reflexivity. }
  destruct HI as [H1 H2 H3 H4]. split; rewrite ?E; try assumption. intros i t k Ht Hi. apply stored_same, H4; assumption.
Qed.

Lemma inv_new ops tr o t roots edges : tree_inv ops tr -> ~ In (key_of o) (fk (map key_of ops)) ->
  stored (ops ++ [o]) (tt_arena tr) (length (tt_arena tr)) t (key_of o) ->
  (forall pid pos id, hm_get troot_eqb roots (pid, pos) = Some id <->
     hm_get troot_eqb (tt_roots tr) (pid, pos) = Some id \/ KRoot pid pos = key_of o /\ id = length (tt_arena tr)) ->
  (forall m par id, hm_get tedge_eqb edges (m, par) = Some id <->
     hm_get tedge_eqb (tt_edges tr) (m, par) = Some id \/ KEdge m par = key_of o /\ id = length (tt_arena tr)) ->
  tree_inv (ops ++ [o]) (mkTT (tt_arena tr ++ [t]) roots edges).
Proof.
  intros [H1 H2 H3 H4] Hk Hs Hr He. assert (E : fk (map key_of (ops ++ [o])) = fk (map key_of ops) ++ [key_of o]).
  { rewrite map_app. cbn [map]. rewrite firsts_snoc. destruct (memb _ _ _) eqn:M; [|reflexivity]. apply (memb_In _ tree_key_eqb_eq) in M. contradiction. }
  split; rewrite ?E; cbn [tt_arena tt_roots tt_edges].
  - rewrite !app_length, H1. reflexivity.
  - intros pid pos id. rewrite Hr, H2, nth_error_snoc, <- H1. split; (intros [H|[H H']]; [left; exact H|right; split; congruence]).
  - intros m par id. rewrite He, H3, nth_error_snoc, <- H1. split; (intros [H|[H H']]; [left; exact H|right; split; congruence]).
  - intros id u k Hu Hi. apply nth_error_snoc in Hu. apply nth_error_snoc in Hi. rewrite <- H1 in Hi. destruct Hu as [Hu|[-> Hu]], Hi as [Hi|[E' Hi]].
    + apply stored_mono, H4; assumption.
    + exfalso. apply nth_error_lt in Hu. lia.
    + exfalso. apply nth_error_lt in Hi. lia.
    + subst u k. destruct Hs as [Hid Hs]. split; [exact Hid|]. destruct (key_of o) as [pid pos|m par]; [exact Hs|].
      destruct Hs as (Hlt & Hf & tp & y & Hn & Hrest & Hpid & Hst & Hm). split; [exact Hlt|]. split; [exact Hf|]. exists tp, y.
      split; [apply nth_error_ext, Hn|]. split; [exact Hrest|]. split; [exact Hpid|]. split; [exact Hst|].
      destruct m as [s|c]; [exact Hm|]. destruct Hm as (Hc & tc & Htc & Ha). split; [exact Hc|]. exists tc. split; [apply nth_error_ext, Htc|exact Ha].
Qed.

Lemma tree_step_inv ops tr o id tr' : tree_inv ops tr -> tree_step tr o = Ok (id, tr') ->
  tree_inv (ops ++ [o]) tr' /\ nth_error (fk (map key_of (ops ++ [o]))) id = Some (key_of o) /\
  exists more, tt_arena tr' = tt_arena tr ++ more.
Proof.
  intros HI H. assert (Hin : forall i, nth_error (fk (map key_of ops)) i = Some (key_of o) -> nth_error (fk (map key_of (ops ++ [o]))) i = Some (key_of o)).
  { intros i Hi. rewrite map_app. destruct (firsts_prefix tree_key_eqb (map key_of ops) (map key_of [o])) as [r ->]. apply nth_error_ext, Hi. }
  assert (Hnew : ~ In (key_of o) (fk (map key_of ops)) -> nth_error (fk (map key_of (ops ++ [o]))) (length (tt_arena tr)) = Some (key_of o)).
  { intro Hn. rewrite map_app. cbn [map]. rewrite firsts_snoc. destruct (memb _ _ _) eqn:M; [apply (memb_In _ tree_key_eqb_eq) in M; contradiction|].
    apply nth_error_snoc. right. split; [apply (v_len _ _ HI)|reflexivity]. }
  destruct o as [range pid rhs starting|parent m]; cbn [tree_step] in H.
  - injection H as H. unfold tt_predict in H. unfold total_len in H.
    destruct (hm_get troot_eqb (tt_roots tr) (pid, r_start range + r_len range)) as [i|] eqn:E.
    + injection H as <- <-. apply (v_roots _ _ HI) in E. split; [eapply inv_old; [exact HI|exact E]|]. split; [apply Hin, E|]. exists []. rewrite app_nil_r. reflexivity.
    + injection H as <- <-. assert (Hk : ~ In (key_of (Predict range pid rhs starting)) (fk (map key_of ops))).
      { intro Hi. apply In_nth_error in Hi. destruct Hi as [i Hi]. apply (v_roots _ _ HI) in Hi. congruence. }
      split; [|split; [apply Hnew, Hk|eexists; reflexivity]]. apply inv_new; [exact HI|exact Hk| | |].
      * split; [reflexivity|]. cbn [key_of]. exists ops, range, rhs, starting, []. split; [reflexivity|]. split; [reflexivity|].
        split; [|reflexivity]. intro Hi. apply Hk. apply (firsts_In _ tree_key_eqb_eq). exact Hi.
      * intros p x i. cbn [key_of]. unfold hm_insert. cbn [hm_get]. destruct (troot_eqb (pid, r_start range + r_len range) (p, x)) eqn:T.
        -- apply troot_eqb_eq in T. injection T as <- <-. rewrite E. split; [intro Q; injection Q as <-; auto|]. intros [Q|[_ ->]]; [discriminate|reflexivity].
        -- split; [auto|]. intros [Q|[Q _]]; [exact Q|]. injection Q as -> ->. rewrite (proj2 (troot_eqb_eq _ _) eq_refl) in T. discriminate.
      * intros m p i. split; [auto|]. intros [Q|[Q _]]; [exact Q|discriminate].
  - unfold tt_match_term in H. destruct (nth_error (tt_arena tr) parent) as [tp|] eqn:Ep; [|discriminate]. cbn [expect rbind] in H.
    assert (Hpid : t_id tp = parent).
    { destruct (nth_error (fk (map key_of ops)) parent) as [k|] eqn:Ek; [exact (proj1 (v_stored _ _ HI _ _ _ Ep Ek))|].
      apply nth_error_None in Ek. rewrite <- (v_len _ _ HI) in Ek. apply nth_error_lt in Ep. lia. }
    rewrite Hpid in H. clear Hpid.
    set (rg := match m with MTerminal s => _ | MNonterminal _ => _ end) in H.
    destruct rg as [range| |] eqn:Er; cbn [rbind] in H; try discriminate.
    destruct (t_unmatched tp) as [|x rest] eqn:Eu; cbn [rbind] in H; [discriminate|].
    destruct (hm_get tedge_eqb (tt_edges tr) (m, parent)) as [i|] eqn:E.
    + injection H as <- <-. apply (v_edges _ _ HI) in E. split; [eapply inv_old; [exact HI|exact E]|]. split; [apply Hin, E|]. exists []. rewrite app_nil_r. reflexivity.
    + injection H as <- <-. assert (Hk : ~ In (key_of (Match parent m)) (fk (map key_of ops))).
      { intro Hi. apply In_nth_error in Hi. destruct Hi as [i Hi]. apply (v_edges _ _ HI) in Hi. congruence. }
      split; [|split; [apply Hnew, Hk|eexists; reflexivity]]. apply inv_new; [exact HI|exact Hk| | |].
      * split; [reflexivity|]. cbn [key_of]. split; [eapply nth_error_lt; exact Ep|]. split; [reflexivity|]. exists tp, x. split; [exact Ep|]. split; [exact Eu|].
        split; [reflexivity|]. split; [reflexivity|]. cbn [t_range]. subst rg. destruct m as [s|c]; [exact Er|].
        destruct (nth_error (tt_arena tr) c) as [tc|] eqn:Ec; [|discriminate]. cbn [expect rbind] in Er. split; [eapply nth_error_lt; exact Ec|]. exists tc. auto.
      * intros p y i. split; [auto|]. intros [Q|[Q _]]; [exact Q|discriminate].
      * intros n p i. cbn [key_of]. unfold hm_insert. cbn [hm_get]. destruct (tedge_eqb (m, parent) (n, p)) eqn:T.
        -- apply tedge_eqb_eq in T. injection T as <- <-. rewrite E. split; [intro Q; injection Q as <-; auto|]. intros [Q|[_ ->]]; [discriminate|reflexivity].
        -- split; [auto|]. intros [Q|[Q _]]; [exact Q|]. injection Q as -> ->. rewrite (proj2 (tedge_eqb_eq _ _) eq_refl) in T. discriminate.
Qed.

Lemma tree_run_inv ops : forall done tr ids tr', tree_inv done tr -> tree_run ops tr = Ok (ids, tr') ->
  tree_inv (done ++ ops) tr' /\ Forall2 (fun o id => nth_error (fk (map key_of (done ++ ops))) id = Some (key_of o)) ops ids /\
  exists more, tt_arena tr' = tt_arena tr ++ more.
Proof.
  induction ops as [|o ops IH]; intros done tr ids tr' HI H; cbn [tree_run] in H.
  - injection H as <- <-. rewrite app_nil_r. split; [exact HI|]. split; [constructor|]. exists []. rewrite app_nil_r. reflexivity.
  - destruct (tree_step tr o) as [[id tr1]| |] eqn:Eo; cbn [rbind] in H; try discriminate.
    destruct (tree_run ops tr1) as [[ids1 tr2]| |] eqn:E1; cbn [rbind] in H; try discriminate. injection H as <- <-.
    destruct (tree_step_inv _ _ _ _ _ HI Eo) as (HI1 & Hid & more1 & Em1). destruct (IH _ _ _ _ HI1 E1) as (HI2 & HF & more2 & Em2).
    rewrite <- app_assoc in HI2, HF. split; [exact HI2|]. split.
    + constructor; [|exact HF]. rewrite map_app. change (o :: ops) with ([o] ++ ops). rewrite map_app, app_assoc, <- map_app.
      destruct (firsts_prefix tree_key_eqb (map key_of (done ++ [o])) (map key_of ops)) as [r ->]. apply nth_error_ext, Hid.
    + exists (more1 ++ more2). rewrite Em2, Em1, app_assoc. reflexivity.
Qed.

Lemma inv_key ops tr id t : tree_inv ops tr -> nth_error (tt_arena tr) id = Some t ->
  exists k, nth_error (fk (map key_of ops)) id = Some k /\ stored ops (tt_arena tr) id t k.
Proof.
  intros HI Ht. destruct (nth_error (fk (map key_of ops)) id) as [k|] eqn:Ek.
  - exists k. split; [reflexivity|]. exact (v_stored _ _ HI _ _ _ Ht Ek).
  - apply nth_error_None in Ek. rewrite <- (v_len _ _ HI) in Ek. apply nth_error_lt in Ht. lia.
Qed.

Lemma inv_path ops tr : tree_inv ops tr -> forall id t, nth_error (tt_arena tr) id = Some t ->
  exists r l, path tr r id l /\
  exists range rhs0 starting, length rhs0 = length l /\ In (Predict range (t_pid t) (rhs0 ++ t_unmatched t) starting) ops.
Proof.
  intros HI. induction id as [id IH] using (well_founded_induction lt_wf). intros t Ht.
  destruct (inv_key _ _ _ _ HI Ht) as (k & _ & _ & Hs). destruct k as [pid pos|m par].
  - destruct Hs as (ops1 & range & rhs & st & ops2 & -> & _ & _ & ->). exists id, []. split; [econstructor; [exact Ht|reflexivity]|].
    exists range, [], st. split; [reflexivity|]. apply in_elt.
  - destruct Hs as (Hlt & Hf & tp & x & Hn & Hu & Hpid & _). destruct (IH par Hlt tp Hn) as (r & l & Hp & range & rhs0 & st & Hl & Hin).
    exists r, (l ++ [(id, m)]). split; [econstructor; eassumption|]. exists range, (rhs0 ++ [x]), st. rewrite !app_length. split; [cbn; lia|].
    rewrite <- app_assoc. cbn [app]. rewrite <- Hu, Hpid. exact Hin.
Qed.

Lemma path_matched tr r id l : path tr r id l -> get_matched tr id = Ok (map snd l).
Proof.
  intro Hp. assert (Hlt : id < length (tt_arena tr)) by (inversion Hp; subst; eapply nth_error_lt; eassumption).
  unfold get_matched. cbv zeta. rewrite (match_iter_root_ok _ _ _ _ _ Hp) by lia. rewrite rbind_Ok.
  apply (match_iter_all_ok tr r id) with (l1 := []); [lia|assumption|]. apply path_length in Hp. lia.
Qed.

Lemma path_extends tr tr' more r id l : tt_arena tr' = tt_arena tr ++ more -> path tr r id l -> path tr' r id l.
Proof.
  intros E. induction 1; [econstructor; [rewrite E; apply nth_error_ext; eassumption|assumption]|].
  econstructor; [rewrite E; apply nth_error_ext; eassumption|eassumption|assumption|assumption].
Qed.

Lemma tree_ids ops ids tr : tree_run ops empty_tree = Ok (ids, tr) ->
  length (tt_arena tr) = length (fk (map key_of ops)) /\
  Forall2 (fun o id => nth_error (fk (map key_of ops)) id = Some (key_of o)) ops ids.
Proof.
  intro H. destruct (tree_run_inv _ _ _ _ _ tree_inv_empty H) as (HI & HF & _). split; [exact (v_len _ _ HI)|exact HF].
Qed.

Lemma tree_same ops ids tr i j o o' a b : tree_run ops empty_tree = Ok (ids, tr) ->
  nth_error ops i = Some o -> nth_error ids i = Some a -> nth_error ops j = Some o' -> nth_error ids j = Some b ->
  (a = b <-> key_of o = key_of o').
Proof.
  intros H Ho Ha Ho' Hb. destruct (tree_ids _ _ _ H) as [_ HF].
  assert (P : forall i o a, nth_error ops i = Some o -> nth_error ids i = Some a -> nth_error (fk (map key_of ops)) a = Some (key_of o)).
  { clear - HF. generalize dependent (fk (map key_of ops)). intros ks HF. induction HF as [|x y ops ids Hxy _ IH]; intros [|i] o a Ho Ha; cbn in *; try discriminate.
    - injection Ho as <-. injection Ha as <-. exact Hxy.
    - eapply IH; eassumption. }
  pose proof (P _ _ _ Ho Ha) as E1. pose proof (P _ _ _ Ho' Hb) as E2. split.
  - intros <-. congruence.
  - intro E. rewrite <- E in E2. eapply nth_error_NoDup; [apply (firsts_NoDup _ tree_key_eqb_eq)|exact E1|exact E2].
Qed.

Lemma tree_contents ops ids tr id t : tree_run ops empty_tree = Ok (ids, tr) -> tt_get tr id = Ok t ->
  exists k, nth_error (fk (map key_of ops)) id = Some k /\ stored ops (tt_arena tr) id t k.
Proof.
  intros H Ht. unfold tt_get in Ht. destruct (nth_error (tt_arena tr) id) as [t'|] eqn:E; [|discriminate]. injection Ht as ->.
  destruct (tree_run_inv _ _ _ _ _ tree_inv_empty H) as (HI & _ & _). exact (inv_key _ _ _ _ HI E).
Qed.

Lemma tree_matched ops ids tr id t : tree_run ops empty_tree = Ok (ids, tr) -> tt_get tr id = Ok t ->
  exists ms, get_matched tr id = Ok ms /\
    match t_from t with
    | None => ms = []
    | Some (m, par) => exists ms', get_matched tr par = Ok ms' /\ ms = ms' ++ [m]
    end /\
    exists range rhs0 starting, length rhs0 = length ms /\ In (Predict range (t_pid t) (rhs0 ++ t_unmatched t) starting) ops.
Proof.
  intros H Ht. unfold tt_get in Ht. destruct (nth_error (tt_arena tr) id) as [t'|] eqn:E; [|discriminate]. injection Ht as ->.
  destruct (tree_run_inv _ _ _ _ _ tree_inv_empty H) as (HI & _ & _). cbn [app] in HI.
  destruct (inv_path _ _ HI _ _ E) as (r & l & Hp & range & rhs0 & st & Hl & Hin). exists (map snd l). split; [eapply path_matched, Hp|]. split.
  - inversion Hp as [i t0 Et Ef|r' par i m t0 l' Et Ef Hlt Hp']; subst; rewrite E in Et; injection Et as <-; rewrite Ef; [reflexivity|].
    exists (map snd l'). split; [eapply path_matched, Hp'|]. rewrite map_app. reflexivity.
  - exists range, rhs0, st. rewrite map_length. auto.
Qed.

Lemma tree_run_app ops1 ops2 tr : tree_run (ops1 ++ ops2) tr =
  (let* (ids1, tr1) := tree_run ops1 tr in let* (ids2, tr2) := tree_run ops2 tr1 in Ok (ids1 ++ ids2, tr2)).
Proof.
  revert tr. induction ops1 as [|o ops1 IH]; intro tr; cbn [app tree_run].
  - cbn [rbind]. destruct (tree_run ops2 tr) as [[ids tr2]| |]; reflexivity.
  - destruct (tree_step tr o) as [[id tr1]| |]; cbn [rbind]; [|reflexivity|reflexivity]. rewrite IH.
    destruct (tree_run ops1 tr1) as [[ids1 tr2]| |]; cbn [rbind]; [|reflexivity|reflexivity].
    destruct (tree_run ops2 tr2) as [[ids2 tr3]| |]; cbn [rbind]; reflexivity.
Qed.

Lemma tree_append_only ops1 ops2 ids tr : tree_run (ops1 ++ ops2) empty_tree = Ok (ids, tr) ->
  exists ids1 tr1, tree_run ops1 empty_tree = Ok (ids1, tr1) /\ firstn (length ids1) ids = ids1 /\
  forall id t, tt_get tr1 id = Ok t -> tt_get tr id = Ok t /\ get_matched tr id = get_matched tr1 id.
Proof.
  rewrite tree_run_app. destruct (tree_run ops1 empty_tree) as [[ids1 tr1]| |] eqn:E1; cbn [rbind]; try discriminate.
  destruct (tree_run ops2 tr1) as [[ids2 tr2]| |] eqn:E2; cbn [rbind]; try discriminate. intro H. injection H as <- <-.
  exists ids1, tr1. split; [reflexivity|]. split; [rewrite firstn_app, firstn_all, Nat.sub_diag; cbn; apply app_nil_r|].
  destruct (tree_run_inv _ _ _ _ _ tree_inv_empty E1) as (HI1 & _ & _). cbn [app] in HI1.
  destruct (tree_run_inv _ _ _ _ _ HI1 E2) as (_ & _ & more & Em). intros id t Ht. unfold tt_get in *.
  destruct (nth_error (tt_arena tr1) id) as [t'|] eqn:E; [|discriminate]. injection Ht as ->. rewrite Em, (nth_error_ext _ _ _ _ E). split; [reflexivity|].
  destruct (inv_path _ _ HI1 _ _ E) as (r & l & Hp & _). rewrite (path_matched _ _ _ _ Hp). eapply path_matched, path_extends; [exact Em|exact Hp].
Qed.

(** When an operation fails. *)
Lemma tree_panics tr :
  (forall range pid rhs starting, exists r, tree_step tr (Predict range pid rhs starting) = Ok r) /\
  forall parent m, ((exists r, tree_step tr (Match parent m) = Ok r) <->
     exists t, tt_get tr parent = Ok t /\ t_unmatched t <> [] /\ r_start (t_range t) <= byte_len (r_input (t_range t)) /\
       match m with MTerminal _ => True | MNonterminal c => c < length (tt_arena tr) end) /\
    tree_step tr (Match parent m) <> OutOfFuel.
Proof.
  split; [intros; eexists; reflexivity|]. intros parent m. cbn [tree_step]. unfold tt_match_term, tt_get.
  destruct (nth_error (tt_arena tr) parent) as [t|] eqn:E; cbn [expect rbind].
  2:{ split; [|discriminate]. split; [intros [r H]; discriminate|intros (t & H & _); discriminate]. }
  assert (A : forall n, advance_by (t_range t) n <> OutOfFuel /\ ((exists r, advance_by (t_range t) n = Ok r) <-> r_start (t_range t) <= byte_len (r_input (t_range t)))).
  { intro n. unfold advance_by. destruct (Nat.ltb_spec (byte_len (r_input (t_range t))) (r_start (t_range t))).
    - split; [discriminate|]. split; [intros [r H']; discriminate|lia].
    - split; [discriminate|]. split; [intros; lia|eauto]. }
  set (rg := match m with MTerminal s => _ | MNonterminal _ => _ end).
  assert (R : rg <> OutOfFuel /\ ((exists r, rg = Ok r) <-> r_start (t_range t) <= byte_len (r_input (t_range t)) /\ match m with MTerminal _ => True | MNonterminal c => c < length (tt_arena tr) end)).
  { subst rg. destruct m as [s|c]; [destruct (A (byte_len s)) as [A1 A2]; split; [exact A1|tauto]|].
    destruct (nth_error (tt_arena tr) c) as [tc|] eqn:Ec; cbn [expect rbind].
    - destruct (A (r_len (t_range tc))) as [A1 A2]. split; [exact A1|]. assert (c < length (tt_arena tr)) by (apply nth_error_Some; congruence). tauto.
    - split; [discriminate|]. apply nth_error_None in Ec. split; [intros [r H]; discriminate|intros [_ H]; lia]. }
  destruct R as [R1 R2]. destruct rg as [r| |]; cbn [rbind].
  - destruct (t_unmatched t) as [|x rest] eqn:Eu.
    + split; [|discriminate]. split; [intros [? H]; discriminate|]. intros (t' & H & H' & _). injection H as <-. congruence.
    + split; [|destruct (hm_get _ _ _); discriminate]. split.
      * intros _. exists t. split; [reflexivity|]. rewrite Eu. split; [discriminate|]. apply R2. eauto.
      * intros _. destruct (hm_get _ _ _) as [old|]; eexists; reflexivity.
  - split; [|discriminate]. split; [intros [? H]; discriminate|]. intros (t' & H & _ & H'). injection H as <-. apply R2 in H'. destruct H'. discriminate.
  - contradiction R1. reflexivity.
Qed.

(** ** The queue *)

Notation add := (fun seen x => if memb Nat.eqb x seen then seen else seen ++ [x]).

Lemma memb_rev x l : memb Nat.eqb x (rev l) = memb Nat.eqb x l.
Proof.
  destruct (memb Nat.eqb x l) eqn:E.
  - apply (memb_In _ Nat.eqb_eq) in E. apply (memb_In _ Nat.eqb_eq). rewrite <- in_rev. exact E.
  - destruct (memb Nat.eqb x (rev l)) eqn:E'; [|reflexivity]. apply (memb_In _ Nat.eqb_eq) in E'. rewrite <- in_rev in E'.
    apply (memb_In _ Nat.eqb_eq) in E'. congruence.
Qed.

Lemma queue_run_inv ops : forall s q out q', q_processed q = rev s -> queue_run ops q = (out, q') ->
  exists new, fold_left add (pushes ops) s = s ++ new /\ q_processed q' = rev (s ++ new) /\ popped out ++ q_queue q' = q_queue q ++ new.
Proof.
  induction ops as [|[id|] ops IH]; intros s q out q' Hq H; cbn [queue_run] in H.
  - injection H as <- <-. exists []. rewrite !app_nil_r. auto.
  - cbn [pushes flat_map app fold_left]. change (flat_map _ ops) with (pushes ops). unfold q_push in H. rewrite Hq, memb_rev in H.
    destruct (memb Nat.eqb id s) eqn:E; [exact (IH _ _ _ _ Hq H)|].
    assert (Hs : id :: rev s = rev (s ++ [id])) by (rewrite rev_app_distr; reflexivity).
    destruct (IH (s ++ [id]) (mkQ (id :: rev s) (q_queue q ++ [id])) _ _ Hs H) as (new & E1 & E2 & E3).
    exists (id :: new). rewrite <- app_assoc in E1, E2. cbn [q_queue] in E3. rewrite <- app_assoc in E3. auto.
  - cbn [pushes flat_map app]. change (flat_map _ ops) with (pushes ops). destruct (q_queue q) as [|id rest] eqn:Eq.
    + destruct (queue_run ops q) as [out1 q1] eqn:E1. injection H as <- <-. destruct (IH _ _ _ _ Hq E1) as (new & H1 & H2 & H3).
      exists new. rewrite Eq in H3. auto.
    + destruct (queue_run ops (mkQ (q_processed q) rest)) as [out1 q1] eqn:E1. injection H as <- <-.
      destruct (IH s (mkQ (q_processed q) rest) _ _ Hq E1) as (new & H1 & H2 & H3). exists new. split; [exact H1|]. split; [exact H2|].
      cbn [popped flat_map app]. change (flat_map _ out1) with (popped out1). rewrite H3. reflexivity.
Qed.

Lemma queue_run_app ops1 ops2 : forall q, queue_run (ops1 ++ ops2) q =
  let (out1, q1) := queue_run ops1 q in let (out2, q2) := queue_run ops2 q1 in (out1 ++ out2, q2).
Proof.
  induction ops1 as [|[id|] ops1 IH]; intro q; cbn [app queue_run].
  - destruct (queue_run ops2 q); reflexivity.
  - apply IH.
  - destruct (q_queue q) as [|id rest]; rewrite IH.
    + destruct (queue_run ops1 q) as [out1 q1]. destruct (queue_run ops2 q1). reflexivity.
    + destruct (queue_run ops1 _) as [out1 q1]. destruct (queue_run ops2 q1). reflexivity.
Qed.

Lemma queue_order ops out q : queue_run ops (mkQ [] []) = (out, q) -> popped out ++ q_queue q = firsts Nat.eqb (pushes ops).
Proof.
  intro H. destruct (queue_run_inv ops [] (mkQ [] []) _ _ eq_refl H) as (new & E & _ & ->). unfold firsts. rewrite E. reflexivity.
Qed.

Lemma queue_pop ops out q : queue_run ops (mkQ [] []) = (out, q) ->
  fst (queue_run (ops ++ [Pop]) (mkQ [] [])) = out ++ [nth_error (firsts Nat.eqb (pushes ops)) (length (popped out))].
Proof.
  intro H. rewrite queue_run_app, H. rewrite <- (queue_order _ _ _ H). rewrite nth_error_app2, Nat.sub_diag by lia.
  cbn [queue_run]. destruct (q_queue q) as [|id rest]; reflexivity.
Qed.

(** ** The completion map *)

Lemma ckey_eqb_refl k : ckey_eqb k k = true.
Proof. apply ckey_eqb_eq. reflexivity. Qed.

Lemma lookup_insert m k k' v : cm_lookup (hm_insert m k v) k' = if ckey_eqb k k' then v else cm_lookup m k'.
Proof. unfold cm_lookup, hm_insert. cbn [hm_get]. destruct (ckey_eqb k k'); reflexivity. Qed.

Lemma completions_snoc l x : completions (l ++ [x]) = cm_insert (completions l) (fst x) (snd x).
Proof. unfold completions. rewrite fold_left_app. reflexivity. Qed.

Lemma vec_step P m k k' id : (StronglySorted lt (cm_lookup m k') /\ forall i, In i (cm_lookup m k') <-> P i) ->
  let m' := hm_insert m k (sorted_vec_insert (cm_lookup m k) id) in
  StronglySorted lt (cm_lookup m' k') /\ forall i, In i (cm_lookup m' k') <-> P i \/ k = k' /\ i = id.
Proof.
  intros [Hs Hi]. cbv zeta. rewrite lookup_insert. destruct (ckey_eqb k k') eqn:E.
  - apply ckey_eqb_eq in E. subst k'. split; [apply sorted_vec_insert_sorted, Hs|]. intro i. rewrite sorted_vec_insert_In, Hi. tauto.
  - split; [exact Hs|]. intro i. rewrite Hi. split; [auto|]. intros [H|[-> _]]; [exact H|]. rewrite ckey_eqb_refl in E. discriminate.
Qed.

Lemma vec_same (P Q : nat -> Prop) v : (StronglySorted lt v /\ forall i, In i v <-> P i) -> (forall i, P i <-> Q i) -> StronglySorted lt v /\ forall i, In i v <-> Q i.
Proof. intros [H1 H2] H. split; [exact H1|]. intro i. rewrite H2. apply H. Qed.

Lemma incomplete_spec l t pos :
  StronglySorted lt (cm_lookup (cm_incomplete (completions l)) (t, pos)) /\
  forall i, In i (cm_lookup (cm_incomplete (completions l)) (t, pos)) <->
    exists x lhs n, In (x, lhs) l /\ t_id x = i /\ t = Nonterminal n /\ next_unmatched x = Some t /\ total_len (t_range x) = pos.
Proof.
  induction l as [|[x lhs] l IH] using rev_ind.
  - split; [constructor|]. intro i. split; [intros []|]. intros (x & lhs & n & [] & _).
  - rewrite completions_snoc. cbn [fst snd]. unfold cm_insert. destruct (next_unmatched x) as [[s|n]|] eqn:En; cbn [cm_incomplete].
    + refine (vec_same _ _ _ IH _). intro i. split; intros (y & h & m & Hin & H); exists y, h, m; (split; [|exact H]).
      * apply in_app_iff. auto.
      * apply in_app_iff in Hin. destruct Hin as [Hin|[E|[]]]; [exact Hin|]. injection E as <- <-. destruct H as (_ & -> & H & _). congruence.
    + refine (vec_same _ _ _ (vec_step _ _ (key_total (Nonterminal n) (t_range x)) (t, pos) (t_id x) IH) _). intro i. split.
      * intros [(y & h & m & Hin & H)|[E ->]]; [exists y, h, m; split; [apply in_app_iff; auto|exact H]|].
        injection E as <- <-. exists x, lhs, n. split; [apply in_elt|]. auto.
      * intros (y & h & m & Hin & H). apply in_app_iff in Hin. destruct Hin as [Hin|[E|[]]]; [left; exists y, h, m; auto|].
        injection E as <- <-. right. destruct H as (<- & -> & H & <-). split; [|reflexivity]. unfold key_total. congruence.
    + refine (vec_same _ _ _ IH _). intro i. split; intros (y & h & m & Hin & H); exists y, h, m; (split; [|exact H]).
      * apply in_app_iff. auto.
      * apply in_app_iff in Hin. destruct Hin as [Hin|[E|[]]]; [exact Hin|]. injection E as <- <-. destruct H as (_ & -> & H & _). congruence.
Qed.

Lemma complete_spec l t pos :
  StronglySorted lt (cm_lookup (cm_complete (completions l)) (t, pos)) /\
  forall i, In i (cm_lookup (cm_complete (completions l)) (t, pos)) <->
    exists x, In (x, t) l /\ t_id x = i /\ t_unmatched x = [] /\ r_start (t_range x) = pos.
Proof.
  assert (U : forall x, t_unmatched x = [] <-> next_unmatched x = None).
  { intro x. unfold next_unmatched. destruct (t_unmatched x); cbn; split; congruence. }
  induction l as [|[x lhs] l IH] using rev_ind.
  - split; [constructor|]. intro i. split; [intros []|]. intros (x & [] & _).
  - rewrite completions_snoc. cbn [fst snd]. unfold cm_insert. destruct (next_unmatched x) as [[s|n]|] eqn:En; cbn [cm_complete].
    + refine (vec_same _ _ _ IH _). intro i. split; intros (y & Hin & H); exists y; (split; [|exact H]).
      * apply in_app_iff. auto.
      * apply in_app_iff in Hin. destruct Hin as [Hin|[E|[]]]; [exact Hin|]. injection E as <- <-. destruct H as (_ & H & _). apply U in H. congruence.
    + refine (vec_same _ _ _ IH _). intro i. split; intros (y & Hin & H); exists y; (split; [|exact H]).
      * apply in_app_iff. auto.
      * apply in_app_iff in Hin. destruct Hin as [Hin|[E|[]]]; [exact Hin|]. injection E as <- <-. destruct H as (_ & H & _). apply U in H. congruence.
    + refine (vec_same _ _ _ (vec_step _ _ (key_start lhs (t_range x)) (t, pos) (t_id x) IH) _). intro i. split.
      * intros [(y & Hin & H)|[E ->]]; [exists y; split; [apply in_app_iff; auto|exact H]|].
        injection E as <- <-. exists x. split; [apply in_elt|]. split; [reflexivity|]. split; [apply U, En|reflexivity].
      * intros (y & Hin & H). apply in_app_iff in Hin. destruct Hin as [Hin|[E|[]]]; [left; exists y; auto|].
        injection E as <- <-. right. destruct H as (<- & _ & <-). auto.
Qed.

(** ** The operations of a parse *)

Lemma app_eq_len {A} (a b c d : list A) : a ++ b = c ++ d -> length a = length c -> a = c /\ b = d.
Proof.
  revert c. induction a as [|x a IH]; intros [|y c] H L; try discriminate; [auto|]. injection H as -> H. injection L as L.
  destruct (IH c H L) as [-> ->]. auto.
Qed.


Lemma ids_dense ops : forall ids tr, tree_run ops empty_tree = Ok (ids, tr) -> firsts Nat.eqb ids = seq 0 (length (tt_arena tr)).
Proof.
  induction ops as [|o ops IH] using rev_ind; intros ids tr H.
  - injection H as <- <-. reflexivity.
  - rewrite tree_run_app in H. destruct (tree_run ops empty_tree) as [[ids1 tr1]| |] eqn:E1; cbn [rbind] in H; try discriminate.
    cbn [tree_run] in H. destruct (tree_step tr1 o) as [[id tr2]| |] eqn:Eo; cbn [rbind] in H; try discriminate. injection H as <- <-.
    destruct (tree_run_inv _ _ _ _ _ tree_inv_empty E1) as (HI & _ & _). cbn [app] in HI.
    destruct (tree_step_inv _ _ _ _ _ HI Eo) as (HI2 & Hid & _). rewrite firsts_snoc, (IH _ _ eq_refl).
    pose proof (v_len _ _ HI) as L1. pose proof (v_len _ _ HI2) as L2. rewrite map_app in L2, Hid. cbn [map] in L2, Hid. rewrite firsts_snoc in L2, Hid.
    destruct (memb tree_key_eqb (key_of o) (fk (map key_of ops))) eqn:M.
    + apply nth_error_lt in Hid. destruct (memb Nat.eqb id (seq 0 (length (tt_arena tr1)))) eqn:M'; [rewrite L1, L2; reflexivity|].
      exfalso. assert (In id (seq 0 (length (tt_arena tr1)))) as Hin by (apply in_seq; lia). apply (memb_In _ Nat.eqb_eq) in Hin. congruence.
    + assert (id = length (tt_arena tr1)) as ->.
      { apply nth_error_snoc in Hid. destruct Hid as [Hid|[-> _]]; [|lia]. apply nth_error_In in Hid. apply (memb_In _ tree_key_eqb_eq) in Hid. congruence. }
      destruct (memb Nat.eqb _ (seq 0 _)) eqn:M'; [exfalso; apply (memb_In _ Nat.eqb_eq), in_seq in M'; lia|].
      rewrite app_length in L2. cbn [length] in L2. rewrite L2, Nat.add_1_r, seq_S, <- L1. reflexivity.
Qed.

Lemma tree_run_snoc ops ids tr o id tr' : tree_run ops empty_tree = Ok (ids, tr) -> tree_step tr o = Ok (id, tr') ->
  tree_run (ops ++ [o]) empty_tree = Ok (ids ++ [id], tr').
Proof. intros H E. rewrite tree_run_app, H. cbn [rbind tree_run]. rewrite E. reflexivity. Qed.

Lemma queue_run_push qops out q id : queue_run qops (mkQ [] []) = (out, q) -> queue_run (qops ++ [Push id]) (mkQ [] []) = (out, q_push q id).
Proof. intro H. rewrite queue_run_app, H. cbn [queue_run]. rewrite app_nil_r. reflexivity. Qed.

Lemma pushes_app a b : pushes (a ++ b) = pushes a ++ pushes b.
Proof. apply flat_map_app. Qed.

Lemma popped_app a b : popped (a ++ b) = popped a ++ popped b.
Proof. apply flat_map_app. Qed.

Record history (pg : parse_grammar) (tr : ttree) (q : tqueue) (cm : cmap) (ops : list tree_op) (ids : list nat) (qops : list queue_op) (out : list (option nat)) (finished : list nat) (l : list (traversal * term)) : Prop := {
  h_tree : tree_run ops empty_tree = Ok (ids, tr);
  h_queue : queue_run qops (mkQ [] []) = (out, q);
  h_comp : cm = completions l;
  h_pushed : pushes qops = ids;
  h_finished : incl finished (popped out);
  h_recorded : forall x lhs, In (x, lhs) l <-> In (t_id x) finished /\ recorded pg tr x lhs
}.

Lemma in_order pg tr q cm ops ids qops out finished l : history pg tr q cm ops ids qops out finished l ->
  popped out ++ q_queue q = seq 0 (length (tt_arena tr)).
Proof. intros [H1 H2 H3 H4 _ _]. rewrite (queue_order _ _ _ H2), H4. exact (ids_dense _ _ _ H1). Qed.

Lemma history_step pg tr q cm ops ids qops out finished l o id tr' : history pg tr q cm ops ids qops out finished l -> tree_step tr o = Ok (id, tr') ->
  history pg tr' (q_push q id) cm (ops ++ [o]) (ids ++ [id]) (qops ++ [Push id]) out finished l.
Proof.
  intros Hh E. pose proof (in_order _ _ _ _ _ _ _ _ _ _ Hh) as Ho. destruct Hh as [H1 H2 H3 H4 H5 H6].
  pose proof (tree_run_snoc _ _ _ _ _ _ H1 E) as Hr. split; [exact Hr|apply queue_run_push, H2|exact H3| |exact H5|].
  - rewrite pushes_app, H4. reflexivity.
  - destruct (tree_append_only ops [o] _ _ Hr) as (ids1 & tr1 & E1 & _ & Hk). rewrite H1 in E1. injection E1 as <- <-.
    intros x lhs. rewrite H6. unfold recorded. split; intros (Hf & Hg & Hn); (split; [exact Hf|]; split; [|exact Hn]); [apply Hk, Hg|].
    assert (Hlt : In (t_id x) (seq 0 (length (tt_arena tr)))) by (rewrite <- Ho; apply in_app_iff; left; apply H5, Hf). apply in_seq in Hlt.
    unfold tt_get in *. destruct (nth_error (tt_arena tr) (t_id x)) as [y|] eqn:Ey; [|apply nth_error_None in Ey; lia].
    destruct (Hk (t_id x) y) as [Hk1 _]; [rewrite Ey; reflexivity|]. rewrite Hg in Hk1. cbn [expect]. congruence.
Qed.

Definition historical (pg : parse_grammar) (finished : list nat) (l : list (traversal * term)) (out : list (option nat)) (tr : ttree) (q : tqueue) (cm : cmap) : Prop :=
  exists ops ids qops, history pg tr q cm ops ids qops out finished l.

Lemma predict_all_history pg range starting pids : forall tr q tr' q' cm out f l, historical pg f l out tr q cm ->
  predict_all pg range starting pids tr q = Ok (tr', q') -> historical pg f l out tr' q' cm.
Proof.
  induction pids as [|pid pids IH]; intros tr q tr' q' cm out f l Hh H; cbn [predict_all] in H.
  - injection H as <- <-. exact Hh.
  - destruct (get_production_by_id pg pid) as [prod| |]; cbn [rbind] in H; try discriminate.
    destruct (tt_predict tr range pid (snd prod) starting) as [id tr1] eqn:E. refine (IH _ _ _ _ _ _ _ _ _ H).
    destruct Hh as (ops & ids & qops & Hh). eexists _, _, _. apply (history_step _ _ _ _ _ _ _ _ _ _ (Predict range pid (snd prod) starting) _ _ Hh).
    cbn [tree_step]. rewrite E. reflexivity.
Qed.

Lemma match_all_history pg ms : forall tr q tr' q' cm out f l, historical pg f l out tr q cm ->
  match_all ms tr q = Ok (tr', q') -> historical pg f l out tr' q' cm.
Proof.
  induction ms as [|[par m] ms IH]; intros tr q tr' q' cm out f l Hh H; cbn [match_all] in H.
  - injection H as <- <-. exact Hh.
  - destruct (tt_match_term tr par m) as [[id tr1]| |] eqn:E; cbn [rbind] in H; try discriminate. refine (IH _ _ _ _ _ _ _ _ _ H).
    destruct Hh as (ops & ids & qops & Hh). eexists _, _, _. apply (history_step _ _ _ _ _ _ _ _ _ _ (Match par m) _ _ Hh). exact E.
Qed.

(** The popped traversal is recorded, *)
Lemma insert_history pg f l out tr q cm t lhs rhs : historical pg f l out tr q cm -> In (t_id t) (popped out) -> ~ In (t_id t) f -> tt_get tr (t_id t) = Ok t ->
  get_production_by_id pg (t_pid t) = Ok (lhs, rhs) -> (forall s, next_unmatched t <> Some (Terminal s)) ->
  historical pg (f ++ [t_id t]) (l ++ [(t, lhs)]) out tr q (cm_insert cm t lhs).
Proof.
  intros (ops & ids & qops & [H1 H2 H3 H4 H5 H6]) Hp Hnf Hg Hd Ht. exists ops, ids, qops. split; try assumption.
  - rewrite completions_snoc, <- H3. reflexivity.
  - intros i Hi. apply in_app_iff in Hi. destruct Hi as [Hi|[<-|[]]]; [apply H5, Hi|exact Hp].
  - intros x h. rewrite !in_app_iff, H6. cbn [In]. unfold recorded. split.
    + intros [[Hf Hr]|[E|[]]]; [auto|]. injection E as <- <-. split; [auto|]. split; [exact Hg|]. split; [exact Ht|eauto].
    + intros [[Hf|[Hf|[]]] Hr]; [auto|]. right. left. destruct Hr as (Hg' & _ & rhs' & Hd'). rewrite <- Hf in Hg'. rewrite Hg in Hg'. injection Hg' as <-.
      rewrite Hd in Hd'. injection Hd' as -> ->. reflexivity.
Qed.

(** or has nothing to be recorded. *)
Lemma skip_history pg f l out tr q cm t s : historical pg f l out tr q cm -> In (t_id t) (popped out) -> tt_get tr (t_id t) = Ok t ->
  next_unmatched t = Some (Terminal s) -> historical pg (f ++ [t_id t]) l out tr q cm.
Proof.
  intros (ops & ids & qops & [H1 H2 H3 H4 H5 H6]) Hp Hg Ht. exists ops, ids, qops. split; try assumption.
  - intros i Hi. apply in_app_iff in Hi. destruct Hi as [Hi|[<-|[]]]; [apply H5, Hi|exact Hp].
  - intros x h. rewrite in_app_iff, H6. cbn [In]. unfold recorded. split; [intuition|]. intros [[Hf|[Hf|[]]] Hr]; [auto|]. exfalso.
    destruct Hr as (Hg' & Hn & _). rewrite <- Hf in Hg'. rewrite Hg in Hg'. injection Hg' as <-. exact (Hn s Ht).
Qed.

Lemma process_history pg f l out tr q cm id r st : historical pg f l out tr q cm -> In id (popped out) -> ~ In id f -> process pg tr q cm id = Ok (r, st) ->
  exists l', historical pg (f ++ [id]) l' out (s_tree st) (s_queue st) (s_comp st).
Proof.
  intros Hh Hp Hnf H. unfold process in H. destruct (tt_get tr id) as [t| |] eqn:Et; cbn [rbind] in H; try discriminate.
  assert (Hid : t_id t = id).
  { destruct Hh as (ops & ids & qops & Hh). destruct (tree_contents _ _ _ _ _ (h_tree _ _ _ _ _ _ _ _ _ _ Hh) Et) as (k & _ & Hs). apply Hs. }
  assert (Hg : tt_get tr (t_id t) = Ok t) by (rewrite Hid; exact Et). rewrite <- Hid in Hp, Hnf |- *.
  destruct (next_unmatched t) as [[s|n]|] eqn:En.
  - pose proof (skip_history _ _ _ _ _ _ _ _ _ Hh Hp Hg En) as Hi.
    destruct (starts_with _ _); [|injection H as <- <-; exists l; exact Hi].
    destruct (match_all [(id, MTerminal s)] tr q) as [[tr1 q1]| |] eqn:E; cbn [rbind] in H; try discriminate. injection H as <- <-.
    exists l. eapply match_all_history; [exact Hi|exact E].
  - destruct (get_production_by_id pg (t_pid t)) as [[lhs rhs]| |] eqn:Ed; cbn [rbind fst] in H; try discriminate.
    pose proof (insert_history _ _ _ _ _ _ _ _ _ _ Hh Hp Hnf Hg Ed ltac:(rewrite En; discriminate)) as Hi.
    destruct (predict_all _ _ _ _ _ _) as [[tr1 q1]| |] eqn:E1; cbn [rbind] in H; try discriminate.
    destruct (match_all _ _ _) as [[tr2 q2]| |] eqn:E2; cbn [rbind] in H; try discriminate. injection H as <- <-.
    eexists. eapply match_all_history; [|exact E2]. eapply predict_all_history; [|exact E1]. exact Hi.
  - destruct (get_production_by_id pg (t_pid t)) as [[lhs rhs]| |] eqn:Ed; cbn [rbind fst] in H; try discriminate.
    pose proof (insert_history _ _ _ _ _ _ _ _ _ _ Hh Hp Hnf Hg Ed ltac:(rewrite En; discriminate)) as Hi.
    destruct (match_all _ _ _) as [[tr2 q2]| |] eqn:E2; cbn [rbind] in H; try discriminate. injection H as <- <-.
    eexists. eapply match_all_history; [|exact E2]. exact Hi.
Qed.

Definition historic (pg : parse_grammar) (st : pstate) : Prop := exists l out, historical pg (popped out) l out (s_tree st) (s_queue st) (s_comp st).

Lemma earley_history pg fuel : forall st r st', historic pg st -> earley fuel pg st = Ok (r, st') -> historic pg st'.
Proof.
  induction fuel as [|fuel IH]; intros st r st' Hh H; cbn [earley] in H; [discriminate|].
  destruct (q_queue (s_queue st)) as [|id rest] eqn:Eq; [injection H as <- <-; exact Hh|].
  destruct Hh as (l & out & ops & ids & qops & Hh). pose proof (in_order _ _ _ _ _ _ _ _ _ _ Hh) as Ho. destruct Hh as [H1 H2 H3 H4 H5 H6].
  destruct (process pg (s_tree st) (mkQ (q_processed (s_queue st)) rest) (s_comp st) id) as [[found st1]| |] eqn:E; cbn [rbind] in H; try discriminate.
  assert (Hp : historical pg (popped out) l (out ++ [Some id]) (s_tree st) (mkQ (q_processed (s_queue st)) rest) (s_comp st)).
  { exists ops, ids, (qops ++ [Pop]). split; [exact H1| |exact H3| | |exact H6].
    - rewrite queue_run_app, H2. cbn [queue_run]. rewrite Eq. reflexivity.
    - rewrite pushes_app, H4. apply app_nil_r.
    - rewrite popped_app. apply incl_appl, incl_refl. }
  assert (Hnd : ~ In id (popped out)).
  { intro Hin. pose proof (seq_NoDup (length (tt_arena (s_tree st))) 0) as Hd. rewrite <- Ho, Eq in Hd. apply NoDup_remove_2 in Hd. apply Hd, in_app_iff. auto. }
  destruct (process_history _ _ _ _ _ _ _ _ _ _ Hp ltac:(rewrite popped_app; apply in_elt) Hnd E) as (l' & Hl').
  assert (Hh1 : historic pg st1) by (exists l', (out ++ [Some id]); rewrite popped_app; exact Hl').
  destruct found as [i|]; [injection H as <- <-; exact Hh1|]. exact (IH _ _ _ Hh1 H).
Qed.

Lemma iter_new_history p input start it : iter_new p input start = Ok it -> historic (gp_pg (it_parser it)) (it_state it).
Proof.
  unfold iter_new. intro H. destruct (predict_all _ _ _ _ _ _) as [[tr q]| |] eqn:E; cbn [rbind] in H; try discriminate. injection H as <-.
  exists [], []. cbn [it_parser it_state s_tree s_queue s_comp]. eapply predict_all_history; [|exact E].
  exists [], [], []. split; try reflexivity; [intros i []|]. intros x lhs. split; [intros []|intros [[] _]].
Qed.

Lemma produces_history it ts it' : produces it ts it' -> historic (gp_pg (it_parser it)) (it_state it) ->
  it_parser it' = it_parser it /\ historic (gp_pg (it_parser it)) (it_state it').
Proof.
  induction 1 as [|fuel it t it1 ts it2 E Hp IH]; intro Hh; [auto|]. unfold iter_next in E.
  destruct (earley _ _ _) as [[found st]| |] eqn:Ee; cbn [rbind] in E; try discriminate.
  destruct found as [id|]; [|discriminate]. destruct (parse_tree _ _ _ _) as [tr| |]; cbn [rbind] in E; try discriminate.
  injection E as _ <-. apply IH. cbn [it_parser it_state]. eapply earley_history; [exact Hh|exact Ee].
Qed.

Lemma parse_history g start input it ts it1 : opens g start input it -> produces it ts it1 ->
  let st := it_state it1 in let n := length (tt_arena (s_tree st)) in
  exists ops ids d l, tree_run ops empty_tree = Ok (ids, s_tree st) /\ firsts Nat.eqb ids = seq 0 n /\
    d <= n /\ q_queue (s_queue st) = seq d (n - d) /\ s_comp st = completions l /\
    forall x lhs, In (x, lhs) l <-> t_id x < d /\ recorded (pg_new_unchecked g) (s_tree st) x lhs.
Proof.
  intros Ho Hp. cbv zeta.
  assert (Hh : historic (pg_new_unchecked g) (it_state it) /\ gp_pg (it_parser it) = pg_new_unchecked g).
  { assert (N : forall p start', gp_pg p = pg_new_unchecked g -> iter_new p input start' = Ok it -> historic (pg_new_unchecked g) (it_state it) /\ gp_pg (it_parser it) = pg_new_unchecked g).
    { intros p start' Epg E. assert (Ep : it_parser it = p).
      { unfold iter_new in E. destruct (predict_all _ _ _ _ _ _) as [[tr q]| |]; cbn [rbind] in E; try discriminate. injection E as <-. reflexivity. }
      apply iter_new_history in E. rewrite Ep, Epg in *. auto. }
    destruct Ho as [ho p it Eb E|ho p it Eb _ E|it E|it _ E].
    - apply build_parser_eq in Eb. destruct Eb as (st0 & _ & ->). exact (N (mkGP st0 (pg_new_unchecked g)) (Some start) eq_refl E).
    - apply build_parser_eq in Eb. destruct Eb as (st0 & _ & ->). exact (N (mkGP st0 (pg_new_unchecked g)) (Some _) eq_refl E).
    - unfold grammar_parse_input_starting_with, parser_new_unchecked in E. destruct (starting_term g) as [st0|]; cbn [expect rbind] in E; [|discriminate]. exact (N (mkGP st0 (pg_new_unchecked g)) (Some start) eq_refl E).
    - unfold grammar_parse_input, parser_new_unchecked in E. destruct (starting_term g) as [st0|]; cbn [expect rbind] in E; [|discriminate]. exact (N (mkGP st0 (pg_new_unchecked g)) None eq_refl E). }
  destruct Hh as [Hh Epg]. rewrite <- Epg in *. destruct (produces_history _ _ _ Hp Hh) as (_ & l & out & ops & ids & qops & Hi).
  pose proof (in_order _ _ _ _ _ _ _ _ _ _ Hi) as Hor. destruct Hi as [H1 H2 H3 H4 H5 H6].
  assert (Hs : exists d, d <= length (tt_arena (s_tree (it_state it1))) /\ popped out = seq 0 d /\ q_queue (s_queue (it_state it1)) = seq d (length (tt_arena (s_tree (it_state it1))) - d)).
  { clear - Hor. exists (length (popped out)). assert (Hl : length (popped out) <= length (tt_arena (s_tree (it_state it1)))).
    { rewrite <- (seq_length (length (tt_arena (s_tree (it_state it1)))) 0), <- Hor, app_length. lia. }
    split; [exact Hl|]. replace (length (tt_arena (s_tree (it_state it1)))) with (length (popped out) + (length (tt_arena (s_tree (it_state it1))) - length (popped out))) in Hor by lia.
    rewrite seq_app in Hor. apply app_eq_len in Hor; [|rewrite seq_length; reflexivity]. destruct Hor as [E1 E2]. split; [exact E1|exact E2]. }
  destruct Hs as (d & Hd & Ed & Eq). exists ops, ids, d, l. split; [exact H1|]. split; [exact (ids_dense _ _ _ H1)|]. split; [exact Hd|]. split; [exact Eq|]. split; [exact H3|].
  intros x lhs. rewrite H6, Ed. rewrite in_seq. cbn [Nat.add]. split; (intros [Hx Hr]; split; [lia|exact Hr]).
Qed.

(** ** The statements of the properties *)

Lemma table_full g :
  (forall id x, get_production_by_id (pg_new_unchecked g) id = Ok x <-> nth_error (numbered g) id = Some x) /\
  (forall id, length (numbered g) <= id -> get_production_by_id (pg_new_unchecked g) id = Panic) /\
  (forall l, get_productions_by_lhs (pg_new_unchecked g) l =
     filter (fun id => match nth_error (numbered g) id with Some x => term_eqb (fst x) l | None => false end) (seq 0 (length (numbered g)))) /\
  (forall ho pg, pg_new ho g = ROk pg -> pg = pg_new_unchecked g).
Proof.
  change (numbered g) with (flat_prods g). destruct (table_spec g) as (H1 & H2 & H3). split; [exact H1|]. split; [exact H2|].
  split; [exact H3|]. intros ho pg. apply pg_new_unchecked_eq.
Qed.

Lemma window_full r a b c : shows r a b c ->
  range_next r = c /\ shows (range_after r) (a ++ b) [] c /\
  (forall s c', c = s ++ c' -> exists r', advance_by r (byte_len s) = Ok r' /\ shows r' a (b ++ s) c') /\
  (forall step, byte_len c <= step -> exists r', advance_by r step = Ok r' /\ shows r' a (b ++ c) []) /\
  (is_complete r = true <-> a = [] /\ c = []).
Proof.
  intro H. split; [exact (window_next _ _ _ _ H)|]. split; [exact (window_after _ _ _ _ H)|]. split; [|split].
  - intros s c' ->. exact (window_advance _ _ _ _ _ H).
  - intros step. exact (window_clamp _ _ _ _ _ H).
  - exact (window_complete _ _ _ _ H).
Qed.

Lemma firsts_full (l : list nat) : NoDup (firsts Nat.eqb l) /\ (forall x, In x (firsts Nat.eqb l) <-> In x l) /\
  (forall m, exists r, firsts Nat.eqb (l ++ m) = firsts Nat.eqb l ++ r) /\
  forall x, firsts Nat.eqb (l ++ [x]) = if in_dec Nat.eq_dec x l then firsts Nat.eqb l else firsts Nat.eqb l ++ [x].
Proof.
  split; [apply (firsts_NoDup _ Nat.eqb_eq)|]. split; [intro; apply (firsts_In _ Nat.eqb_eq)|]. split; [intro; apply firsts_prefix|].
  intro x. rewrite firsts_snoc. destruct (in_dec Nat.eq_dec x l) as [H|H]; destruct (memb Nat.eqb x (firsts Nat.eqb l)) eqn:E; try reflexivity.
  - pose proof (proj2 (memb_In _ Nat.eqb_eq _ _) (proj2 (firsts_In _ Nat.eqb_eq l x) H)). congruence.
  - apply (memb_In _ Nat.eqb_eq) in E. contradiction H. exact (proj1 (firsts_In _ Nat.eqb_eq l x) E).
Qed.

Lemma incomplete_full l t c :
  StronglySorted lt (get_incomplete (completions l) t c) /\
  forall i, In i (get_incomplete (completions l) t c) <->
    exists x lhs n, In (x, lhs) l /\ t_id x = i /\ t = Nonterminal n /\ next_unmatched x = Some t /\
      r_start (t_range x) + r_len (t_range x) = r_start (t_range c).
Proof. exact (incomplete_spec l t (r_start (t_range c))). Qed.

Lemma complete_full l t r :
  StronglySorted lt (get_complete (completions l) t r) /\
  forall i, In i (get_complete (completions l) t r) <->
    exists x, In (x, t) l /\ t_id x = i /\ t_unmatched x = [] /\ r_start (t_range x) = r_start r + r_len r.
Proof. exact (complete_spec l t (r_start r + r_len r)). Qed.
