(** The log of a parse tells what happens in it. *)
From Verif Require Import WorkNumbered EarleySpec EarleyInv EarleyMain ParseGrammarProofs Tracing StructSpec TracingSpec StructProofs.
From Coq Require Import Sorting.Sorted String.
Import List.

(** ** The log changes nothing *)

Lemma predict_all_unlogged say pg range starting pids : forall tr q,
  unlogged (predict_all_t say pg range starting pids tr q) = predict_all pg range starting pids tr q.
Proof.
  induction pids as [|pid pids IH]; intros tr q; [reflexivity|]. cbn [predict_all_t predict_all].
  destruct (get_production_by_id pg pid) as [prod| |]; cbn [rbind]; try reflexivity.
  destruct (tt_predict _ _ _ _ _) as [id tr1]. rewrite <- IH. destruct (predict_all_t _ _ _ _ _ _ _) as [[o l]| |]; reflexivity.
Qed.

Lemma match_all_unlogged say ms : forall tr q, unlogged (match_all_t say ms tr q) = match_all ms tr q.
Proof.
  induction ms as [|[par m] ms IH]; intros tr q; [reflexivity|]. cbn [match_all_t match_all].
  destruct (tt_match_term _ _ _) as [[id tr1]| |]; cbn [rbind]; try reflexivity.
  rewrite <- IH. destruct (match_all_t _ _ _ _) as [[o l]| |]; reflexivity.
Qed.

Lemma process_unlogged pg tr q cm id : unlogged (process_t pg tr q cm id) = process pg tr q cm id.
Proof.
  unfold process_t, process. destruct (tt_get tr id) as [t| |]; cbn [rbind]; try reflexivity.
  destruct (next_unmatched t) as [[s|n]|].
  - destruct (starts_with _ _); [|reflexivity]. rewrite <- (match_all_unlogged (fun i => [Said (Scanned i)])).
    destruct (match_all_t _ _ _ _) as [[[tr1 q1] l]| |]; reflexivity.
  - destruct (get_production_by_id _ _) as [prod| |]; cbn [rbind]; try reflexivity.
    rewrite <- (predict_all_unlogged (fun i => [Said (Predicted i)])). destruct (predict_all_t _ _ _ _ _ _ _) as [[[tr1 q1] l1]| |]; cbn [rbind unlogged]; try reflexivity.
    rewrite <- (match_all_unlogged (fun i => [Said (PriorCompleted i)])). destruct (match_all_t _ _ _ _) as [[[tr2 q2] l2]| |]; reflexivity.
  - destruct (get_production_by_id _ _) as [prod| |]; cbn [rbind]; try reflexivity.
    rewrite <- (match_all_unlogged (fun i => [Said (Completed i)])). destruct (match_all_t _ _ _ _) as [[[tr2 q2] l2]| |]; reflexivity.
Qed.

Lemma earley_unlogged fuel pg st : unlogged (earley_t fuel pg st) = earley fuel pg st.
Proof.
  transitivity (unlogged (earley_loop_t fuel pg st)).
  { unfold earley_t. destruct (earley_loop_t fuel pg st) as [[o l]| |]; reflexivity. }
  revert st. induction fuel as [|fuel IH]; intro st; [reflexivity|]. cbn [earley_loop_t earley]. destruct (q_queue (s_queue st)) as [|id rest]; [reflexivity|].
  rewrite <- process_unlogged. destruct (process_t _ _ _ _ _) as [[[found st1] l]| |]; cbn [rbind unlogged]; try reflexivity.
  destruct found as [i|]; [reflexivity|]. rewrite <- IH. destruct (earley_loop_t _ _ _) as [[o l']| |]; reflexivity.
Qed.

Lemma parse_tree_unlogged fuel tr pg : forall id, unlogged (parse_tree_t fuel tr pg id) = parse_tree fuel tr pg id.
Proof.
  induction fuel as [|fuel IH]; intro id; [reflexivity|]. cbn [parse_tree_t parse_tree].
  destruct (tt_get tr id) as [t| |]; cbn [rbind]; try reflexivity. destruct (get_production_by_id _ _) as [prod| |]; cbn [rbind]; try reflexivity.
  destruct (get_matched tr id) as [ms| |]; cbn [rbind]; try reflexivity.
  set (f := fun m => match m with MTerminal s => Ok (Leaf s, []) | MNonterminal i => let* (st, l) := parse_tree_t fuel tr pg i in Ok (Sub st, l) end).
  set (h := fun m => match m with MTerminal s => Ok (Leaf s) | MNonterminal i => let* st := parse_tree fuel tr pg i in Ok (Sub st) end).
  assert (E : res_map h ms = let* kids := res_map f ms in Ok (map fst kids)).
  { induction ms as [|m ms IHm]; [reflexivity|]. cbn [res_map]. rewrite IHm.
    assert (Em : h m = let* (k, _) := f m in Ok k).
    { destruct m as [s|i]; [reflexivity|]. cbn [f h]. rewrite <- IH. destruct (parse_tree_t fuel tr pg i) as [[st l]| |]; reflexivity. }
    rewrite Em. destruct (f m) as [[k l]| |]; cbn [rbind]; try reflexivity. destruct (res_map f ms) as [kids| |]; reflexivity. }
  rewrite E. destruct (res_map f ms) as [kids| |]; reflexivity.
Qed.

Lemma iter_new_unlogged p input start : unlogged (iter_new_t p input start) = iter_new p input start.
Proof.
  unfold iter_new_t, iter_new. rewrite <- (predict_all_unlogged (fun _ => [])). destruct (predict_all_t _ _ _ _ _ _ _) as [[[tr q] l]| |]; reflexivity.
Qed.

Lemma iter_next_unlogged fuel it : unlogged (iter_next_t fuel it) = iter_next fuel it.
Proof.
  unfold iter_next_t, iter_next. cbv zeta. rewrite <- earley_unlogged. destruct (earley_t _ _ _) as [[[found st] l]| |]; cbn [rbind unlogged]; try reflexivity.
  destruct found as [id|]; [|reflexivity]. rewrite <- parse_tree_unlogged. destruct (parse_tree_t _ _ _ _) as [[t l']| |]; reflexivity.
Qed.

Lemma entry_points_unlogged : (forall p input start, unlogged (parse_input_starting_with_t p input start) = parse_input_starting_with p input start) /\
  (forall p input, unlogged (parse_input_t p input) = parse_input p input) /\
  (forall g input, unlogged (grammar_parse_input_t g input) = grammar_parse_input g input) /\
  forall g input start, unlogged (grammar_parse_input_starting_with_t g input start) = grammar_parse_input_starting_with g input start.
Proof.
  assert (H1 : forall p input start, unlogged (parse_input_starting_with_t p input start) = parse_input_starting_with p input start).
  { intros. unfold parse_input_starting_with_t, parse_input_starting_with. rewrite <- iter_new_unlogged. destruct (iter_new_t _ _ _) as [[it l]| |]; reflexivity. }
  split; [exact H1|]. split.
  - intros. unfold parse_input_t, parse_input. rewrite <- H1. destruct (parse_input_starting_with_t _ _ _) as [[it l]| |]; reflexivity.
  - split; intros; unfold grammar_parse_input_t, grammar_parse_input_starting_with_t, grammar_parse_input, grammar_parse_input_starting_with, parser_new_unchecked_t;
      destruct (parser_new_unchecked g) as [p| |]; cbn [rbind]; try reflexivity; rewrite <- iter_new_unlogged; destruct (iter_new_t _ _ _) as [[it l]| |]; reflexivity.
Qed.

Lemma unlogged_Ok {A} (x : logged A) a l : x = Ok (a, l) -> unlogged x = Ok a.
Proof. intros ->. reflexivity. Qed.

Lemma unlogged_inv {A} (x : logged A) a : unlogged x = Ok a -> exists l, x = Ok (a, l).
Proof. destruct x as [[b l]| |]; cbn; intro H; try discriminate. injection H as ->. eauto. Qed.

Lemma opens_logged g start input it : opens g start input it <-> exists l, opens_t g start input it l.
Proof.
  destruct entry_points_unlogged as (U1 & U2 & U3 & U4). split.
  - intros [ho p it' Hb H|ho p it' Hb Hs H|it' H|it' Hs H].
    + rewrite <- U1 in H. apply unlogged_inv in H. destruct H as [l H]. exists l. eapply opens_t_with; eassumption.
    + rewrite <- U2 in H. apply unlogged_inv in H. destruct H as [l H]. exists l. eapply opens_t_default; eassumption.
    + rewrite <- U4 in H. apply unlogged_inv in H. destruct H as [l H]. exists l. eapply opens_t_deprecated_with; eassumption.
    + rewrite <- U3 in H. apply unlogged_inv in H. destruct H as [l H]. exists l. eapply opens_t_deprecated_default; eassumption.
  - intros [l [ho p it' l' Hb H|ho p it' l' Hb Hs H|it' l' H|it' l' Hs H]]; apply unlogged_Ok in H.
    + rewrite U1 in H. eapply opens_with; eassumption.
    + rewrite U2 in H. eapply opens_default; eassumption.
    + rewrite U4 in H. eapply opens_deprecated_with; eassumption.
    + rewrite U3 in H. eapply opens_deprecated_default; eassumption.
Qed.

Lemma produces_logged it ts it1 : produces it ts it1 <-> exists l, produces_t it ts it1 l.
Proof.
  split.
  - induction 1 as [it|it t it1 ts it2 fuel H _ [l' IH]]; [exists []; constructor|].
    rewrite <- iter_next_unlogged in H. apply unlogged_inv in H. destruct H as [l H]. exists (l ++ l'). econstructor; eassumption.
  - intros [l H]. induction H as [it|it t it1 ts it2 fuel l l' H _ IH]; [constructor|].
    apply unlogged_Ok in H. rewrite iter_next_unlogged in H. econstructor; eassumption.
Qed.

(** ** The trees *)

Lemma parse_tree_log fuel tr pg : forall id t l, parse_tree_t fuel tr pg id = Ok (t, l) -> l = tree_log t.
Proof.
  induction fuel as [|fuel IH]; intros id t l H; [discriminate|]. cbn [parse_tree_t] in H.
  destruct (tt_get tr id) as [x| |]; cbn [rbind] in H; try discriminate. destruct (get_production_by_id _ _) as [prod| |]; cbn [rbind] in H; try discriminate.
  destruct (get_matched tr id) as [ms| |]; cbn [rbind] in H; try discriminate.
  destruct (res_map _ ms) as [kids| |] eqn:E; cbn [rbind] in H; try discriminate. injection H as <- <-. cbn [tree_log].
  enough (F : flat_map (fun k : pnode * log => blank "match_iter_next" ++ snd k) kids =
    flat_map (fun k => blank "match_iter_next" ++ match k with Leaf _ => [] | Sub t => tree_log t end) (map fst kids)) by exact (f_equal (fun z => blank "match_iter_new" ++ z ++ blank "match_iter_next") F).
  revert kids E. induction ms as [|m ms IHm]; intros kids E; cbn [res_map] in E; [injection E as <-; reflexivity|].
  destruct (match m with MTerminal s => _ | MNonterminal i => _ end) as [[k lk]| |] eqn:Em; cbn [rbind] in E; try discriminate.
  destruct (res_map _ ms) as [kids'| |]; cbn [rbind] in E; try discriminate. injection E as <-.
  cbn [map flat_map fst snd]. rewrite (IHm kids' eq_refl). f_equal.
  destruct m as [s|i].
  - injection Em as <- <-. reflexivity.
  - destruct (parse_tree_t fuel tr pg i) as [[st ls]| |] eqn:Es; cbn [rbind] in Em; try discriminate. injection Em as <- <-.
    rewrite (IH _ _ _ Es). reflexivity.
Qed.

(** ** The steps *)

(** The tree was made by operations that returned [ids], on alternatives of [g]. *)
Definition op_ok (g : grammar) (o : tree_op) : Prop := match o with Predict _ pid _ _ => exists x, nth_error (numbered g) pid = Some x | Match _ _ => True end.
Definition tracks (g : grammar) (ids : list nat) (tr : ttree) : Prop := exists ops, tree_run ops empty_tree = Ok (ids, tr) /\ Forall (op_ok g) ops.

Definition grows (tr tr' : ttree) : Prop := exists more, tt_arena tr' = tt_arena tr ++ more.

Lemma grows_refl tr : grows tr tr.
Proof. exists []. rewrite app_nil_r. reflexivity. Qed.

Lemma grows_trans a b c : grows a b -> grows b c -> grows a c.
Proof. intros [x Hx] [y Hy]. exists (x ++ y). rewrite Hy, Hx, app_assoc. reflexivity. Qed.

Lemma root_of_grows A more pos id pid : root_of A pos id pid -> root_of (A ++ more) pos id pid.
Proof. intros (x & H & R). exists x. split; [apply nth_error_ext, H|exact R]. Qed.

Lemma child_of_grows A more id m par : child_of A id m par -> child_of (A ++ more) id m par.
Proof. intros (x & H & R). exists x. split; [apply nth_error_ext, H|exact R]. Qed.

Lemma tracks_step g ids tr o id tr' : tracks g ids tr -> op_ok g o -> tree_step tr o = Ok (id, tr') -> tracks g (ids ++ [id]) tr' /\ grows tr tr' /\
  match o with
  | Predict range pid _ _ => root_of (tt_arena tr') (r_start range + r_len range) id pid
  | Match par m => child_of (tt_arena tr') id m par
  end.
Proof.
  intros (ops & H & Hop) Ho E. destruct (tree_run_inv _ _ _ _ _ tree_inv_empty H) as (HI & _ & _). cbn [app] in HI.
  destruct (tree_step_inv _ _ _ _ _ HI E) as (HI' & Hk & Hg). split.
  { exists (ops ++ [o]). split; [apply (tree_run_snoc _ _ _ _ _ _ H E)|]. apply Forall_app. split; [exact Hop|]. constructor; [exact Ho|constructor]. }
  split; [exact Hg|].
  assert (Hid : id < length (tt_arena tr')) by (rewrite (v_len _ _ HI'); eapply nth_error_lt; exact Hk).
  destruct (nth_error (tt_arena tr') id) as [x|] eqn:Ex; [|apply nth_error_None in Ex; lia].
  pose proof (v_stored _ _ HI' _ _ _ Ex Hk) as [_ Hs]. destruct o as [range pid rhs st|par m]; cbn [key_of] in Hs.
  - destruct Hs as (ops1 & range' & rhs' & st' & ops2 & _ & Hp & _ & ->). eexists. split; [exact Ex|]. cbn [t_from t_pid t_range range_after r_start].
    split; [reflexivity|]. split; [reflexivity|exact Hp].
  - exists x. split; [exact Ex|]. apply Hs.
Qed.

Lemma Forall2_grows {A} (P Q : nat -> A -> Prop) l r : (forall a b, P a b -> Q a b) -> Forall2 P l r -> Forall2 Q l r.
Proof. intros H. induction 1; constructor; auto. Qed.

Lemma predict_all_log g say range starting pids : forall ids tr q tr' q' l, tracks g ids tr ->
  predict_all_t say (pg_new_unchecked g) range starting pids tr q = Ok ((tr', q'), l) ->
  exists new, l = flat_map (fun i => blank "traversal_tree_predict_is_starting" ++ say i) new /\ tracks g (ids ++ new) tr' /\ grows tr tr' /\
    Forall2 (root_of (tt_arena tr') (r_start range + r_len range)) new pids.
Proof.
  induction pids as [|pid pids IH]; intros ids tr q tr' q' l Ht H; cbn [predict_all_t] in H.
  - injection H as <- <- <-. exists []. rewrite app_nil_r. repeat split; [exact Ht|apply grows_refl|constructor].
  - destruct (get_production_by_id (pg_new_unchecked g) pid) as [prod| |] eqn:Eg; cbn [rbind] in H; try discriminate.
    apply (proj1 (table_full g)) in Eg.
    destruct (tt_predict tr range pid (snd prod) starting) as [id tr1] eqn:E.
    destruct (predict_all_t _ _ _ _ pids _ _) as [[[tr2 q2] l2]| |] eqn:E2; cbn [rbind] in H; try discriminate. injection H as <- <- <-.
    destruct (tracks_step g ids tr (Predict range pid (snd prod) starting) id tr1 Ht) as (Ht1 & Hg1 & Hr); [exists prod; exact Eg|cbn [tree_step]; rewrite E; reflexivity|].
    destruct (IH _ _ _ _ _ _ Ht1 E2) as (new & -> & Ht2 & Hg2 & Hn). exists (id :: new). rewrite <- app_assoc in Ht2.
    split; [cbn [flat_map]; rewrite <- app_assoc; reflexivity|]. split; [exact Ht2|]. split; [eapply grows_trans; eassumption|].
    constructor; [|exact Hn]. destruct Hg2 as [more ->]. apply root_of_grows, Hr.
Qed.

Lemma match_all_log g say ms : forall ids tr q tr' q' l, tracks g ids tr ->
  match_all_t say ms tr q = Ok ((tr', q'), l) ->
  exists new, l = flat_map (fun i => blank "match_term" ++ say i) new /\ tracks g (ids ++ new) tr' /\ grows tr tr' /\
    Forall2 (fun i pm => child_of (tt_arena tr') i (snd pm) (fst pm)) new ms.
Proof.
  induction ms as [|[par m] ms IH]; intros ids tr q tr' q' l Ht H; cbn [match_all_t] in H.
  - injection H as <- <- <-. exists []. rewrite app_nil_r. repeat split; [exact Ht|apply grows_refl|constructor].
  - destruct (tt_match_term tr par m) as [[id tr1]| |] eqn:E; cbn [rbind] in H; try discriminate.
    destruct (match_all_t _ ms _ _) as [[[tr2 q2] l2]| |] eqn:E2; cbn [rbind] in H; try discriminate. injection H as <- <- <-.
    destruct (tracks_step g ids tr (Match par m) id tr1 Ht I E) as (Ht1 & Hg1 & Hr).
    destruct (IH _ _ _ _ _ _ Ht1 E2) as (new & -> & Ht2 & Hg2 & Hn). exists (id :: new). rewrite <- app_assoc in Ht2.
    split; [cbn [flat_map]; rewrite <- app_assoc; reflexivity|]. split; [exact Ht2|]. split; [eapply grows_trans; eassumption|].
    constructor; [|exact Hn]. destruct Hg2 as [more ->]. apply child_of_grows, Hr.
Qed.

(** Lists in ascending order with the same members are the same. *)
Lemma ascending_same l l' : StronglySorted lt l -> StronglySorted lt l' -> (forall i, In i l <-> In i l') -> l = l'.
Proof.
  intro H. revert l'. induction H as [|x l Hs IH Hx]; intros [|y l'] H' Hi; [reflexivity|exfalso; apply (Hi y); left; reflexivity|exfalso; apply (Hi x); left; reflexivity|].
  inversion H' as [|y0 l0 Hs' Hy]; subst. rewrite Forall_forall in Hx, Hy.
  assert (Exy : x = y).
  { destruct (proj1 (Hi x) (or_introl eq_refl)) as [E|E]; [auto|]. destruct (proj2 (Hi y) (or_introl eq_refl)) as [E'|E']; [auto|]. specialize (Hx _ E'). specialize (Hy _ E). lia. }
  subst y. f_equal. apply IH; [exact Hs'|]. intro i. split; intro H1.
  - destruct (proj1 (Hi i) (or_intror H1)) as [<-|H2]; [|exact H2]. specialize (Hx _ H1). lia.
  - destruct (proj2 (Hi i) (or_intror H1)) as [<-|H2]; [|exact H2]. specialize (Hy _ H1). lia.
Qed.

Definition indexed (A : list traversal) : Prop := forall i x, nth_error A i = Some x -> t_id x = i.

Lemma indexed_ids A : indexed A -> map t_id A = seq 0 (length A).
Proof.
  induction A as [|x A IH] using rev_ind; intro H; [reflexivity|]. rewrite map_app, app_length, Nat.add_comm. cbn [length Nat.add]. rewrite seq_S. cbn [Nat.add map].
  rewrite IH; [|intros i y Hy; apply H; apply nth_error_ext, Hy]. f_equal. f_equal. apply H. rewrite nth_error_app2 by lia. rewrite Nat.sub_diag. reflexivity.
Qed.

Lemma seq_ascending n : forall k, StronglySorted lt (seq k n).
Proof. induction n as [|n IH]; intro k; cbn [seq]; constructor; [apply IH|]. apply Forall_forall. intros i Hi. apply in_seq in Hi. lia. Qed.

Lemma filter_ascending (P : traversal -> bool) l : StronglySorted lt (map t_id l) -> StronglySorted lt (map t_id (filter P l)).
Proof.
  induction l as [|x l IH]; intro H; [constructor|]. cbn [map filter] in *. inversion H as [|y0 l0 Hs Hx]; subst. destruct (P x); [|exact (IH Hs)].
  cbn [map]. constructor; [exact (IH Hs)|]. rewrite Forall_forall in *. intros i Hi. apply Hx. apply in_map_iff in Hi. destruct Hi as (z & <- & Hz).
  apply filter_In in Hz. apply in_map. apply Hz.
Qed.

Lemma nth_error_firstn {A} (l : list A) : forall d i, nth_error (firstn d l) i = if Nat.ltb i d then nth_error l i else None.
Proof.
  induction l as [|x l IH]; intros [|d] [|i]; cbn [firstn nth_error]; try reflexivity.
  - destruct (Nat.ltb _ _); reflexivity.
  - rewrite IH. reflexivity.
Qed.

(** The members of a filtered prefix of the arena. *)
Lemma prefix_ids A (P : traversal -> bool) d v : indexed A -> d <= length A -> StronglySorted lt v ->
  (forall i, In i v <-> exists x, nth_error A i = Some x /\ i < d /\ P x = true) -> v = map t_id (filter P (firstn d A)).
Proof.
  intros HA Hd Hv Hi. apply ascending_same; [exact Hv| |].
  - apply filter_ascending. rewrite <- firstn_map, (indexed_ids _ HA). replace (length A) with (d + (length A - d)) by lia.
    rewrite seq_app, firstn_app, seq_length, Nat.sub_diag, firstn_O, app_nil_r, firstn_all2; [apply seq_ascending|]. rewrite seq_length. lia.
  - intro i. rewrite Hi, in_map_iff. split.
    + intros (x & Hx & Hlt & Hp). exists x. split; [apply HA, Hx|]. apply filter_In. split; [|exact Hp].
      apply (nth_error_In _ i). rewrite nth_error_firstn. destruct (Nat.ltb_spec i d); [exact Hx|lia].
    + intros (x & <- & Hx). apply filter_In in Hx. destruct Hx as [Hx Hp]. apply In_nth_error in Hx. destruct Hx as [j Hj].
      rewrite nth_error_firstn in Hj. destruct (Nat.ltb_spec j d); [|discriminate]. rewrite (HA _ _ Hj). eauto.
Qed.

Lemma firstn_grows {A} d (l more : list A) : d <= length l -> firstn d (l ++ more) = firstn d l.
Proof. intro H. rewrite firstn_app. replace (d - length l) with 0 by lia. rewrite firstn_O. apply app_nil_r. Qed.

Lemma Forall2_map_r {A B C} (P : A -> C -> Prop) (f : B -> C) l r : Forall2 P l (map f r) -> Forall2 (fun a b => P a (f b)) l r.
Proof. revert l. induction r as [|b r IH]; intros l H; inversion H; subst; constructor; auto. Qed.

Lemma tracks_indexed g ids tr : tracks g ids tr -> indexed (tt_arena tr).
Proof.
  intros (ops & H & _) i x Hx. destruct (tree_run_inv _ _ _ _ _ tree_inv_empty H) as (HI & _ & _).
  destruct (inv_key _ _ _ _ HI Hx) as (k & _ & Hs & _). exact Hs.
Qed.

Lemma tracks_valid g ids tr i x : tracks g ids tr -> nth_error (tt_arena tr) i = Some x -> exists y, nth_error (numbered g) (t_pid x) = Some y.
Proof.
  intros (ops & H & Hop) Hx. destruct (tree_run_inv _ _ _ _ _ tree_inv_empty H) as (HI & _ & _).
  destruct (inv_path _ _ HI _ _ Hx) as (r & l & _ & range & rhs & st & _ & Hin). rewrite Forall_forall in Hop. exact (Hop _ Hin).
Qed.

(** What the completion map holds after the traversals before [d] and [d] itself were recorded. *)
Lemma complete_ids g tr ids l d n pos : tracks g ids tr -> d < length (tt_arena tr) ->
  (forall x lhs, In (x, lhs) l <-> In (t_id x) (seq 0 (S d)) /\ recorded (pg_new_unchecked g) tr x lhs) ->
  (forall t, nth_error (tt_arena tr) d = Some t -> t_unmatched t <> []) ->
  cm_lookup (cm_complete (completions l)) (n, pos) = map t_id (filter (finished_at g n pos) (firstn d (tt_arena tr))).
Proof.
  intros Ht Hd Hl Hself. pose proof (tracks_indexed _ _ _ Ht) as HA. destruct (complete_spec l n pos) as [Hs Hi]. apply prefix_ids; [exact HA|lia|exact Hs|].
  intro i. rewrite Hi. unfold recorded, tt_get, finished_at in *. split.
  - intros (x & Hx & <- & Hu & Hp). apply Hl in Hx. destruct Hx as (Hin & Hg & _ & rhs & Hr). apply in_seq in Hin.
    destruct (nth_error (tt_arena tr) (t_id x)) as [y|] eqn:Ey; [|discriminate]. injection Hg as ->. exists x. split; [reflexivity|].
    apply (proj1 (table_full g)) in Hr. rewrite Hu, Hr. cbn [fst]. rewrite term_eqb_refl, Hp, Nat.eqb_refl. split; [|reflexivity].
    destruct (Nat.eq_dec (t_id x) d) as [E|]; [|lia]. rewrite E in Ey. exfalso. exact (Hself _ Ey Hu).
  - intros (x & Hx & Hlt & Hf). pose proof (HA _ _ Hx) as Eid. destruct (t_unmatched x) eqn:Hu; [|discriminate].
    destruct (nth_error (numbered g) (t_pid x)) as [[lhs rhs]|] eqn:Er; [|discriminate]. apply Bool.andb_true_iff in Hf. destruct Hf as [H1 H2].
    apply term_eqb_eq in H1. apply Nat.eqb_eq in H2. cbn [fst] in H1. subst lhs. exists x. split; [|auto]. apply Hl. rewrite Eid, Hx. split; [apply in_seq; lia|].
    split; [reflexivity|]. split; [intros s; unfold next_unmatched; rewrite Hu; discriminate|]. exists rhs. apply (proj1 (table_full g)), Er.
Qed.

Lemma incomplete_ids g tr ids l d n pos : tracks g ids tr -> d < length (tt_arena tr) ->
  (forall x lhs, In (x, lhs) l <-> In (t_id x) (seq 0 (S d)) /\ recorded (pg_new_unchecked g) tr x lhs) ->
  (forall t, nth_error (tt_arena tr) d = Some t -> t_unmatched t = []) ->
  cm_lookup (cm_incomplete (completions l)) (n, pos) = map t_id (filter (waiting_at n pos) (firstn d (tt_arena tr))).
Proof.
  intros Ht Hd Hl Hself. pose proof (tracks_indexed _ _ _ Ht) as HA. destruct (incomplete_spec l n pos) as [Hs Hi]. apply prefix_ids; [exact HA|lia|exact Hs|].
  intro i. rewrite Hi. unfold recorded, tt_get, waiting_at in *. split.
  - intros (x & lhs & m & Hx & <- & -> & Hu & Hp). apply Hl in Hx. destruct Hx as (Hin & Hg & _). apply in_seq in Hin.
    destruct (nth_error (tt_arena tr) (t_id x)) as [y|] eqn:Ey; [|discriminate]. injection Hg as ->. exists x. split; [reflexivity|].
    rewrite Hu, term_eqb_refl. unfold total_len in Hp. rewrite Hp, Nat.eqb_refl. split; [|reflexivity].
    destruct (Nat.eq_dec (t_id x) d) as [E|]; [|lia]. rewrite E in Ey. specialize (Hself _ Ey). unfold next_unmatched in Hu. rewrite Hself in Hu. discriminate.
  - intros (x & Hx & Hlt & Hf). pose proof (HA _ _ Hx) as Eid. destruct (next_unmatched x) as [[s|m]|] eqn:Hu; try discriminate.
    apply Bool.andb_true_iff in Hf. destruct Hf as [H1 H2]. apply term_eqb_eq in H1. apply Nat.eqb_eq in H2. subst n.
    destruct (tracks_valid _ _ _ _ _ Ht Hx) as ([lhs rhs] & Hr). apply (proj1 (table_full g)) in Hr. exists x, lhs, m. split; [|auto]. apply Hl. rewrite Eid, Hx. split; [apply in_seq; lia|].
    split; [reflexivity|]. split; [intros s; rewrite Hu; discriminate|]. exists rhs. exact Hr.
Qed.

Lemma announced_app a b : announced (a ++ b) = announced a ++ announced b.
Proof. apply flat_map_app. Qed.

Lemma announced_span name l : announced (span name l) = announced l.
Proof. unfold span. cbn [announced flat_map app]. change (flat_map _ (l ++ [Leave (lit name)])) with (announced (l ++ [Leave (lit name)])). rewrite announced_app. apply app_nil_r. Qed.

Lemma announced_pop t l : announced (Said (QueuePop t) :: l) = announced l.
Proof. reflexivity. Qed.

Lemma announced_each name (e : nat -> tevent) new : (forall i, announced [Said (e i)] = [i]) -> announced (flat_map (fun i => blank name ++ [Said (e i)]) new) = new.
Proof.
  intro H. induction new as [|i new IH]; [reflexivity|]. cbn [flat_map]. rewrite !announced_app, IH, H. unfold blank. rewrite announced_span. reflexivity.
Qed.

Lemma tracks_get g ids tr id t : tracks g ids tr -> tt_get tr id = Ok t -> nth_error (tt_arena tr) id = Some t /\ t_id t = id.
Proof.
  intros Ht H. unfold tt_get in H. destruct (nth_error (tt_arena tr) id) as [x|] eqn:E; [|discriminate]. injection H as ->. split; [reflexivity|]. exact (tracks_indexed _ _ _ Ht _ _ E).
Qed.

Lemma ok_parts {A B C} (a a' : A) (b b' : B) (c c' : C) : Ok ((a, b), c) = Ok ((a', b'), c') -> a = a' /\ b = b' /\ c = c'.
Proof. intro H. injection H. auto. Qed.

(** One pop. *)
Lemma process_log g ids l out tr q cm d r st lg : tracks g ids tr -> popped out = seq 0 (S d) ->
  historical (pg_new_unchecked g) (seq 0 d) l out tr q cm ->
  process_t (pg_new_unchecked g) tr q cm d = Ok ((r, st), lg) ->
  tracks g (ids ++ announced lg) (s_tree st) /\ grows tr (s_tree st) /\
  exists t, nth_error (tt_arena tr) d = Some t /\ forall more, step_log g (tt_arena (s_tree st) ++ more) t lg.
Proof.
  intros Ht Hpop Hh H. unfold process_t in H. destruct (tt_get tr d) as [t| |] eqn:Et; cbn [rbind] in H; try discriminate.
  destruct (tracks_get _ _ _ _ _ Ht Et) as [Hn Hid]. pose proof (nth_error_lt _ _ _ Hn) as Hd.
  assert (Hg : tt_get tr (t_id t) = Ok t) by (rewrite Hid; exact Et).
  assert (Hin : In (t_id t) (popped out)) by (rewrite Hpop, Hid; apply in_seq; lia).
  assert (Hnf : ~ In (t_id t) (seq 0 d)) by (rewrite in_seq, Hid; lia).
  destruct (next_unmatched t) as [[s|n]|] eqn:En.
  - destruct (starts_with _ _) eqn:Es.
    + destruct (match_all_t _ _ _ _) as [[[tr1 q1] l1]| |] eqn:E1; cbn [rbind] in H; try discriminate. apply ok_parts in H; destruct H as (<- & <- & <-).
      destruct (match_all_log _ _ _ _ _ _ _ _ _ Ht E1) as (new & -> & Ht1 & Hg1 & Hc). cbn [s_tree].
      inversion Hc as [|i pm new' ms Hi Hc']; subst. inversion Hc'; subst. cbn [fst snd] in Hi. cbn [flat_map]. rewrite app_nil_r.
      split; [exact Ht1|]. split; [exact Hg1|]. exists t. split; [exact Hn|]. intro more. apply (step_scan _ _ _ s); [exact En|exact Es|apply child_of_grows, Hi].
    + apply ok_parts in H; destruct H as (<- & <- & <-). cbn [s_tree]. split; [cbn; rewrite app_nil_r; exact Ht|]. split; [apply grows_refl|]. exists t. split; [exact Hn|].
      intro more. exact (step_no_scan _ _ _ s En Es).
  - destruct (get_production_by_id _ (t_pid t)) as [[lhs rhs]| |] eqn:Ed; cbn [rbind fst] in H; try discriminate.
    pose proof (insert_history _ _ _ _ _ _ _ _ _ _ Hh Hin Hnf Hg Ed ltac:(rewrite En; discriminate)) as Hi. rewrite Hid, <- seq_S in Hi.
    destruct (predict_all_t _ _ _ _ _ _ _) as [[[tr1 q1] l1]| |] eqn:E1; cbn [rbind] in H; try discriminate.
    destruct (match_all_t _ _ _ _) as [[[tr2 q2] l2]| |] eqn:E2; cbn [rbind] in H; try discriminate. apply ok_parts in H; destruct H as (<- & <- & <-).
    destruct (predict_all_log _ _ _ _ _ _ _ _ _ _ _ Ht E1) as (new & -> & Ht1 & Hg1 & Hr).
    destruct (match_all_log _ _ _ _ _ _ _ _ _ Ht1 E2) as (old & -> & Ht2 & Hg2 & Hc). cbn [s_tree].
    destruct Hi as (ops & ids0 & qops & [_ _ Hcm _ _ Hrec]). rewrite Hcm in Hc. unfold get_complete, key_total, total_len in Hc.
    rewrite (complete_ids g tr ids _ d (Nonterminal n) (r_start (t_range t) + r_len (t_range t)) Ht Hd Hrec) in Hc;
      [|intros t' Ht'; rewrite Hn in Ht'; injection Ht' as <-; unfold next_unmatched in En; destruct (t_unmatched t); discriminate].
    pose proof (grows_trans _ _ _ Hg1 Hg2) as Hg12. split; [|split; [exact Hg12|]].
    + rewrite <- app_assoc in Ht2. rewrite announced_pop, announced_span, !announced_app, !announced_each by reflexivity. exact Ht2.
    + exists t. split; [exact Hn|]. intro more. apply (step_predict _ _ _ n); [exact En| |].
      * rewrite (proj1 (proj2 (proj2 (table_full g)))) in Hr. eapply Forall2_grows; [|exact Hr]. intros a b Hab. destruct Hg2 as [m2 ->]. rewrite <- app_assoc. apply root_of_grows, Hab.
      * rewrite Hid. destruct Hg12 as [m2 Em]. rewrite Em, <- app_assoc, firstn_grows by lia. apply Forall2_map_r in Hc. apply Forall2_map_r in Hc.
        eapply Forall2_grows; [|exact Hc]. intros a b Hab. cbn [fst snd] in Hab. rewrite app_assoc, <- Em. apply child_of_grows, Hab.
  - destruct (get_production_by_id _ (t_pid t)) as [[lhs rhs]| |] eqn:Ed; cbn [rbind fst] in H; try discriminate.
    pose proof (insert_history _ _ _ _ _ _ _ _ _ _ Hh Hin Hnf Hg Ed ltac:(rewrite En; discriminate)) as Hi. rewrite Hid, <- seq_S in Hi.
    destruct (match_all_t _ _ _ _) as [[[tr2 q2] l2]| |] eqn:E2; cbn [rbind] in H; try discriminate. apply ok_parts in H; destruct H as (<- & <- & <-).
    destruct (match_all_log _ _ _ _ _ _ _ _ _ Ht E2) as (next & -> & Ht2 & Hg2 & Hc). cbn [s_tree].
    destruct Hi as (ops & ids0 & qops & [_ _ Hcm _ _ Hrec]). rewrite Hcm in Hc. unfold get_incomplete, key_start in Hc.
    rewrite (incomplete_ids g tr ids _ d lhs (r_start (t_range t)) Ht Hd Hrec) in Hc;
      [|intros t' Ht'; rewrite Hn in Ht'; injection Ht' as <-; unfold next_unmatched in En; destruct (t_unmatched t); [reflexivity|discriminate]].
    split; [|split; [exact Hg2|]].
    + rewrite announced_pop, announced_span, !announced_app, !announced_each by reflexivity. exact Ht2.
    + exists t. split; [exact Hn|]. intro more. apply (step_complete _ _ _ lhs rhs); [exact En|apply (proj1 (table_full g)), Ed|].
      rewrite Hid. destruct Hg2 as [m2 Em]. rewrite Em, <- app_assoc, firstn_grows by lia. apply Forall2_map_r in Hc. apply Forall2_map_r in Hc.
      eapply Forall2_grows; [|exact Hc]. intros a b Hab. cbn [fst snd] in Hab. rewrite app_assoc, <- Em. apply child_of_grows, Hab.
Qed.

Lemma steps_grow g A d d' l : steps_log g A d d' l -> d <= d'.
Proof. induction 1; lia. Qed.

Lemma steps_app g A d d1 d2 l l' : steps_log g A d d1 l -> steps_log g A d1 d2 l' -> steps_log g A d d2 (l ++ l').
Proof. induction 1 as [|d d1 t l l1 Hn Hs _ IH]; intro H; [exact H|]. rewrite <- app_assoc. econstructor; eauto. Qed.

(** The state after [d] pops. *)
Definition state_ok (g : grammar) (ids : list nat) (d : nat) (st : pstate) : Prop :=
  tracks g ids (s_tree st) /\ exists l out, popped out = seq 0 d /\ historical (pg_new_unchecked g) (popped out) l out (s_tree st) (s_queue st) (s_comp st).

Lemma state_queue g ids d st : state_ok g ids d st -> d <= length (tt_arena (s_tree st)) /\ q_queue (s_queue st) = seq d (length (tt_arena (s_tree st)) - d).
Proof.
  intros (_ & l & out & Hp & ops & ids0 & qops & Hh). pose proof (in_order _ _ _ _ _ _ _ _ _ _ Hh) as Ho. rewrite Hp in Ho.
  assert (Hl : d <= length (tt_arena (s_tree st))).
  { rewrite <- (seq_length (length (tt_arena (s_tree st))) 0), <- Ho, app_length, seq_length. lia. }
  split; [exact Hl|]. replace (length (tt_arena (s_tree st))) with (d + (length (tt_arena (s_tree st)) - d)) in Ho by lia.
  rewrite seq_app in Ho. apply app_eq_len in Ho; [|rewrite !seq_length; reflexivity]. exact (proj2 Ho).
Qed.

Lemma loop_log g fuel : forall ids d st r st' lg, state_ok g ids d st -> earley_loop_t fuel (pg_new_unchecked g) st = Ok ((r, st'), lg) ->
  exists d', state_ok g (ids ++ announced lg) d' st' /\ grows (s_tree st) (s_tree st') /\ (r = None -> d' = length (tt_arena (s_tree st'))) /\
    forall more, steps_log g (tt_arena (s_tree st') ++ more) d d' lg.
Proof.
  induction fuel as [|fuel IH]; intros ids d st r st' lg Hs H; cbn [earley_loop_t] in H; [discriminate|].
  pose proof (state_queue _ _ _ _ Hs) as [Hd Hq]. destruct (q_queue (s_queue st)) as [|id rest] eqn:Eq.
  - apply ok_parts in H. destruct H as (<- & <- & <-). exists d. cbn [announced flat_map]. rewrite app_nil_r. split; [exact Hs|]. split; [apply grows_refl|]. split.
    + intros _. destruct (length (tt_arena (s_tree st)) - d) eqn:E; [lia|discriminate].
    + intro more. constructor.
  - destruct Hs as (Ht & l & out & Hp & Hh).
    assert (Hpos : id = d /\ rest = seq (S d) (length (tt_arena (s_tree st)) - S d)).
    { destruct (length (tt_arena (s_tree st)) - d) as [|k] eqn:E; [discriminate|]. cbn [seq] in Hq. injection Hq as -> ->. split; [reflexivity|]. f_equal. lia. }
    destruct Hpos as [-> Hrest].
    destruct (process_t _ _ _ _ _) as [[[found st1] l1]| |] eqn:E; cbn [rbind] in H; try discriminate.
    assert (Hpop : popped (out ++ [Some d]) = seq 0 (S d)) by (rewrite popped_app, Hp, seq_S; reflexivity).
    assert (Hh1 : historical (pg_new_unchecked g) (seq 0 d) l (out ++ [Some d]) (s_tree st) (mkQ (q_processed (s_queue st)) rest) (s_comp st)).
    { destruct Hh as (ops & ids0 & qops & [H1 H2 H3 H4 H5 H6]). exists ops, ids0, (qops ++ [Pop]). rewrite Hp in *. split; [exact H1| |exact H3| | |exact H6].
      - rewrite queue_run_app, H2. cbn [queue_run]. rewrite Eq. reflexivity.
      - rewrite pushes_app, H4. apply app_nil_r.
      - rewrite Hpop, seq_S. apply incl_appl, incl_refl. }
    destruct (process_log _ _ _ _ _ _ _ _ _ _ _ Ht Hpop Hh1 E) as (Ht1 & Hg1 & t & Hn & Hl).
    pose proof (unlogged_Ok _ _ _ E) as Eu. rewrite process_unlogged in Eu.
    assert (Hi1 : In d (popped (out ++ [Some d]))) by (rewrite Hpop; apply in_seq; lia).
    assert (Hi2 : ~ In d (seq 0 d)) by (rewrite in_seq; lia).
    destruct (process_history _ _ _ _ _ _ _ _ _ _ Hh1 Hi1 Hi2 Eu) as (l' & Hl').
    assert (Ep : seq 0 d ++ [d] = popped (out ++ [Some d])) by (rewrite Hpop, seq_S; reflexivity). rewrite Ep in Hl'. assert (Hs1 : state_ok g (ids ++ announced l1) (S d) st1) by (split; [exact Ht1|]; exists l', (out ++ [Some d]); auto).
    assert (Hn1 : forall more, nth_error (tt_arena (s_tree st1) ++ more) d = Some t) by (intro more; destruct Hg1 as [m1 ->]; apply nth_error_ext, nth_error_ext, Hn).
    destruct found as [i|].
    + apply ok_parts in H. destruct H as (<- & <- & <-). exists (S d). split; [exact Hs1|]. split; [exact Hg1|]. split; [discriminate|].
      intro more. rewrite <- (app_nil_r l1). econstructor; [apply Hn1|apply Hl|constructor].
    + destruct (earley_loop_t fuel _ st1) as [[[r2 st2] l2]| |] eqn:E2; cbn [rbind] in H; try discriminate. apply ok_parts in H. destruct H as (<- & <- & <-).
      destruct (IH _ _ _ _ _ _ Hs1 E2) as (d' & Hs2 & Hg2 & Hend & Hl2). exists d'. rewrite announced_app, app_assoc. split; [exact Hs2|].
      split; [eapply grows_trans; eassumption|]. split; [exact Hend|]. intro more. econstructor; [| |apply Hl2].
      * destruct Hg2 as [m2 ->]. rewrite <- app_assoc. apply Hn1.
      * destruct Hg2 as [m2 ->]. rewrite <- app_assoc. apply Hl.
Qed.

(** One call of [next]. *)
Lemma next_log g fuel ids d it o it' lg : gp_pg (it_parser it) = pg_new_unchecked g -> state_ok g ids d (it_state it) ->
  iter_next_t fuel it = Ok ((o, it'), lg) ->
  gp_pg (it_parser it') = pg_new_unchecked g /\ grows (s_tree (it_state it)) (s_tree (it_state it')) /\
  exists d', state_ok g (ids ++ announced lg) d' (it_state it') /\ (o = None -> d' = length (tt_arena (s_tree (it_state it')))) /\
    forall more, call_log g (tt_arena (s_tree (it_state it')) ++ more) d d' o lg.
Proof.
  intros Hpg Hs H. unfold iter_next_t, earley_t in H. cbv zeta in H. rewrite Hpg in H.
  destruct (earley_loop_t _ _ _) as [[[found st] l]| |] eqn:E; cbn [rbind] in H; try discriminate.
  destruct (loop_log _ _ _ _ _ _ _ _ Hs E) as (d' & Hs' & Hg & Hend & Hl). destruct found as [id|].
  - destruct (parse_tree_t _ _ _ _) as [[t lt]| |] eqn:Et; cbn [rbind] in H; try discriminate. apply ok_parts in H. destruct H as (<- & <- & <-).
    cbn [it_parser it_state]. split; [exact Hpg|]. split; [exact Hg|]. exists d'. rewrite (parse_tree_log _ _ _ _ _ _ Et).
    assert (Ea : announced (span "earley" l ++ span "next_parse_tree" (tree_log t ++ [Said (FoundTree (10%N :: display_tree t))])) = announced l).
    { rewrite announced_app, !announced_span, announced_app. cbn [announced flat_map]. rewrite app_nil_r.
      assert (Z : forall t, announced (tree_log t) = []).
      { clear. fix IH 1. intros [lhs kids]. cbn [tree_log]. rewrite !announced_app. unfold blank at 1 3. rewrite !announced_span. cbn [announced flat_map app]. rewrite app_nil_r.
        induction kids as [|k kids IHk]; [reflexivity|]. cbn [flat_map]. rewrite !announced_app, IHk. unfold blank. rewrite announced_span.
        destruct k as [s|t]; [reflexivity|]. rewrite (IH t). reflexivity. }
      change (announced l ++ announced (tree_log t) = announced l). rewrite Z. apply app_nil_r. }
    rewrite Ea. split; [exact Hs'|]. split; [discriminate|]. intro more. constructor. apply Hl.
  - apply ok_parts in H. destruct H as (<- & <- & <-). cbn [it_parser it_state]. split; [exact Hpg|]. split; [exact Hg|]. exists d'.
    rewrite announced_span. split; [exact Hs'|]. split; [intros _; exact (Hend eq_refl)|]. intro more. constructor. apply Hl.
Qed.

Lemma calls_story g it ts it1 lg : produces_t it ts it1 lg -> forall ids d, gp_pg (it_parser it) = pg_new_unchecked g -> state_ok g ids d (it_state it) ->
  gp_pg (it_parser it1) = pg_new_unchecked g /\ grows (s_tree (it_state it)) (s_tree (it_state it1)) /\
  exists d', state_ok g (ids ++ announced lg) d' (it_state it1) /\ forall more, calls_log g (tt_arena (s_tree (it_state it1)) ++ more) d ts d' lg.
Proof.
  induction 1 as [it|it t it1 ts it2 fuel l l' H _ IH]; intros ids d Hpg Hs.
  - split; [exact Hpg|]. split; [apply grows_refl|]. exists d. cbn [announced flat_map]. rewrite app_nil_r. split; [exact Hs|]. intro more. constructor.
  - destruct (next_log _ _ _ _ _ _ _ _ Hpg Hs H) as (Hpg1 & Hg1 & d1 & Hs1 & _ & Hl1). destruct (IH _ _ Hpg1 Hs1) as (Hpg2 & Hg2 & d2 & Hs2 & Hl2).
    split; [exact Hpg2|]. split; [eapply grows_trans; eassumption|]. exists d2. rewrite announced_app, app_assoc. split; [exact Hs2|].
    intro more. econstructor; [|apply Hl2]. destruct Hg2 as [m2 ->]. rewrite <- app_assoc. apply Hl1.
Qed.

(** The beginning: as many traversals as the start has alternatives, of which nothing is said. *)
Lemma Forall2_len {A B} (P : A -> B -> Prop) l r : Forall2 P l r -> length l = length r.
Proof. induction 1; cbn; congruence. Qed.

Lemma new_log g p input start it lg : gp_pg p = pg_new_unchecked g -> iter_new_t p input start = Ok (it, lg) ->
  let s := match start with Some t => t | None => gp_start p end in
  let n := length (alternatives_of g s) in
  it_parser it = p /\ state_ok g (seq 0 n) 0 (it_state it) /\ n = length (tt_arena (s_tree (it_state it))) /\
  lg = span "ParseTreeIter::new" (starting_log n).
Proof.
  intros Hpg H. cbv zeta. unfold iter_new_t in H. cbv zeta in H. rewrite Hpg in H. set (s := match start with Some t => t | None => gp_start p end) in *.
  destruct (predict_all_t _ _ _ _ _ _ _) as [[[tr q] l]| |] eqn:E; cbn [rbind] in H; try discriminate.
  assert (H' : mkI p (mkS tr q (mkCM [] [])) = it /\ span "ParseTreeIter::new" l = lg) by (split; congruence). clear H. destruct H' as [<- <-].
  cbn [it_parser it_state s_tree s_queue s_comp]. split; [reflexivity|].
  rewrite (proj1 (proj2 (proj2 (table_full g)))) in E. change (filter _ (seq 0 (length (numbered g)))) with (alternatives_of g s) in E.
  assert (Ht0 : tracks g [] (mkTT [] [] [])) by (exists []; split; [reflexivity|constructor]).
  destruct (predict_all_log _ _ _ _ _ _ _ _ _ _ _ Ht0 E) as (new & -> & Ht & _ & Hr). cbn [app] in Ht.
  pose proof (Forall2_len _ _ _ Hr) as Hlen.
  assert (Hnd : NoDup new).
  { assert (Hd : NoDup (alternatives_of g s)) by (apply NoDup_filter, seq_NoDup). clear - Hr Hd. revert Hd. induction Hr as [|a b new r (x & Hx & _ & Hp & _) Hr IH]; intro Hd; constructor.
    - inversion Hd as [|b0 r0 Hb Hd']; subst. intro Hin. apply Hb. clear - Hr Hin Hx. induction Hr as [|a' b' new r (y & Hy & _ & Hp & _) Hr IH]; [destruct Hin|].
      destruct Hin as [->|Hin]; [left; congruence|right; auto].
    - inversion Hd; auto. }
  assert (Hf : firsts Nat.eqb new = new).
  { clear - Hnd. induction new as [|x new IH] using rev_ind; [reflexivity|]. rewrite firsts_snoc. apply NoDup_remove in Hnd. rewrite app_nil_r in Hnd. destruct Hnd as [Hnd Hx].
    rewrite (IH Hnd). destruct (memb Nat.eqb x new) eqn:E; [|reflexivity]. apply (memb_In _ Nat.eqb_eq) in E. contradiction. }
  destruct Ht as (ops & Ho & Hop). pose proof (ids_dense _ _ _ Ho) as Hd. rewrite Hf in Hd.
  assert (En : length (alternatives_of g s) = length (tt_arena tr)) by (rewrite <- Hlen, Hd; apply seq_length).
  split; [|split; [exact En|]].
  - split; [cbn [s_tree]; exists ops; split; [rewrite En, <- Hd; exact Ho|exact Hop]|]. exists [], []. cbn [s_tree s_queue s_comp]. split; [reflexivity|].
    pose proof (unlogged_Ok _ _ _ E) as Eu. rewrite predict_all_unlogged in Eu. eapply predict_all_history; [|exact Eu].
    exists [], [], []. split; try reflexivity; [intros i []|]. intros x lhs. split; [intros []|intros [[] _]].
  - f_equal. rewrite <- Hlen. clear. induction new as [|i new IH]; [reflexivity|]. cbn [flat_map length]. rewrite IH, app_nil_r. reflexivity.
Qed.

Lemma opens_story g start input it lg : opens_t g start input it lg ->
  let n := length (alternatives_of g start) in
  gp_pg (it_parser it) = pg_new_unchecked g /\ state_ok g (seq 0 n) 0 (it_state it) /\ n = length (tt_arena (s_tree (it_state it))) /\
  opening_log n lg.
Proof.
  intros Ho. cbv zeta.
  assert (K : forall (A : Type) (a a' : A) (l l' : log), Ok (a, l) = Ok (a', l') -> a = a' /\ l = l') by (intros A a a' l l' H; injection H; auto).
  destruct Ho as [ho p it lg Hb H|ho p it lg Hb Hs H|it lg H|it lg Hs H].
  - apply build_parser_eq in Hb. destruct Hb as (st0 & _ & ->). unfold parse_input_starting_with_t in H.
    destruct (iter_new_t _ _ _) as [[it' l]| |] eqn:E; cbn [rbind] in H; try discriminate. apply K in H. destruct H as [<- <-].
    destruct (new_log g (mkGP st0 (pg_new_unchecked g)) _ _ _ _ eq_refl E) as (Hp & Hs & Hn & ->). rewrite Hp. split; [reflexivity|]. split; [exact Hs|]. split; [exact Hn|].
    apply opening_with.
  - apply build_parser_eq in Hb. destruct Hb as (st0 & Hst & ->). rewrite Hs in Hst. injection Hst as <-. unfold parse_input_t, parse_input_starting_with_t in H.
    destruct (iter_new_t _ _ _) as [[it' l]| |] eqn:E; cbn [rbind] in H; try discriminate. apply K in H. destruct H as [<- <-].
    destruct (new_log g (mkGP start (pg_new_unchecked g)) _ _ _ _ eq_refl E) as (Hp & Hs' & Hn & ->). rewrite Hp. split; [reflexivity|]. split; [exact Hs'|]. split; [exact Hn|].
    apply opening_default.
  - unfold grammar_parse_input_starting_with_t, parser_new_unchecked_t, parser_new_unchecked in H. destruct (starting_term g) as [st0|]; cbn [expect rbind] in H; [|discriminate].
    destruct (iter_new_t _ _ _) as [[it' l]| |] eqn:E; cbn [rbind] in H; try discriminate. apply K in H. destruct H as [<- <-].
    destruct (new_log g (mkGP st0 (pg_new_unchecked g)) _ _ _ _ eq_refl E) as (Hp & Hs & Hn & ->). rewrite Hp. split; [reflexivity|]. split; [exact Hs|]. split; [exact Hn|].
    apply opening_deprecated.
  - unfold grammar_parse_input_t, parser_new_unchecked_t, parser_new_unchecked in H. rewrite Hs in H; cbn [expect rbind] in H.
    destruct (iter_new_t _ _ _) as [[it' l]| |] eqn:E; cbn [rbind] in H; try discriminate. apply K in H. destruct H as [<- <-].
    destruct (new_log g (mkGP start (pg_new_unchecked g)) _ _ _ _ eq_refl E) as (Hp & Hs' & Hn & ->). rewrite Hp. split; [reflexivity|]. split; [exact Hs'|]. split; [exact Hn|].
    apply opening_deprecated.
Qed.

(** ** What follows *)

Lemma nested_app a b : nested a -> nested b -> nested (a ++ b).
Proof. induction 1 as [|e l _ IH|name a1 b1 H1 _ H2 IH]; intro H; [exact H|constructor; auto|]. cbn [app]. rewrite <- app_assoc. cbn [app]. constructor; auto. Qed.

Lemma nested_in name l : nested l -> nested (span name l).
Proof. intro H. apply nested_span; [exact H|constructor]. Qed.

Lemma nested_flat_map {A} (f : A -> log) l : (forall a, nested (f a)) -> nested (flat_map f l).
Proof. intro H. induction l as [|a l IH]; [constructor|]. cbn [flat_map]. apply nested_app; auto. Qed.

Ltac nested_tac := repeat first [assumption | apply nested_in | apply nested_app | apply nested_flat_map; intro | apply nested_said | apply nested_nil].

Lemma step_nested g A t l : step_log g A t l -> nested l.
Proof. destruct 1; apply nested_said; unfold blank; nested_tac. Qed.

Lemma steps_nested g A d d' l : steps_log g A d d' l -> nested l.
Proof. induction 1; [constructor|]. apply nested_app; [eapply step_nested; eassumption|assumption]. Qed.

Lemma tree_nested t : nested (tree_log t).
Proof.
  revert t. fix IH 1. intros [lhs kids]. cbn [tree_log]. apply nested_app; [apply nested_in, nested_nil|]. apply nested_app; [|apply nested_in, nested_nil].
  induction kids as [|k kids IHk]; [constructor|]. cbn [flat_map]. apply nested_app; [|exact IHk]. apply nested_app; [apply nested_in, nested_nil|]. destruct k as [s|t]; [constructor|apply IH].
Qed.

Lemma call_nested g A d d' o l : call_log g A d d' o l -> nested l.
Proof.
  destruct 1 as [l H|l t H]; [apply nested_in; eapply steps_nested; exact H|]. apply nested_app; apply nested_in; [eapply steps_nested; exact H|].
  apply nested_app; [apply tree_nested|constructor; constructor].
Qed.

Lemma calls_nested g A d ts d' l : calls_log g A d ts d' l -> nested l.
Proof. induction 1; [constructor|]. apply nested_app; [eapply call_nested; eassumption|assumption]. Qed.

Lemma opening_nested n l : opening_log n l -> nested l.
Proof.
  assert (H : nested (starting_log n)) by (induction n as [|n IH]; [constructor|]; apply nested_app; [apply nested_in, nested_nil|exact IH]).
  destruct 1; unfold blank; nested_tac.
Qed.

Lemma opens_nested g start input it l : opens_t g start input it l -> nested l.
Proof. intro H. destruct (opens_story _ _ _ _ _ H) as (_ & _ & _ & Ho). exact (opening_nested _ _ Ho). Qed.

(** The traversals taken from the queue. *)
Lemma pops_app a b : pops (a ++ b) = pops a ++ pops b.
Proof. apply flat_map_app. Qed.

Lemma pops_span name l : pops (span name l) = pops l.
Proof. change (pops (span name l)) with (pops (l ++ [Leave (lit name)])). rewrite pops_app. apply app_nil_r. Qed.

Lemma pops_each name (e : nat -> tevent) new : (forall i, pops [Said (e i)] = []) -> pops (flat_map (fun i => blank name ++ [Said (e i)]) new) = [].
Proof. intro H. induction new as [|i new IH]; [reflexivity|]. cbn [flat_map]. rewrite !pops_app, IH, H. unfold blank. rewrite pops_span. reflexivity. Qed.

Lemma step_pops g A t l : step_log g A t l -> pops l = [t].
Proof.
  assert (E : forall x, pops (Said (QueuePop t) :: x) = t :: pops x) by reflexivity.
  destruct 1; rewrite E, pops_span; unfold blank; rewrite ?pops_app, ?pops_span; fold (blank "match_term"); fold (blank "traversal_tree_predict_is_starting"); rewrite ?pops_each by reflexivity; reflexivity.
Qed.

Lemma firstn_step {A} (l : list A) d x : nth_error l d = Some x -> firstn (S d) l = firstn d l ++ [x].
Proof. revert d. induction l as [|y l IH]; intros [|d] H; cbn in *; try discriminate; [injection H as ->; reflexivity|]. rewrite (IH _ H). reflexivity. Qed.

Lemma steps_pops g A d d' l : steps_log g A d d' l -> firstn d A ++ pops l = firstn d' A.
Proof.
  induction 1 as [d|d d' t l l' Hn Hs _ IH]; [apply app_nil_r|]. rewrite pops_app, (step_pops _ _ _ _ Hs), app_assoc, <- (firstn_step _ _ _ Hn). exact IH.
Qed.

Lemma tree_pops t : pops (tree_log t) = [].
Proof.
  revert t. fix IH 1. intros [lhs kids]. cbn [tree_log]. rewrite !pops_app. unfold blank at 1 3. rewrite !pops_span. change (pops (@nil entry)) with (@nil traversal). cbn [app]. rewrite app_nil_r.
  induction kids as [|k kids IHk]; [reflexivity|]. cbn [flat_map]. rewrite !pops_app, IHk. unfold blank. rewrite pops_span. destruct k as [s|t]; [reflexivity|]. rewrite (IH t). reflexivity.
Qed.

Lemma call_pops g A d d' o l : call_log g A d d' o l -> firstn d A ++ pops l = firstn d' A.
Proof.
  destruct 1 as [l H|l t H]; [rewrite pops_span; eapply steps_pops; exact H|]. rewrite pops_app, !pops_span, pops_app, tree_pops.
  change (pops [Said (FoundTree (10%N :: display_tree t))]) with (@nil traversal). rewrite app_nil_r. eapply steps_pops; exact H.
Qed.

Lemma calls_pops g A d ts d' l : calls_log g A d ts d' l -> firstn d A ++ pops l = firstn d' A.
Proof.
  induction 1 as [d|d d1 d2 t ts l l' Hc _ IH]; [apply app_nil_r|]. rewrite pops_app, app_assoc, (call_pops _ _ _ _ _ _ Hc). exact IH.
Qed.

(** The trees shown. *)
Lemma shown_app a b : shown (a ++ b) = shown a ++ shown b.
Proof. apply flat_map_app. Qed.

Lemma shown_span name l : shown (span name l) = shown l.
Proof. change (shown (span name l)) with (shown (l ++ [Leave (lit name)])). rewrite shown_app. apply app_nil_r. Qed.

Lemma shown_each name (e : nat -> tevent) new : (forall i, shown [Said (e i)] = []) -> shown (flat_map (fun i => blank name ++ [Said (e i)]) new) = [].
Proof. intro H. induction new as [|i new IH]; [reflexivity|]. cbn [flat_map]. rewrite !shown_app, IH, H. unfold blank. rewrite shown_span. reflexivity. Qed.

Lemma step_shown g A t l : step_log g A t l -> shown l = [].
Proof.
  assert (E : forall x, shown (Said (QueuePop t) :: x) = shown x) by reflexivity.
  destruct 1; rewrite E, shown_span; unfold blank; rewrite ?shown_app, ?shown_span; fold (blank "match_term"); fold (blank "traversal_tree_predict_is_starting"); rewrite ?shown_each by reflexivity; reflexivity.
Qed.

Lemma steps_shown g A d d' l : steps_log g A d d' l -> shown l = [].
Proof. induction 1 as [|d d' t l l' Hn Hs _ IH]; [reflexivity|]. rewrite shown_app, (step_shown _ _ _ _ Hs), IH. reflexivity. Qed.

Lemma tree_shown t : shown (tree_log t) = [].
Proof.
  revert t. fix IH 1. intros [lhs kids]. cbn [tree_log]. rewrite !shown_app. unfold blank at 1 3. rewrite !shown_span. change (shown (@nil entry)) with (@nil str). cbn [app]. rewrite app_nil_r.
  induction kids as [|k kids IHk]; [reflexivity|]. cbn [flat_map]. rewrite !shown_app, IHk. unfold blank. rewrite shown_span. destruct k as [s|t]; [reflexivity|]. rewrite (IH t). reflexivity.
Qed.

Lemma calls_shown g A d ts d' l : calls_log g A d ts d' l -> shown l = map (fun t => 10%N :: display_tree t) ts.
Proof.
  induction 1 as [d|d d1 d2 t ts l l' Hc _ IH]; [reflexivity|]. rewrite shown_app, IH. cbn [map]. inversion Hc as [|l0 t0 Hs]; subst.
  rewrite shown_app, !shown_span, shown_app, tree_shown, (steps_shown _ _ _ _ _ Hs). reflexivity.
Qed.

(** ** The statements of the properties *)

Lemma story g start input it l0 ts it1 l : opens_t g start input it l0 -> produces_t it ts it1 l ->
  let n := length (alternatives_of g start) in let A := tt_arena (s_tree (it_state it1)) in
  opening_log n l0 /\ exists d, d <= length A /\ q_queue (s_queue (it_state it1)) = seq d (length A - d) /\ calls_log g A 0 ts d l.
Proof.
  intros Ho Hp. cbv zeta. destruct (opens_story _ _ _ _ _ Ho) as (Hpg & Hs & _ & Hl). split; [exact Hl|].
  destruct (calls_story _ _ _ _ _ Hp _ _ Hpg Hs) as (_ & _ & d & Hs1 & Hc). exists d. destruct (state_queue _ _ _ _ Hs1) as [H1 H2]. split; [exact H1|]. split; [exact H2|].
  specialize (Hc []). rewrite app_nil_r in Hc. exact Hc.
Qed.

Lemma story_end g start input it l0 ts it1 l f it2 l2 : opens_t g start input it l0 -> produces_t it ts it1 l -> iter_next_t f it1 = Ok ((None, it2), l2) ->
  let A := tt_arena (s_tree (it_state it2)) in
  exists d, calls_log g A 0 ts d l /\ call_log g A d (length A) None l2.
Proof.
  intros Ho Hp Hn. cbv zeta. destruct (opens_story _ _ _ _ _ Ho) as (Hpg & Hs & _ & _).
  destruct (calls_story _ _ _ _ _ Hp _ _ Hpg Hs) as (Hpg1 & _ & d & Hs1 & Hc). exists d.
  destruct (next_log _ _ _ _ _ _ _ _ Hpg1 Hs1 Hn) as (_ & [more Hg] & d' & _ & Hend & Hl). rewrite (Hend eq_refl) in Hl. specialize (Hl []). rewrite app_nil_r in Hl.
  split; [rewrite Hg; apply Hc|exact Hl].
Qed.

Lemma log_nested g start input it l0 ts it1 l f o it2 l2 : opens_t g start input it l0 -> produces_t it ts it1 l -> iter_next_t f it1 = Ok ((o, it2), l2) ->
  nested l0 /\ nested l /\ nested l2.
Proof.
  intros Ho Hp Hn. destruct (opens_story _ _ _ _ _ Ho) as (Hpg & Hs & _ & Hl0). split; [exact (opening_nested _ _ Hl0)|].
  destruct (calls_story _ _ _ _ _ Hp _ _ Hpg Hs) as (Hpg1 & _ & d & Hs1 & Hc). split; [exact (calls_nested _ _ _ _ _ _ (Hc []))|].
  destruct (next_log _ _ _ _ _ _ _ _ Hpg1 Hs1 Hn) as (_ & _ & d' & _ & _ & Hl). exact (call_nested _ _ _ _ _ _ (Hl [])).
Qed.

Lemma log_pops g start input it l0 ts it1 l : opens_t g start input it l0 -> produces_t it ts it1 l ->
  exists d, d <= length (tt_arena (s_tree (it_state it1))) /\ pops l = firstn d (tt_arena (s_tree (it_state it1))) /\ map t_id (pops l) = seq 0 d.
Proof.
  intros Ho Hp. destruct (opens_story _ _ _ _ _ Ho) as (Hpg & Hs & _ & _). destruct (calls_story _ _ _ _ _ Hp _ _ Hpg Hs) as (_ & _ & d & Hs1 & Hc). exists d.
  destruct (state_queue _ _ _ _ Hs1) as [H1 _]. split; [exact H1|]. pose proof (calls_pops _ _ _ _ _ _ (Hc [])) as Hq. rewrite app_nil_r in Hq. cbn [firstn app] in Hq. split; [exact Hq|].
  rewrite Hq, <- firstn_map, (indexed_ids _ (tracks_indexed _ _ _ (proj1 Hs1))). replace (length (tt_arena (s_tree (it_state it1)))) with (d + (length (tt_arena (s_tree (it_state it1))) - d)) by lia.
  rewrite seq_app, firstn_app, seq_length, Nat.sub_diag, firstn_O, app_nil_r. apply firstn_all2. rewrite seq_length. lia.
Qed.

Lemma log_announced g start input it l0 ts it1 l : opens_t g start input it l0 -> produces_t it ts it1 l ->
  firsts Nat.eqb (seq 0 (length (alternatives_of g start)) ++ announced l) = seq 0 (length (tt_arena (s_tree (it_state it1)))).
Proof.
  intros Ho Hp. destruct (opens_story _ _ _ _ _ Ho) as (Hpg & Hs & _ & _). destruct (calls_story _ _ _ _ _ Hp _ _ Hpg Hs) as (_ & _ & d & ((ops & Hr & _) & _) & _).
  exact (ids_dense _ _ _ Hr).
Qed.

Lemma log_trees g start input it l0 ts it1 l : opens_t g start input it l0 -> produces_t it ts it1 l ->
  shown l0 = [] /\ shown l = map (fun t => 10%N :: display_tree t) ts.
Proof.
  intros Ho Hp. destruct (story _ _ _ _ _ _ _ _ Ho Hp) as (Hl0 & d & _ & _ & Hc). split; [|exact (calls_shown _ _ _ _ _ _ Hc)].
  assert (H : forall n, shown (starting_log n) = []) by (intro n; induction n as [|n IH]; [reflexivity|]; exact IH).
  destruct Hl0; unfold blank; rewrite ?shown_app, ?shown_span, H; reflexivity.
Qed.

Lemma log_work g start input it l0 ts it1 l f it2 l2 : opens_t g start input it l0 -> produces_t it ts it1 l -> iter_next_t f it1 = Ok ((None, it2), l2) ->
  exists F, NoDup F /\ (forall x, In x F <-> numbered_parse g start input x) /\ length (pops (l ++ l2)) = length F.
Proof.
  intros Ho Hp Hn. destruct (story_end _ _ _ _ _ _ _ _ _ _ _ Ho Hp Hn) as (d & Hc & Hl).
  assert (Ho' : opens g start input it) by (apply opens_logged; eauto). assert (Hp' : produces it ts it1) by (apply produces_logged; eauto).
  apply unlogged_Ok in Hn. rewrite iter_next_unlogged in Hn. destruct (numbered_exact _ _ _ _ _ _ _ _ Ho' Hp' Hn) as (F & H1 & H2 & H3).
  exists F. split; [exact H1|]. split; [exact H2|]. rewrite <- H3, pops_app. pose proof (calls_pops _ _ _ _ _ _ Hc) as Hq. cbn [firstn app] in Hq.
  rewrite Hq, (call_pops _ _ _ _ _ _ Hl), firstn_all. reflexivity.
Qed.

Lemma every_parse : forall g start input it ts it1,
  (opens g start input it <-> exists l, opens_t g start input it l) /\ (produces it ts it1 <-> exists l, produces_t it ts it1 l).
Proof. intros. split; [apply opens_logged|apply produces_logged]. Qed.
