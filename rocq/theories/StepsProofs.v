(** The steps of a parse. *)
From Verif Require Import WorkNumbered EarleySpec EarleyInv EarleyMain ParseGrammarProofs Tracing StructSpec TracingSpec StructProofs TracingProofs TreeSpec StepsSpec.
From Coq Require Import Sorting.Sorted Permutation String.
Import List.

(** ** The events of a log *)

Lemma matched_app a b : matched (a ++ b) = matched a ++ matched b.
Proof. apply flat_map_app. Qed.
Lemma predictions_app a b : predictions (a ++ b) = predictions a ++ predictions b.
Proof. apply flat_map_app. Qed.
Lemma matched_span name l : matched (span name l) = matched l.
Proof. unfold span. cbn [matched flat_map]. change (matched (l ++ [Leave (lit name)]) = matched l). rewrite matched_app. apply app_nil_r. Qed.
Lemma predictions_span name l : predictions (span name l) = predictions l.
Proof. unfold span. cbn [predictions flat_map]. change (predictions (l ++ [Leave (lit name)]) = predictions l). rewrite predictions_app. apply app_nil_r. Qed.
Lemma matched_said e l : matched (Said e :: l) = matched [Said e] ++ matched l.
Proof. apply (matched_app [Said e] l). Qed.
Lemma predictions_said e l : predictions (Said e :: l) = predictions [Said e] ++ predictions l.
Proof. apply (predictions_app [Said e] l). Qed.
Lemma matched_each name (e : nat -> tevent) new : (forall i, matched [Said (e i)] = [i]) -> matched (flat_map (fun i => blank name ++ [Said (e i)]) new) = new.
Proof.
  intro H. induction new as [|i new IH]; [reflexivity|]. cbn [flat_map]. rewrite matched_app, IH, matched_app. unfold blank. rewrite matched_span, H. reflexivity.
Qed.
Lemma matched_none name (e : nat -> tevent) new : (forall i, matched [Said (e i)] = []) -> matched (flat_map (fun i => blank name ++ [Said (e i)]) new) = [].
Proof.
  intro H. induction new as [|i new IH]; [reflexivity|]. cbn [flat_map]. rewrite matched_app, IH, matched_app. unfold blank. rewrite matched_span, H. reflexivity.
Qed.
Lemma predictions_each name (e : nat -> tevent) new : (forall i, predictions [Said (e i)] = [i]) -> predictions (flat_map (fun i => blank name ++ [Said (e i)]) new) = new.
Proof.
  intro H. induction new as [|i new IH]; [reflexivity|]. cbn [flat_map]. rewrite predictions_app, IH, predictions_app. unfold blank. rewrite predictions_span, H. reflexivity.
Qed.
Lemma predictions_none name (e : nat -> tevent) new : (forall i, predictions [Said (e i)] = []) -> predictions (flat_map (fun i => blank name ++ [Said (e i)]) new) = [].
Proof.
  intro H. induction new as [|i new IH]; [reflexivity|]. cbn [flat_map]. rewrite predictions_app, IH, predictions_app. unfold blank. rewrite predictions_span, H. reflexivity.
Qed.

(** ** When a traversal results from others *)

(** The step in which it is made. *)
Definition made_in (A : list traversal) (i : nat) : option nat :=
  match nth_error A i with
  | Some x => match t_from x with
              | Some (MTerminal _, par) => Some par
              | Some (MNonterminal c, par) => Some (Nat.max c par)
              | None => None
              end
  | None => None
  end.

Lemma firstn_id A d c : indexed A -> In c (firstn d A) -> t_id c < d.
Proof.
  intros HA H. apply In_nth_error in H. destruct H as [j Hj]. rewrite nth_error_firstn in Hj. destruct (Nat.ltb_spec j d); [|discriminate]. rewrite (HA _ _ Hj). assumption.
Qed.

Lemma distinct_ids A P d : indexed A -> NoDup (map t_id (filter P (firstn d A))).
Proof.
  intro HA. assert (H : StronglySorted lt (map t_id (filter P (firstn d A)))).
  { apply filter_ascending. rewrite <- firstn_map, (indexed_ids _ HA). destruct (Nat.le_ge_cases d (length A)) as [Hd|Hd].
    - replace (length A) with (d + (length A - d)) by lia. rewrite seq_app, firstn_app, seq_length, Nat.sub_diag, firstn_O, app_nil_r, firstn_all2; [apply seq_ascending|]. rewrite seq_length. lia.
    - rewrite firstn_all2; [apply seq_ascending|]. rewrite seq_length. exact Hd. }
  induction H as [|x l _ IH Hx]; constructor; [|exact IH]. rewrite Forall_forall in Hx. intro Hin. specialize (Hx _ Hin). lia.
Qed.

Lemma distinct_children A (m : traversal -> tmatch) (par : traversal -> nat) new cs : (forall a b, m a = m b -> par a = par b -> t_id a = t_id b) ->
  Forall2 (fun i c => child_of A i (m c) (par c)) new cs -> NoDup (map t_id cs) -> NoDup new.
Proof.
  intros Hm H. induction H as [|i c new cs (x & Hx & Hf) H IH]; intro Hd; constructor; inversion Hd as [|y0 l0 Hn Hd']; subst; [|auto].
  intro Hin. apply Hn. clear - Hm H Hin Hx Hf. induction H as [|j c' new cs (y & Hy & Hf') H IH]; [destruct Hin|].
  destruct Hin as [->|Hin]; [|right; auto]. left. rewrite Hx in Hy. injection Hy as <-. rewrite Hf in Hf'. injection Hf' as E1 E2. symmetry. apply Hm; assumption.
Qed.

Lemma Forall2_left {A B} (P : A -> B -> Prop) l r a : Forall2 P l r -> In a l -> exists b, In b r /\ P a b.
Proof. induction 1 as [|x y l r H _ IH]; intros []; [subst; exists y; split; [left; reflexivity|exact H]|]. destruct (IH H0) as (b & Hb & HP). exists b. split; [right|]; assumption. Qed.

Lemma step_matched g A t d l : indexed A -> nth_error A d = Some t -> step_log g A t l ->
  NoDup (matched l) /\ forall i, In i (matched l) -> made_in A i = Some d.
Proof.
  intros HA Ht H. pose proof (HA _ _ Ht) as Hid. destruct H as [n new old Hu Hn Ho|s i Hu Hs Hc|s Hu Hs|lhs rhs next Hu Hg Hn];
  rewrite matched_said, matched_span; cbn [matched flat_map app]; fold matched.
  - change (flat_map _ (blank "insert" ++ ?x)) with (matched (blank "insert" ++ x)).
    rewrite !matched_app. unfold blank at 1 3. rewrite !matched_span, matched_none, matched_each by reflexivity. cbn [matched flat_map app]. split.
    + eapply (distinct_children A (fun c => MNonterminal (t_id c)) (fun _ => t_id t)); [|exact Ho|apply distinct_ids, HA]. intros a b E _. congruence.
    + intros i Hi. destruct (Forall2_left _ _ _ _ Ho Hi) as (c & Hc & x & Hx & Hf). unfold made_in. rewrite Hx, Hf.
      apply filter_In in Hc. destruct Hc as [Hc _]. apply (firstn_id _ _ _ HA) in Hc. f_equal. lia.
  - cbn. split; [constructor; [intros []|constructor]|]. intros j [<-|[]]. destruct Hc as (x & Hx & Hf). unfold made_in. rewrite Hx, Hf. f_equal. exact Hid.
  - cbn. split; [constructor|intros i []].
  - change (flat_map _ (blank "insert" ++ ?x)) with (matched (blank "insert" ++ x)).
    rewrite !matched_app. unfold blank at 1 2. rewrite !matched_span, matched_each by reflexivity. cbn [matched flat_map app]. split.
    + eapply (distinct_children A (fun _ => MNonterminal (t_id t)) t_id); [|exact Hn|apply distinct_ids, HA]. intros a b _ E. exact E.
    + intros i Hi. destruct (Forall2_left _ _ _ _ Hn Hi) as (c & Hc & x & Hx & Hf). unfold made_in. rewrite Hx, Hf.
      apply filter_In in Hc. destruct Hc as [Hc _]. apply (firstn_id _ _ _ HA) in Hc. f_equal. lia.
Qed.

Lemma NoDup_both {A} (a b : list A) : NoDup a -> NoDup b -> (forall x, In x a -> ~ In x b) -> NoDup (a ++ b).
Proof.
  intros Ha Hb H. induction Ha as [|x a Hx Ha IH]; [exact Hb|]. cbn [app]. constructor.
  - rewrite in_app_iff. intros [H1|H1]; [auto|]. exact (H x (or_introl eq_refl) H1).
  - apply IH. intros y Hy. apply H. right. exact Hy.
Qed.

(** The traversals made in the steps from [d] to [d']. *)
Definition made_between (A : list traversal) (d d' : nat) (l : log) : Prop :=
  NoDup (matched l) /\ forall i, In i (matched l) -> exists k, d <= k < d' /\ made_in A i = Some k.

Lemma made_app A d d1 d2 a b : d <= d1 -> d1 <= d2 -> made_between A d d1 a -> made_between A d1 d2 b -> made_between A d d2 (a ++ b).
Proof.
  intros L1 L2 [H1 H2] [H3 H4]. unfold made_between. rewrite matched_app. split.
  - apply NoDup_both; [exact H1|exact H3|]. intros i Hi Hi'. destruct (H2 i Hi) as (k & Hk & E). destruct (H4 i Hi') as (k' & Hk' & E'). rewrite E in E'. injection E' as <-. lia.
  - intros i Hi. apply in_app_iff in Hi. destruct Hi as [Hi|Hi]; [destruct (H2 i Hi) as (k & Hk & E)|destruct (H4 i Hi) as (k & Hk & E)]; exists k; (split; [lia|exact E]).
Qed.

Lemma steps_matched g A d d' l : indexed A -> steps_log g A d d' l -> made_between A d d' l.
Proof.
  intro HA. induction 1 as [d|d d' t l l' Ht Hl Hs IH]; [split; [constructor|intros i []]|].
  apply (made_app _ _ (S d)); [lia|eapply steps_grow; exact Hs| |exact IH]. destruct (step_matched _ _ _ _ _ HA Ht Hl) as [H1 H2].
  split; [exact H1|]. intros i Hi. exists d. split; [lia|auto].
Qed.

Lemma tree_matched t : matched (tree_log t) = [].
Proof.
  revert t. fix IH 1. intros [lhs kids]. cbn [tree_log]. rewrite !matched_app. unfold blank at 1 3. rewrite !matched_span. cbn [matched flat_map app]. rewrite app_nil_r.
  change (matched (flat_map (fun k => blank "match_iter_next" ++ match k with Leaf _ => [] | Sub t => tree_log t end) kids) = []).
  induction kids as [|k kids IHk]; [reflexivity|]. cbn [flat_map]. rewrite !matched_app, IHk. unfold blank. rewrite matched_span.
  destruct k as [s|t]; [reflexivity|]. rewrite (IH t). reflexivity.
Qed.
Lemma tree_predictions t : predictions (tree_log t) = [].
Proof.
  revert t. fix IH 1. intros [lhs kids]. cbn [tree_log]. rewrite !predictions_app. unfold blank at 1 3. rewrite !predictions_span. cbn [predictions flat_map app]. rewrite app_nil_r.
  change (predictions (flat_map (fun k => blank "match_iter_next" ++ match k with Leaf _ => [] | Sub t => tree_log t end) kids) = []).
  induction kids as [|k kids IHk]; [reflexivity|]. cbn [flat_map]. rewrite !predictions_app, IHk. unfold blank. rewrite predictions_span.
  destruct k as [s|t]; [reflexivity|]. rewrite (IH t). reflexivity.
Qed.

(** A call has the events of its steps. *)
Lemma call_steps g A d d' o l : call_log g A d d' o l -> exists l1, steps_log g A d d' l1 /\ matched l = matched l1 /\ predictions l = predictions l1 /\
  pops l = pops l1 /\ length l = length l1 + match o with Some t => length (tree_log t) + 5 | None => 2 end.
Proof.
  intros [l1 H|l1 t H]; exists l1; (split; [exact H|]).
  - rewrite matched_span, predictions_span, pops_span. repeat split. unfold span. cbn [length]. rewrite app_length. cbn [length]. lia.
  - rewrite matched_app, !matched_span, matched_app, tree_matched, predictions_app, !predictions_span, predictions_app, tree_predictions, pops_app, !pops_span, pops_app, tree_pops.
    cbn [matched predictions pops flat_map app]. rewrite !app_nil_r. repeat split. unfold span. rewrite !app_length. cbn [length]. rewrite !app_length. cbn [length]. lia.
Qed.

Lemma call_matched g A d d' o l : indexed A -> call_log g A d d' o l -> made_between A d d' l /\ d <= d'.
Proof.
  intros HA H. destruct (call_steps _ _ _ _ _ _ H) as (l1 & Hs & Em & _). split; [|eapply steps_grow; exact Hs]. unfold made_between. rewrite Em. exact (steps_matched _ _ _ _ _ HA Hs).
Qed.
Lemma calls_matched g A d ts d' l : indexed A -> calls_log g A d ts d' l -> made_between A d d' l /\ d <= d'.
Proof.
  intro HA. induction 1 as [d|d d1 d2 t ts l l' Hc _ [IH IHl]]; [split; [split; [constructor|intros i []]|lia]|].
  destruct (call_matched _ _ _ _ _ _ HA Hc) as [H1 H2]. split; [|lia]. apply (made_app _ _ d1); assumption.
Qed.

(** ** All of them *)

Lemma results_In A i : indexed A -> In i (results A) <-> exists x p, nth_error A i = Some x /\ t_from x = Some p.
Proof.
  intro HA. unfold results. rewrite in_map_iff. split.
  - intros (x & <- & Hx). apply filter_In in Hx. destruct Hx as [Hx Hf]. destruct (t_from x) as [p|] eqn:E; [|discriminate].
    apply In_nth_error in Hx. destruct Hx as [j Hj]. rewrite (HA _ _ Hj). eauto.
  - intros (x & p & Hx & Hf). exists x. split; [apply HA, Hx|]. apply filter_In. rewrite Hf. split; [eapply nth_error_In; exact Hx|reflexivity].
Qed.
Lemma results_NoDup A : indexed A -> NoDup (results A).
Proof. intro HA. pose proof (distinct_ids A (fun t => match t_from t with Some _ => true | None => false end) (length A) HA) as H. rewrite firstn_all in H. exact H. Qed.

(** Those announced are matched or roots. *)
Lemma step_announced g A t l i : step_log g A t l -> In i (announced l) -> In i (matched l) \/ exists x, nth_error A i = Some x /\ t_from x = None.
Proof.
  intros H Hi. destruct H as [n new old Hu Hn Ho|s j Hu Hs Hc|s Hu Hs|lhs rhs next Hu Hg Hn]; rewrite announced_pop, announced_span in Hi; rewrite matched_said, matched_span.
  - rewrite !announced_app in Hi. unfold blank at 1 3 in Hi. rewrite !announced_span, !announced_each in Hi by reflexivity. cbn [announced flat_map app] in Hi.
    apply in_app_iff in Hi. destruct Hi as [Hi|Hi].
    + right. destruct (Forall2_left _ _ _ _ Hn Hi) as (c & _ & x & Hx & Hf & _). eauto.
    + left. rewrite !matched_app, matched_none, matched_each by reflexivity. rewrite !in_app_iff. auto.
  - left. exact Hi.
  - left. exact Hi.
  - left. rewrite !announced_app in Hi. unfold blank at 1 2 in Hi. rewrite !announced_span, announced_each in Hi by reflexivity. cbn [announced flat_map app] in Hi.
    rewrite !matched_app, matched_each by reflexivity. rewrite !in_app_iff. auto.
Qed.
Lemma steps_announced g A d d' l i : steps_log g A d d' l -> In i (announced l) -> In i (matched l) \/ exists x, nth_error A i = Some x /\ t_from x = None.
Proof.
  induction 1 as [d|d d' t l l' Ht Hl Hs IH]; intro Hi; [destruct Hi|]. rewrite announced_app in Hi. rewrite matched_app, in_app_iff. apply in_app_iff in Hi.
  destruct Hi as [Hi|Hi]; [destruct (step_announced _ _ _ _ _ Hl Hi)|destruct (IH Hi)]; auto.
Qed.
Lemma tree_announced t : announced (tree_log t) = [].
Proof.
  revert t. fix IH 1. intros [lhs kids]. cbn [tree_log]. rewrite !announced_app. unfold blank at 1 3. rewrite !announced_span. cbn [announced flat_map app]. rewrite app_nil_r.
  change (announced (flat_map (fun k => blank "match_iter_next" ++ match k with Leaf _ => [] | Sub t => tree_log t end) kids) = []).
  induction kids as [|k kids IHk]; [reflexivity|]. cbn [flat_map]. rewrite !announced_app, IHk. unfold blank. rewrite announced_span.
  destruct k as [s|t]; [reflexivity|]. rewrite (IH t). reflexivity.
Qed.
Lemma call_announced g A d d' o l i : call_log g A d d' o l -> In i (announced l) -> In i (matched l) \/ exists x, nth_error A i = Some x /\ t_from x = None.
Proof.
  intros [l1 H|l1 t H] Hi.
  - rewrite announced_span in Hi. rewrite matched_span. eapply steps_announced; eassumption.
  - rewrite announced_app, !announced_span, announced_app, tree_announced in Hi. cbn [announced flat_map app] in Hi. rewrite app_nil_r in Hi. change (In i (announced l1)) in Hi.
    rewrite matched_app, matched_span, in_app_iff. destruct (steps_announced _ _ _ _ _ _ H Hi); auto.
Qed.
Lemma calls_announced g A d ts d' l i : calls_log g A d ts d' l -> In i (announced l) -> In i (matched l) \/ exists x, nth_error A i = Some x /\ t_from x = None.
Proof.
  induction 1 as [d|d d1 d2 t ts l l' Hc _ IH]; intro Hi; [destruct Hi|]. rewrite announced_app in Hi. rewrite matched_app, in_app_iff. apply in_app_iff in Hi.
  destruct Hi as [Hi|Hi]; [destruct (call_announced _ _ _ _ _ _ _ Hc Hi)|destruct (IH Hi)]; auto.
Qed.

(** The first traversals are roots. *)
Lemma predict_all_roots pg range starting pids : forall tr q tr' q', (forall x, In x (tt_arena tr) -> t_from x = None) ->
  predict_all pg range starting pids tr q = Ok (tr', q') -> forall x, In x (tt_arena tr') -> t_from x = None.
Proof.
  induction pids as [|pid pids IH]; intros tr q tr' q' Hr H; cbn [predict_all] in H.
  - injection H as <- <-. exact Hr.
  - destruct (get_production_by_id pg pid) as [prod| |]; cbn [rbind] in H; try discriminate.
    destruct (tt_predict tr range pid (snd prod) starting) as [id tr1] eqn:E. refine (IH _ _ _ _ _ H). unfold tt_predict in E.
    destruct (hm_get _ _ _); injection E as <- <-; [exact Hr|]. cbn [tt_arena]. intros x Hx. apply in_app_iff in Hx. destruct Hx as [Hx|[<-|[]]]; [auto|reflexivity].
Qed.
Lemma opens_roots g start input it : opens g start input it -> forall x, In x (tt_arena (s_tree (it_state it))) -> t_from x = None.
Proof.
  intro H. destruct (opens_inv _ _ _ _ H) as (st0 & _ & E). unfold iter_new in E. destruct (predict_all _ _ _ _ _ _) as [[tr q]| |] eqn:Ep; cbn [rbind] in E; try discriminate.
  injection E as <-. cbn [it_state s_tree]. eapply predict_all_roots; [|exact Ep]. intros x [].
Qed.

Lemma all_matched A n l d : indexed A -> made_between A 0 d l -> (forall i, i < n -> exists x, nth_error A i = Some x /\ t_from x = None) ->
  (forall i, In i (announced l) -> In i (matched l) \/ exists x, nth_error A i = Some x /\ t_from x = None) ->
  firsts Nat.eqb (seq 0 n ++ announced l) = seq 0 (length A) -> Permutation (matched l) (results A).
Proof.
  intros HA [H1 H2] Hn Ha Hf. apply NoDup_Permutation; [exact H1|apply results_NoDup, HA|]. intro i. rewrite (results_In _ _ HA). split.
  - intro Hi. destruct (H2 i Hi) as (k & _ & E). unfold made_in in E. destruct (nth_error A i) as [x|]; [|discriminate]. destruct (t_from x) as [p|] eqn:Ef; [|discriminate]. eauto.
  - intros (x & p & Hx & Hp). assert (Hi : In i (firsts Nat.eqb (seq 0 n ++ announced l))).
    { rewrite Hf. apply in_seq. assert (i < length A) by (apply nth_error_Some; congruence). lia. }
    apply (firsts_In _ Nat.eqb_eq), in_app_iff in Hi. destruct Hi as [Hi|Hi].
    + apply in_seq in Hi. destruct (Hn i) as (y & Hy & Hr); [lia|]. rewrite Hx in Hy. injection Hy as <-. congruence.
    + destruct (Ha i Hi) as [H|(y & Hy & Hr)]; [exact H|]. rewrite Hx in Hy. injection Hy as <-. congruence.
Qed.

(** ** The number of predictions, and the length of the log *)

Lemma step_predictions g A t l : step_log g A t l -> length (predictions l) = choices g t /\ length l <= 7 + 3 * length (predictions l) + 3 * length (matched l).
Proof.
  assert (E : forall name (e : nat -> tevent) new, length (flat_map (fun i => blank name ++ [Said (e i)]) new) = 3 * length new).
  { intros name e new. induction new as [|i new IH]; [reflexivity|]. cbn [flat_map]. rewrite app_length, IH. cbn [length]. unfold blank, span. cbn [app length]. lia. }
  intros H. destruct H as [n new old Hu Hn Ho|s i Hu Hs Hc|s Hu Hs|lhs rhs next Hu Hg Hn]; unfold choices; rewrite Hu.
  - rewrite predictions_said, matched_said, predictions_span, matched_span, !predictions_app, !matched_app, predictions_each, predictions_none, matched_none, matched_each by reflexivity.
    cbn [predictions matched flat_map app]. change (predictions (blank "get_complete")) with (@nil nat). change (matched (blank "get_complete")) with (@nil nat).
    change (predictions (blank "insert")) with (@nil nat). change (matched (blank "insert")) with (@nil nat). cbn [app]. rewrite app_nil_r. split; [exact (Forall2_len _ _ _ Hn)|].
    unfold span. cbn [length]. rewrite !app_length, !E. unfold blank, span. cbn [app length]. lia.
  - cbn. split; [reflexivity|lia].
  - cbn. split; [reflexivity|lia].
  - rewrite predictions_said, matched_said, predictions_span, matched_span, !predictions_app, !matched_app, predictions_none, matched_each by reflexivity.
    split; [reflexivity|]. unfold span. cbn [length]. rewrite !app_length, !E. change (matched (blank "insert")) with (@nil nat). change (matched (blank "get_incomplete")) with (@nil nat).
    change (matched [Said (QueuePop t)]) with (@nil nat). unfold blank, span. cbn [app length]. lia.
Qed.

Lemma steps_counted g A d d' l : steps_log g A d d' l -> length (predictions l) = list_sum (map (choices g) (pops l)) /\
  length l <= 7 * length (pops l) + 3 * length (predictions l) + 3 * length (matched l).
Proof.
  induction 1 as [d|d d' t l l' Ht Hl Hs [IH1 IH2]]; [split; [reflexivity|cbn; lia]|]. destruct (step_predictions _ _ _ _ Hl) as [H1 H2].
  rewrite predictions_app, matched_app, pops_app, (step_pops _ _ _ _ Hl), !app_length, map_app, list_sum_app, <- IH1. unfold list_sum. cbn [map fold_right length]. split; lia.
Qed.

Definition tree_steps (t : ptree) : nat := length (tree_log t) + 5.

Lemma call_counted g A d d' o l : call_log g A d d' o l -> length (predictions l) = list_sum (map (choices g) (pops l)) /\
  length l <= 7 * length (pops l) + 3 * length (predictions l) + 3 * length (matched l) + match o with Some t => tree_steps t | None => 2 end.
Proof.
  intro H. destruct (call_steps _ _ _ _ _ _ H) as (l1 & Hs & -> & -> & -> & ->). destruct (steps_counted _ _ _ _ _ Hs) as [H1 H2]. split; [exact H1|]. unfold tree_steps. lia.
Qed.
Lemma calls_counted g A d ts d' l : calls_log g A d ts d' l -> length (predictions l) = list_sum (map (choices g) (pops l)) /\
  length l <= 7 * length (pops l) + 3 * length (predictions l) + 3 * length (matched l) + list_sum (map tree_steps ts).
Proof.
  induction 1 as [d|d d1 d2 t ts l l' Hc _ [IH1 IH2]]; [split; [reflexivity|cbn; lia]|]. destruct (call_counted _ _ _ _ _ _ Hc) as [H1 H2].
  rewrite predictions_app, matched_app, pops_app, !app_length, !map_app, list_sum_app, <- IH1. unfold list_sum in *. cbn [map fold_right length] in *. split; lia.
Qed.

(** A tree takes at most six entries for each of its nodes. *)
Lemma tree_log_size t : length (tree_log t) + 2 <= 6 * tree_size t.
Proof.
  revert t. fix IH 1. intros [lhs kids]. cbn [tree_log tree_size]. rewrite !app_length. unfold blank at 1 3. unfold span. cbn [app length].
  set (f := flat_map _ kids). set (k := list_sum _). assert (H : length f <= 6 * k); [|unfold str in *; lia]. subst f k.
  induction kids as [|x kids IHk]; [cbn; lia|]. cbn [flat_map map]. unfold list_sum in *. cbn [fold_right]. rewrite !app_length. unfold blank at 1, span. cbn [app length].
  destruct x as [s|t]; [cbn [length]; lia|]. specialize (IH t). lia.
Qed.

Lemma choices_widest g t : choices g t <= widest g.
Proof.
  unfold choices. destruct (next_unmatched t) as [[s|n]|]; try lia. destruct (alternatives_of g (Nonterminal n)) as [|i r] eqn:E; [cbn; lia|]. rewrite <- E.
  assert (Hi : In i (alternatives_of g (Nonterminal n))) by (rewrite E; left; reflexivity). unfold alternatives_of in Hi. apply filter_In in Hi. destruct Hi as [_ Hi].
  destruct (nth_error (numbered g) i) as [x|] eqn:Ex; [|discriminate]. apply term_eqb_eq in Hi. rewrite <- Hi. unfold widest.
  pose proof (proj1 (list_max_le (map (fun x => length (alternatives_of g (fst x))) (numbered g)) _) (Nat.le_refl _)) as H. rewrite Forall_forall in H. apply H.
  apply (in_map (fun x => length (alternatives_of g (fst x)))). eapply nth_error_In. exact Ex.
Qed.

(** ** Records in the completion map are appended *)

Lemma later_history g st st' : later (pg_new_unchecked g) st st' -> historic (pg_new_unchecked g) st -> historic (pg_new_unchecked g) st'.
Proof.
  induction 1 as [st|st st1 st2 id rest found Eq E _ IH]; intro Hh; [exact Hh|]. apply IH. clear IH.
  destruct Hh as (l & out & ops & ids & qops & Hh). pose proof (in_order _ _ _ _ _ _ _ _ _ _ Hh) as Ho. destruct Hh as [H1 H2 H3 H4 H5 H6].
  assert (Hp : historical (pg_new_unchecked g) (popped out) l (out ++ [Some id]) (s_tree st) (mkQ (q_processed (s_queue st)) rest) (s_comp st)).
  { exists ops, ids, (qops ++ [Pop]). split; [exact H1| |exact H3| | |exact H6].
    - rewrite queue_run_app, H2. cbn [queue_run]. rewrite Eq. reflexivity.
    - rewrite pushes_app, H4. apply app_nil_r.
    - rewrite popped_app. apply incl_appl, incl_refl. }
  assert (Hnd : ~ In id (popped out)).
  { intro Hin. pose proof (seq_NoDup (length (tt_arena (s_tree st))) 0) as Hd. rewrite <- Ho, Eq in Hd. apply NoDup_remove_2 in Hd. apply Hd, in_app_iff. auto. }
  destruct (process_history _ _ _ _ _ _ _ _ _ _ Hp ltac:(rewrite popped_app; apply in_elt) Hnd E) as (l' & Hl').
  exists l', (out ++ [Some id]). rewrite popped_app. exact Hl'.
Qed.

Lemma earley_later fuel pg : forall st r st', earley fuel pg st = Ok (r, st') -> later pg st st'.
Proof.
  induction fuel as [|fuel IH]; intros st r st' H; cbn [earley] in H; [discriminate|].
  destruct (q_queue (s_queue st)) as [|id rest] eqn:Eq; [injection H as <- <-; constructor|].
  destruct (process pg (s_tree st) (mkQ (q_processed (s_queue st)) rest) (s_comp st) id) as [[found st1]| |] eqn:E; cbn [rbind] in H; try discriminate.
  eapply later_step; [exact Eq|exact E|]. destruct found as [i|]; [injection H as <- <-; constructor|]. exact (IH _ _ _ H).
Qed.
Lemma later_trans pg a b c : later pg a b -> later pg b c -> later pg a c.
Proof. induction 1; intro H'; [exact H'|econstructor; eauto]. Qed.
Lemma next_later fuel it o it1 : iter_next fuel it = Ok (o, it1) -> it_parser it1 = it_parser it /\ later (gp_pg (it_parser it)) (it_state it) (it_state it1).
Proof.
  unfold iter_next. intro H. destruct (earley _ _ _) as [[found st]| |] eqn:E; cbn [rbind] in H; try discriminate. apply earley_later in E.
  destruct found as [id|].
  - destruct (parse_tree _ _ _ _) as [t| |]; cbn [rbind] in H; try discriminate. injection H as _ <-. auto.
  - injection H as _ <-. auto.
Qed.
Lemma produces_later it ts it1 : produces it ts it1 -> it_parser it1 = it_parser it /\ later (gp_pg (it_parser it)) (it_state it) (it_state it1).
Proof.
  induction 1 as [it|fuel it t it1 ts it2 E _ [IH1 IH2]]; [split; [reflexivity|constructor]|]. destruct (next_later _ _ _ _ E) as [H1 H2]. rewrite IH1, H1. split; [reflexivity|].
  rewrite H1 in IH2. eapply later_trans; eassumption.
Qed.

Lemma opens_historic g start input it : opens g start input it -> historic (pg_new_unchecked g) (it_state it) /\ gp_pg (it_parser it) = pg_new_unchecked g.
Proof.
  intro H. destruct (opens_inv _ _ _ _ H) as (st0 & _ & E). pose proof (iter_new_history _ _ _ _ E) as Hh.
  assert (Ep : it_parser it = mkGP st0 (pg_new_unchecked g)).
  { unfold iter_new in E. destruct (predict_all _ _ _ _ _ _) as [[tr q]| |]; cbn [rbind] in E; try discriminate. injection E as <-. reflexivity. }
  rewrite Ep in *. auto.
Qed.

Lemma insert_last v id : (forall i, In i v -> i < id) -> sorted_vec_insert v id = v ++ [id].
Proof.
  induction v as [|x v IH]; intro H; [reflexivity|]. cbn [sorted_vec_insert app]. pose proof (H x (or_introl eq_refl)) as Hx.
  destruct (Nat.eqb_spec id x); [lia|]. destruct (Nat.ltb_spec id x); [lia|]. rewrite IH; [reflexivity|]. intros i Hi. apply H. right. exact Hi.
Qed.

Lemma inserts_append g start input it st id rest k : opens g start input it -> later (gp_pg (it_parser it)) (it_state it) st -> q_queue (s_queue st) = id :: rest ->
  sorted_vec_insert (cm_lookup (cm_incomplete (s_comp st)) k) id = cm_lookup (cm_incomplete (s_comp st)) k ++ [id] /\
  sorted_vec_insert (cm_lookup (cm_complete (s_comp st)) k) id = cm_lookup (cm_complete (s_comp st)) k ++ [id].
Proof.
  intros Ho Hl Hq. destruct (opens_historic _ _ _ _ Ho) as [Hh Epg]. rewrite Epg in Hl. destruct (later_history _ _ _ Hl Hh) as (l & out & ops & ids & qops & Hi).
  pose proof (in_order _ _ _ _ _ _ _ _ _ _ Hi) as Hor. destruct Hi as [_ _ H3 _ _ H6]. rewrite Hq in Hor.
  assert (Hlt : forall i, In i (popped out) -> i < id).
  { intros i Hin. pose proof (seq_ascending (length (tt_arena (s_tree st))) 0) as Hs. rewrite <- Hor in Hs. clear - Hin Hs. induction (popped out) as [|x p IH]; [destruct Hin|].
    cbn [app] in Hs. inversion Hs as [|x0 l0 Hs' Hx]; subst. destruct Hin as [->|Hin]; [|auto]. rewrite Forall_forall in Hx. apply Hx, in_elt. }
  destruct k as [t pos]. rewrite H3. split; apply insert_last; intros i Hin.
  - apply (proj2 (incomplete_spec l t pos)) in Hin. destruct Hin as (x & lhs & n & Hx & <- & _). apply Hlt, (H6 x lhs), Hx.
  - apply (proj2 (complete_spec l t pos)) in Hin. destruct Hin as (x & Hx & <- & _). apply Hlt, (H6 x t), Hx.
Qed.

(** ** The statements of the properties *)

Lemma first_roots A more n : n = length A -> (forall x, In x A -> t_from x = None) -> forall i, i < n -> exists x, nth_error (A ++ more) i = Some x /\ t_from x = None.
Proof.
  intros -> H i Hi. destruct (nth_error A i) as [x|] eqn:E; [|apply nth_error_None in E; lia]. exists x. split; [apply nth_error_ext, E|]. eapply H, nth_error_In, E.
Qed.

Lemma matched_once g start input it l0 ts it1 l : opens_t g start input it l0 -> produces_t it ts it1 l -> Permutation (matched l) (results (tt_arena (s_tree (it_state it1)))).
Proof.
  intros Ho Hp. assert (Ho' : opens g start input it) by (apply opens_logged; eauto). pose proof (opens_roots _ _ _ _ Ho') as Hr.
  destruct (opens_story _ _ _ _ _ Ho) as (Hpg & Hs & Hn & _). destruct (calls_story _ _ _ _ _ Hp _ _ Hpg Hs) as (_ & [more Hg] & d & Hs1 & Hc).
  pose proof (tracks_indexed _ _ _ (proj1 Hs1)) as HA. specialize (Hc []). rewrite app_nil_r in Hc.
  eapply all_matched; [exact HA|exact (proj1 (calls_matched _ _ _ _ _ _ HA Hc))| | |exact (log_announced _ _ _ _ _ _ _ _ Ho Hp)].
  - rewrite Hg. apply first_roots; assumption.
  - intros i. exact (calls_announced _ _ _ _ _ _ i Hc).
Qed.

Lemma matched_both g start input it l0 ts it1 l : opens_t g start input it l0 -> produces_t it ts it1 l ->
  Permutation (matched l) (results (tt_arena (s_tree (it_state it1)))) /\ NoDup (results (tt_arena (s_tree (it_state it1)))).
Proof.
  intros Ho Hp. split; [exact (matched_once _ _ _ _ _ _ _ _ Ho Hp)|]. apply results_NoDup.
  destruct (opens_story _ _ _ _ _ Ho) as (Hpg & Hs & _ & _). destruct (calls_story _ _ _ _ _ Hp _ _ Hpg Hs) as (_ & _ & d & Hs1 & _).
  exact (tracks_indexed _ _ _ (proj1 Hs1)).
Qed.

Lemma matched_end g start input it l0 ts it1 l f it2 l2 : opens_t g start input it l0 -> produces_t it ts it1 l -> iter_next_t f it1 = Ok ((None, it2), l2) ->
  Permutation (matched (l ++ l2)) (results (tt_arena (s_tree (it_state it2)))).
Proof.
  intros Ho Hp Hnx. assert (Ho' : opens g start input it) by (apply opens_logged; eauto). pose proof (opens_roots _ _ _ _ Ho') as Hr.
  destruct (opens_story _ _ _ _ _ Ho) as (Hpg & Hs & Hn & _). destruct (calls_story _ _ _ _ _ Hp _ _ Hpg Hs) as (Hpg1 & [more Hg] & d & Hs1 & Hc).
  destruct (next_log _ _ _ _ _ _ _ _ Hpg1 Hs1 Hnx) as (_ & [more2 Hg2] & d' & Hs2 & _ & Hl). specialize (Hc more2). rewrite <- Hg2 in Hc. specialize (Hl []). rewrite app_nil_r in Hl.
  pose proof (tracks_indexed _ _ _ (proj1 Hs2)) as HA. destruct (calls_matched _ _ _ _ _ _ HA Hc) as [M1 L1]. destruct (call_matched _ _ _ _ _ _ HA Hl) as [M2 L2].
  apply (all_matched _ (length (alternatives_of g start)) _ d'); [exact HA|exact (made_app _ _ _ _ _ _ L1 L2 M1 M2)| | |].
  - rewrite Hg2, Hg, <- app_assoc. apply first_roots; assumption.
  - intro i. rewrite announced_app, matched_app, !in_app_iff. intros [Hi|Hi]; [destruct (calls_announced _ _ _ _ _ _ _ Hc Hi)|destruct (call_announced _ _ _ _ _ _ _ Hl Hi)]; auto.
  - destruct Hs2 as ((ops & Hrun & _) & _). rewrite announced_app, app_assoc. exact (ids_dense _ _ _ Hrun).
Qed.

Lemma predictions_sum g start input it l0 ts it1 l : opens_t g start input it l0 -> produces_t it ts it1 l ->
  length (predictions l) = list_sum (map (choices g) (pops l)) /\ length (predictions l) <= widest g * length (pops l).
Proof.
  intros Ho Hp. destruct (story _ _ _ _ _ _ _ _ Ho Hp) as (_ & d & _ & _ & Hc). destruct (calls_counted _ _ _ _ _ _ Hc) as [H _]. split; [exact H|]. rewrite H.
  clear. induction (pops l) as [|t p IH]; [cbn; lia|]. unfold list_sum in *. cbn [map fold_right length]. pose proof (choices_widest g t). lia.
Qed.

Lemma results_le A : length (results A) <= length A.
Proof. unfold results. rewrite map_length. induction A as [|t A IH]; [reflexivity|]. cbn [filter]. destruct (t_from t); cbn [length]; lia. Qed.

Lemma log_arena g start input it l0 ts it1 l f it2 l2 : opens_t g start input it l0 -> produces_t it ts it1 l -> iter_next_t f it1 = Ok ((None, it2), l2) ->
  let n := length (tt_arena (s_tree (it_state it2))) in
  length (matched (l ++ l2)) <= n /\ length (predictions (l ++ l2)) <= widest g * n /\
  length (l ++ l2) <= (10 + 3 * widest g) * n + list_sum (map (fun t => 6 * tree_size t + 3) ts) + 2.
Proof.
  intros Ho Hp Hn. cbv zeta. destruct (story_end _ _ _ _ _ _ _ _ _ _ _ Ho Hp Hn) as (d & Hc & Hl). pose proof (Permutation_length (matched_end _ _ _ _ _ _ _ _ _ _ _ Ho Hp Hn)) as Hm.
  destruct (calls_counted _ _ _ _ _ _ Hc) as [H1 H2]. destruct (call_counted _ _ _ _ _ _ Hl) as [H3 H4].
  assert (Ep : pops (l ++ l2) = tt_arena (s_tree (it_state it2))).
  { rewrite pops_app. pose proof (calls_pops _ _ _ _ _ _ Hc) as Hq. cbn [firstn app] in Hq. rewrite Hq, (call_pops _ _ _ _ _ _ Hl), firstn_all. reflexivity. }
  pose proof (f_equal (@length _) Ep) as HF3. pose proof (results_le (tt_arena (s_tree (it_state it2)))) as Em. rewrite <- Hm in Em.
  set (n := length (tt_arena (s_tree (it_state it2)))) in *. split; [exact Em|].
  assert (Eq : length (predictions (l ++ l2)) <= widest g * n).
  { rewrite predictions_app, app_length, H1, H3, <- HF3, pops_app, app_length, <- list_sum_app, <- map_app. clear.
    rewrite <- app_length. induction (pops l ++ pops l2) as [|t p IH]; [cbn; lia|]. unfold list_sum in *. cbn [map fold_right length]. pose proof (choices_widest g t). lia. }
  split; [exact Eq|].
  assert (Et : list_sum (map tree_steps ts) <= list_sum (map (fun t => 6 * tree_size t + 3) ts)).
  { clear. induction ts as [|t ts IH]; [cbn; lia|]. unfold list_sum in *. cbn [map fold_right]. unfold tree_steps at 1. pose proof (tree_log_size t). lia. }
  rewrite pops_app, app_length in HF3. rewrite matched_app, app_length in Em. rewrite predictions_app, app_length in Eq. rewrite app_length.
  set (W := widest g * n) in *. assert (EW : (10 + 3 * widest g) * n = 10 * n + 3 * W) by (subst W; lia). rewrite EW. lia.
Qed.

Lemma states_later g start input it ts it1 f o it2 : opens g start input it -> produces it ts it1 -> iter_next f it1 = Ok (o, it2) ->
  later (gp_pg (it_parser it)) (it_state it) (it_state it1) /\ later (gp_pg (it_parser it)) (it_state it) (it_state it2).
Proof.
  intros _ Hp Hn. destruct (produces_later _ _ _ Hp) as [E1 H1]. destruct (next_later _ _ _ _ Hn) as [_ H2]. rewrite E1 in H2. split; [exact H1|]. eapply later_trans; eassumption.
Qed.
