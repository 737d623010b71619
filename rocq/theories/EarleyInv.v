(** Invariant of the Earley loop: every traversal of the arena corresponds, in lock-step, to a
    partial derivation ("item"), and the processed part is closed under the Earley rules. *)
From Verif Require Export EarleySpec ParseGrammarProofs.
From Coq Require Export Sorted.

Notation dtree := (tree nat).
Notation dnode := (node nat).

Lemma tree_ind' {L} (P : tree L -> Prop)
  (H : forall l kids, (forall t, In (Sub t) kids -> P t) -> P (Node l kids)) : forall t, P t.
Proof.
  fix IH 1. intros [l kids]. apply H.
  induction kids as [|k kids IHk]; simpl; [intros t []|].
  intros t [E|Hin]; [|apply IHk; assumption].
  destruct k as [s|t']; [discriminate|]. injection E as <-. apply IH.
Qed.

Definition yields {L} (ks : list (node L)) : str := flat_map yield_node ks.
Lemma yields_app {L} (a b : list (node L)) : yields (a ++ b) = yields a ++ yields b.
Proof. apply flat_map_app. Qed.
Lemma yields_snoc {L} (a : list (node L)) k : yields (a ++ [k]) = yields a ++ yield_node k.
Proof. rewrite yields_app. unfold yields at 2. simpl. rewrite app_nil_r. reflexivity. Qed.

Lemma nth_error_ext {A} (l l' : list A) i x : nth_error l i = Some x -> nth_error (l ++ l') i = Some x.
Proof. intro H. rewrite nth_error_app1; [assumption|]. apply nth_error_Some; congruence. Qed.

Lemma nth_error_lt {A} (l : list A) i x : nth_error l i = Some x -> i < length l.
Proof. intro H. apply nth_error_Some; congruence. Qed.

Lemma nth_error_NoDup {A} (l : list A) i j x :
  NoDup l -> nth_error l i = Some x -> nth_error l j = Some x -> i = j.
Proof.
  intros H Hi Hj. eapply NoDup_nth_error; [exact H|eapply nth_error_lt; exact Hi|congruence].
Qed.

Lemma rbind_Ok {A B} (a : A) (f : A -> res B) : rbind (Ok a) f = f a.
Proof. reflexivity. Qed.

Lemma tmatch_eqb_eq a b : tmatch_eqb a b = true <-> a = b.
Proof.
  destruct a as [x|x], b as [y|y]; simpl; rewrite ?str_eqb_eq, ?Nat.eqb_eq; split; intro H;
    try discriminate; try (injection H as ->); congruence.
Qed.
Lemma tedge_eqb_eq a b : tedge_eqb a b = true <-> a = b.
Proof.
  destruct a as [m p], b as [m' p']. unfold tedge_eqb; simpl.
  rewrite andb_true_iff, tmatch_eqb_eq, Nat.eqb_eq.
  split; [intros [-> ->]; reflexivity|intro E; injection E as -> ->; auto].
Qed.
Lemma troot_eqb_eq a b : troot_eqb a b = true <-> a = b.
Proof.
  destruct a as [m p], b as [m' p']. unfold troot_eqb; simpl.
  rewrite andb_true_iff, !Nat.eqb_eq.
  split; [intros [-> ->]; reflexivity|intro E; injection E as -> ->; auto].
Qed.
Lemma ckey_eqb_eq a b : ckey_eqb a b = true <-> a = b.
Proof.
  destruct a as [m p], b as [m' p']. unfold ckey_eqb; simpl.
  rewrite andb_true_iff, term_eqb_eq, Nat.eqb_eq.
  split; [intros [-> ->]; reflexivity|intro E; injection E as -> ->; auto].
Qed.

Lemma sorted_vec_insert_In v x y : In y (sorted_vec_insert v x) <-> In y v \/ y = x.
Proof.
  induction v as [|z v IH]; simpl; [intuition|].
  destruct (Nat.eqb_spec x z) as [->|].
  - simpl. intuition.
  - destruct (Nat.ltb x z); simpl; [intuition|]. rewrite IH. intuition.
Qed.

Lemma sorted_vec_insert_sorted v x : StronglySorted lt v -> StronglySorted lt (sorted_vec_insert v x).
Proof.
  induction 1 as [|z v Hs IH Hz]; simpl; [repeat constructor|].
  destruct (Nat.eqb_spec x z) as [->|Hne]; [constructor; assumption|].
  destruct (Nat.ltb_spec x z) as [Hlt|Hge].
  - constructor; [constructor; assumption|]. constructor; [assumption|].
    eapply Forall_impl; [|exact Hz]. intros y Hy. simpl in Hy. lia.
  - constructor; [assumption|]. apply Forall_forall. intros y Hy. apply sorted_vec_insert_In in Hy.
    destruct Hy as [Hy| ->]; [|lia]. rewrite Forall_forall in Hz. apply Hz; assumption.
Qed.

(** An item: production, start offset, and the children matched so far. *)
Record item : Type := mkItem { i_pid : nat; i_start : nat; i_kids : list dnode }.
Definition i_end (it : item) : nat := i_start it + byte_len (yields (i_kids it)).
Definition i_tree (it : item) : dtree := Node (i_pid it) (i_kids it).
Definition i_snoc (it : item) (k : dnode) : item := mkItem (i_pid it) (i_start it) (i_kids it ++ [k]).

Section Inv.
  Variable pg : parse_grammar.
  Hypothesis Hpg : pg_ok pg.
  Variable input : str.
  Variable start : term.

  Notation prods := (pg_prods pg).

  (** Derivation trees labelled with production ids. *)
  Inductive dvalid : dtree -> Prop :=
  | dvalid_node pid l rhs kids :
      nth_error prods pid = Some (l, rhs) -> dkids rhs kids -> dvalid (Node pid kids)
  with dkids : expression -> list dnode -> Prop :=
  | dk_nil : dkids [] []
  | dk_term s r ks : dkids r ks -> dkids (Terminal s :: r) (Leaf s :: ks)
  | dk_nt n pid rhs kids r ks :
      nth_error prods pid = Some (Nonterminal n, rhs) -> dvalid (Node pid kids) ->
      dkids r ks -> dkids (Nonterminal n :: r) (Sub (Node pid kids) :: ks).

  Lemma dkids_length e ks : dkids e ks -> length e = length ks.
  Proof. induction 1; simpl; congruence. Qed.

  Lemma dkids_app e e' ks ks' : dkids e ks -> dkids e' ks' -> dkids (e ++ e') (ks ++ ks').
  Proof. induction 1; simpl; intros; [assumption| |]; econstructor; eauto. Qed.

  Lemma dkids_app_inv e e' ks : dkids (e ++ e') ks ->
    exists k1 k2, ks = k1 ++ k2 /\ dkids e k1 /\ dkids e' k2.
  Proof.
    revert ks; induction e as [|t e IH]; simpl; intros ks H.
    - exists [], ks. repeat split; [constructor|assumption].
    - inversion H; subst.
      + destruct (IH _ H3) as (k1 & k2 & -> & H1 & H2). exists (Leaf s :: k1), k2.
        repeat split; [constructor|]; assumption.
      + destruct (IH _ H5) as (k1 & k2 & -> & H6 & H7). exists (Sub (Node pid kids) :: k1), k2.
        repeat split; [econstructor; eassumption|assumption].
  Qed.

  (** [iview it lhs rest]: the item's production has left-hand side [lhs], and [rest] is what
      remains to be matched. *)
  Definition iview (it : item) (lhs : term) (rest : list term) : Prop :=
    exists pre, nth_error prods (i_pid it) = Some (lhs, pre ++ rest) /\ dkids pre (i_kids it).

  Lemma iview_fun it l r l' r' : iview it l r -> iview it l' r' -> l = l' /\ r = r'.
  Proof.
    intros (p & H1 & H2) (p' & H1' & H2'). rewrite H1 in H1'. injection H1' as -> E.
    apply dkids_length in H2, H2'. split; [reflexivity|].
    assert (Hl : length p = length p') by congruence.
    clear - E Hl. revert p' E Hl. induction p as [|x p IH]; intros [|x' p'] E Hl; simpl in *;
      try discriminate; [assumption|]. injection E as -> E. injection Hl as Hl. eauto.
  Qed.

  (** [s] occurs in the input at byte offset [pos]. *)
  Definition at_pos (pos : nat) (s : str) : Prop :=
    exists a b, input = a ++ s ++ b /\ byte_len a = pos.

  Lemma at_pos_app pos s s' : at_pos pos s -> at_pos (pos + byte_len s) s' -> at_pos pos (s ++ s').
  Proof.
    intros (a & b & E & Ha) (a' & b' & E' & Ha').
    assert (H : (a ++ s) = a' /\ b = s' ++ b').
    { apply app_byte_len_inj; [rewrite <- app_assoc, <- E; assumption|].
      rewrite byte_len_app; lia. }
    destruct H as [<- ->]. exists a, b'. rewrite <- app_assoc. auto.
  Qed.
  Lemma at_pos_split pos s s' : at_pos pos (s ++ s') -> at_pos pos s /\ at_pos (pos + byte_len s) s'.
  Proof.
    intros (a & b & E & Ha). split.
    - exists a, (s' ++ b). rewrite E, <- app_assoc. auto.
    - exists (a ++ s), b. rewrite E, byte_len_app, <- !app_assoc. auto.
  Qed.
  Lemma at_pos_bound pos s : at_pos pos s -> pos + byte_len s <= byte_len input.
  Proof. intros (a & b & -> & <-). rewrite !byte_len_app. lia. Qed.
  Lemma at_pos_end pos s : at_pos pos s -> at_pos (pos + byte_len s) [].
  Proof. intro H. rewrite <- (app_nil_r s) in H. apply at_pos_split in H. tauto. Qed.
  Lemma at_pos_whole s : at_pos 0 s -> byte_len s = byte_len input -> s = input.
  Proof.
    intros (a & b & E & Ha) Hl. apply byte_len_0 in Ha. subst a. simpl in E. subst input.
    rewrite byte_len_app in Hl. assert (b = []) by (apply byte_len_0; lia). subst. rewrite app_nil_r; reflexivity.
  Qed.
  Lemma at_pos_next pos s : at_pos pos [] ->
    (starts_with (range_next (mkR input pos 0)) s = true <-> at_pos pos s).
  Proof.
    intros (a & b & E & Ha). unfold range_next; simpl. rewrite Nat.add_0_r. simpl in E.
    rewrite E at 1. rewrite <- Ha at 1. rewrite str_get_from_app, starts_with_spec. split.
    - intros [r ->]. exists a, r. auto.
    - intros (a' & b' & E' & Ha'). rewrite E in E'. apply app_byte_len_inj in E'; [|congruence].
      destruct E' as [_ ->]. eauto.
  Qed.

  (** Where a traversal came from. *)
  Definition from_ok (gh : list item) (i : nat) (t : traversal) (it : item) : Prop :=
    match t_from t with
    | None => i_kids it = []
    | Some (m, par) =>
        par < i /\
        exists pit k, nth_error gh par = Some pit /\ it = i_snoc pit k /\
          match m with
          | MTerminal s => k = Leaf s
          | MNonterminal c => c < i /\ exists cit, nth_error gh c = Some cit /\
                                k = Sub (i_tree cit) /\ i_start cit = i_end pit
          end
    end.

  Record trel (gh : list item) (i : nat) (t : traversal) (it : item) : Prop := {
    tr_id : t_id t = i;
    tr_pid : t_pid t = i_pid it;
    tr_range : t_range t = mkR input (i_start it) (byte_len (yields (i_kids it)));
    tr_view : exists lhs, iview it lhs (t_unmatched t) /\
                          t_starting t = term_eqb lhs start && Nat.eqb (i_start it) 0;
    tr_pos : at_pos (i_start it) (yields (i_kids it));
    tr_from : from_ok gh i t it
  }.

  Lemma from_ok_ext gh new i t it : from_ok gh i t it -> from_ok (gh ++ new) i t it.
  Proof.
    unfold from_ok. destruct (t_from t) as [[m par]|]; [|auto].
    intros [Hp (pit & k & H1 & H2 & H3)]. split; [assumption|]. exists pit, k.
    split; [apply nth_error_ext; assumption|]. split; [assumption|].
    destruct m as [s|c]; [assumption|]. destruct H3 as [Hc (cit & H4 & H5)].
    split; [assumption|]. exists cit. split; [apply nth_error_ext; assumption|assumption].
  Qed.

  Lemma trel_ext gh new i t it : trel gh i t it -> trel (gh ++ new) i t it.
  Proof. intros []; constructor; auto. apply from_ok_ext; assumption. Qed.

  (** The items an Earley parser may build: by predicting, or by matching one more child. *)
  Inductive ireach : item -> Prop :=
  | ir_start pid rhs : nth_error prods pid = Some (start, rhs) -> ireach (mkItem pid 0 [])
  | ir_pred it l n rest pid rhs : ireach it -> iview it l (Nonterminal n :: rest) ->
      nth_error prods pid = Some (Nonterminal n, rhs) -> ireach (mkItem pid (i_end it) [])
  | ir_kid it l t rest k : ireach it -> iview it l (t :: rest) -> dkids [t] [k] ->
      at_pos (i_end it) (yield_node k) -> ireach (i_snoc it k).

  Record TInv (tr : ttree) (gh : list item) : Prop := {
    ti_len : length (tt_arena tr) = length gh;
    ti_rel : forall i t it, nth_error (tt_arena tr) i = Some t -> nth_error gh i = Some it -> trel gh i t it;
    ti_nodup : NoDup gh;
    ti_roots : forall pid s id, hm_get troot_eqb (tt_roots tr) (pid, s) = Some id <->
                                nth_error gh id = Some (mkItem pid s []);
    ti_edges : forall e id, hm_get tedge_eqb (tt_edges tr) e = Some id <->
                            exists t, nth_error (tt_arena tr) id = Some t /\ t_from t = Some e;
    ti_reach : forall it, In it gh -> ireach it
  }.

  Lemma TInv_arena tr gh i it : TInv tr gh -> nth_error gh i = Some it ->
    exists t, nth_error (tt_arena tr) i = Some t /\ trel gh i t it.
  Proof.
    intros HI Hi. destruct (nth_error (tt_arena tr) i) as [t|] eqn:E.
    - exists t. split; [reflexivity|]. eapply ti_rel; eauto.
    - exfalso. apply nth_error_None in E. rewrite (ti_len _ _ HI) in E.
      apply nth_error_lt in Hi. lia.
  Qed.

  Lemma NoDup_snoc {A} (l : list A) x : NoDup l -> ~ In x l -> NoDup (l ++ [x]).
  Proof.
    intros Hn Hx. induction Hn as [|y l Hy Hn IH]; simpl; [repeat constructor; auto|].
    constructor.
    - rewrite in_app_iff. simpl. intros [?|[->|[]]]; [auto|]. apply Hx; left; reflexivity.
    - apply IH. intro; apply Hx; right; assumption.
  Qed.

  Lemma tt_predict_inv tr gh range pid lhs rhs starting :
    TInv tr gh ->
    nth_error prods pid = Some (lhs, rhs) ->
    r_input range = input -> at_pos (total_len range) [] ->
    (starting = term_eqb lhs start && Nat.eqb (total_len range) 0 \/ In (mkItem pid (total_len range) []) gh) ->
    ireach (mkItem pid (total_len range) []) ->
    let it := mkItem pid (total_len range) [] in
    exists id tr', tt_predict tr range pid rhs starting = (id, tr') /\
      ((tr' = tr /\ nth_error gh id = Some it) \/
       (id = length gh /\ TInv tr' (gh ++ [it]))).
  Proof.
    intros HI Hp Hin Hpos Hst Hroot it. unfold tt_predict.
    destruct (hm_get troot_eqb (tt_roots tr) (pid, total_len range)) as [id|] eqn:E.
    - exists id, tr. split; [reflexivity|]. left. split; [reflexivity|].
      apply (ti_roots _ _ HI) in E. exact E.
    - eexists _, _. split; [reflexivity|]. right. split; [apply ti_len; assumption|].
      assert (Hnew : ~ In it gh).
      { intro H. apply In_nth_error in H. destruct H as [i H]. apply (ti_roots _ _ HI) in H. congruence. }
      destruct Hst as [Hst|Hst]; [|contradiction].
      constructor; simpl.
      + rewrite !app_length. simpl. rewrite (ti_len _ _ HI). reflexivity.
      + intros i t it' Ht Hit. apply nth_error_snoc in Ht. apply nth_error_snoc in Hit.
        rewrite (ti_len _ _ HI) in Ht.
        destruct Ht as [Ht|[-> ->]], Hit as [Hit|[Hi ->]].
        * apply trel_ext. eapply ti_rel; eauto.
        * exfalso. apply nth_error_lt in Ht. rewrite (ti_len _ _ HI) in Ht. lia.
        * exfalso. apply nth_error_lt in Hit. lia.
        * constructor; simpl; auto.
          -- unfold range_after. rewrite Hin. reflexivity.
          -- exists lhs. split; [|assumption]. exists []. simpl. split; [assumption|constructor].
          -- unfold from_ok; simpl; reflexivity.
      + apply NoDup_snoc; [exact (ti_nodup _ _ HI)|assumption].
      + intros pid' s id. rewrite nth_error_snoc, (ti_len _ _ HI).
        destruct (troot_eqb (pid, total_len range) (pid', s)) eqn:Ek.
        * apply troot_eqb_eq in Ek. injection Ek as <- <-. split.
          -- intro H. injection H as <-. auto.
          -- intros [H|[-> _]]; [|reflexivity]. exfalso. apply Hnew. eapply nth_error_In; exact H.
        * rewrite (ti_roots _ _ HI). split; [auto|]. intros [H|[_ H]]; [assumption|].
          injection H as -> ->. exfalso. rewrite <- not_true_iff_false in Ek. apply Ek.
          apply troot_eqb_eq; reflexivity.
      + intros e id. rewrite (ti_edges _ _ HI). split.
        * intros (t & H1 & H2). exists t. split; [apply nth_error_ext; assumption|assumption].
        * intros (t & H1 & H2). apply nth_error_snoc in H1. destruct H1 as [H1|[_ ->]]; [eauto|discriminate].
      + intros it0 H. apply in_app_or in H. destruct H as [H|[<-|[]]]; [apply (ti_reach _ _ HI)|]; assumption.
  Qed.

  Lemma advance_by_ok s len step : s + len + step <= byte_len input ->
    advance_by (mkR input s len) step = Ok (mkR input s (len + step)).
  Proof.
    intro H. unfold advance_by; simpl. destruct (Nat.ltb_spec (byte_len input) s); [lia|].
    rewrite Nat.min_l by lia. reflexivity.
  Qed.

  (** The child that a match adds. *)
  Definition match_kid (gh : list item) (pit : item) (t : term) (m : tmatch) (k : dnode) : Prop :=
    match m with
    | MTerminal s => t = Terminal s /\ k = Leaf s /\ at_pos (i_end pit) s
    | MNonterminal c => exists cit, nth_error gh c = Some cit /\ k = Sub (i_tree cit) /\
          i_start cit = i_end pit /\ iview cit t [] /\ is_nonterminal t = true
    end.

  Lemma i_snoc_inj a b k k' : i_snoc a k = i_snoc b k' -> a = b /\ k = k'.
  Proof.
    destruct a as [p s ks], b as [p' s' ks']; unfold i_snoc; simpl. intro H.
    injection H as -> -> H. apply app_inj_tail in H. destruct H as [-> ->]. auto.
  Qed.

  Lemma tt_match_inv tr gh par pit lhs t rest m k :
    TInv tr gh ->
    nth_error gh par = Some pit -> iview pit lhs (t :: rest) ->
    match_kid gh pit t m k ->
    exists id tr', tt_match_term tr par m = Ok (id, tr') /\
      ((tr' = tr /\ nth_error gh id = Some (i_snoc pit k)) \/
       (id = length gh /\ TInv tr' (gh ++ [i_snoc pit k]))).
  Proof.
    intros HI Hpar Hview Hk.
    destruct (TInv_arena _ _ _ _ HI Hpar) as (p & Ep & Rp).
    destruct (tr_view _ _ _ _ Rp) as (lhs' & Hv' & Hst).
    destruct (iview_fun _ _ _ _ _ Hview Hv') as [<- Hun].
    assert (Hyk : at_pos (i_end pit) (yield_node k)).
    { destruct m as [s|c]; simpl in Hk.
      - destruct Hk as (_ & -> & H). exact H.
      - destruct Hk as (cit & Hc & -> & Hs & _).
        destruct (TInv_arena _ _ _ _ HI Hc) as (ct & _ & Rc). rewrite <- Hs. exact (tr_pos _ _ _ _ Rc). }
    assert (Hdk : dkids [t] [k]).
    { destruct m as [s|c]; simpl in Hk.
      - destruct Hk as (-> & -> & _). repeat constructor.
      - destruct Hk as (cit & Hc & -> & _ & (pre' & Hq1 & Hq2) & Hnt). rewrite app_nil_r in Hq1.
        destruct t as [?|n]; [discriminate|]. unfold i_tree.
        econstructor; [exact Hq1| |constructor]. econstructor; eassumption. }
    assert (Hrange : (match m with
             | MTerminal s => advance_by (t_range p) (byte_len s)
             | MNonterminal nid => let* nt := expect (nth_error (tt_arena tr) nid) in
                                   advance_by (t_range p) (r_len (t_range nt))
             end) = Ok (mkR input (i_start pit) (byte_len (yields (i_kids pit ++ [k]))))).
    { rewrite (tr_range _ _ _ _ Rp), yields_snoc, byte_len_app.
      pose proof (at_pos_bound _ _ Hyk) as Hb. unfold i_end in Hb.
      destruct m as [s|c]; simpl in Hk.
      - destruct Hk as (_ & -> & _). apply advance_by_ok. exact Hb.
      - destruct Hk as (cit & Hc & -> & Hs & _).
        destruct (TInv_arena _ _ _ _ HI Hc) as (ct & Ec & Rc). rewrite Ec. simpl.
        rewrite (tr_range _ _ _ _ Rc). simpl. apply advance_by_ok. exact Hb. }
    assert (Hpos : at_pos (i_start pit) (yields (i_kids pit ++ [k]))).
    { rewrite yields_snoc. apply at_pos_app; [exact (tr_pos _ _ _ _ Rp)|exact Hyk]. }
    unfold tt_match_term. rewrite Ep. cbn [expect]. rewrite rbind_Ok.
    rewrite Hrange, rbind_Ok. rewrite <- Hun. rewrite rbind_Ok. rewrite (tr_id _ _ _ _ Rp).
    destruct (hm_get tedge_eqb (tt_edges tr) (m, par)) as [id|] eqn:E.
    - exists id, tr. split; [reflexivity|]. left. split; [reflexivity|].
      apply (ti_edges _ _ HI) in E. destruct E as (ct & Ect & Hf).
      destruct (nth_error gh id) as [cit|] eqn:Eg.
      2:{ exfalso. apply nth_error_None in Eg. apply nth_error_lt in Ect. rewrite (ti_len _ _ HI) in Ect. lia. }
      pose proof (tr_from _ _ _ _ (ti_rel _ _ HI _ _ _ Ect Eg)) as Hfrom.
      unfold from_ok in Hfrom. rewrite Hf in Hfrom. destruct Hfrom as [_ (pit' & k' & H1 & H2 & H3)].
      rewrite Hpar in H1. injection H1 as <-. rewrite H2. f_equal. f_equal.
      destruct m as [s|c]; simpl in Hk.
      + destruct Hk as (_ & -> & _). assumption.
      + destruct Hk as (cit1 & Hc & -> & _). destruct H3 as [_ (cit' & H4 & -> & _)]. congruence.
    - eexists _, _. split; [reflexivity|]. right. split; [apply ti_len; assumption|].
      assert (Hnew : ~ In (i_snoc pit k) gh).
      { intro H. apply In_nth_error in H. destruct H as [i Hi].
        destruct (TInv_arena _ _ _ _ HI Hi) as (ct & Ect & Rc).
        pose proof (tr_from _ _ _ _ Rc) as Hf. unfold from_ok in Hf.
        destruct (t_from ct) as [[m' par']|] eqn:Ef.
        - destruct Hf as [_ (pit' & k' & H1 & H2 & H3)]. apply i_snoc_inj in H2. destruct H2 as [<- <-].
          assert (par' = par) by (eapply nth_error_NoDup; [exact (ti_nodup _ _ HI)|exact H1|exact Hpar]).
          subst par'.
          assert (m' = m).
          { destruct m as [s|c], m' as [s'|c']; simpl in Hk.
            - destruct Hk as (_ & -> & _). congruence.
            - destruct Hk as (_ & -> & _). destruct H3 as [_ (? & _ & H3 & _)]. discriminate.
            - destruct Hk as (? & _ & -> & _). discriminate.
            - destruct Hk as (cit1 & Hc1 & -> & Hs1 & _). destruct H3 as [_ (cit2 & Hc2 & H3 & Hs2)].
              f_equal. eapply nth_error_NoDup; [exact (ti_nodup _ _ HI)|exact Hc2|].
              rewrite Hc1. f_equal. destruct cit1, cit2; simpl in *. unfold i_tree in H3; simpl in H3.
              injection H3 as -> ->. congruence. }
          subst m'. assert (Hc : hm_get tedge_eqb (tt_edges tr) (m, par) = Some i)
            by (apply (ti_edges _ _ HI); eauto). congruence.
        - unfold i_snoc in Hf; simpl in Hf. destruct (i_kids pit); discriminate. }
      constructor; simpl.
      + rewrite !app_length. simpl. rewrite (ti_len _ _ HI). reflexivity.
      + intros i t' it' Ht Hit. apply nth_error_snoc in Ht. apply nth_error_snoc in Hit.
        rewrite (ti_len _ _ HI) in Ht.
        destruct Ht as [Ht|[-> ->]], Hit as [Hit|[Hi ->]].
        * apply trel_ext. eapply ti_rel; eauto.
        * exfalso. apply nth_error_lt in Ht. rewrite (ti_len _ _ HI) in Ht. lia.
        * exfalso. apply nth_error_lt in Hit. lia.
        * constructor; simpl; auto.
          -- exact (tr_pid _ _ _ _ Rp).
          -- exists lhs. split; [|assumption]. destruct Hview as (pre & Hp1 & Hp2).
             exists (pre ++ [t]). split; [rewrite <- app_assoc; exact Hp1|]. simpl.
             apply dkids_app; assumption.
          -- unfold from_ok; simpl. split; [apply nth_error_lt in Hpar; assumption|].
             exists pit, k. split; [apply nth_error_ext; assumption|]. split; [reflexivity|].
             destruct m as [s|c]; simpl in Hk.
             ++ tauto.
             ++ destruct Hk as (cit & Hc & -> & Hs & _). split; [apply nth_error_lt in Hc; assumption|].
                exists cit. split; [apply nth_error_ext; assumption|auto].
      + apply NoDup_snoc; [exact (ti_nodup _ _ HI)|assumption].
      + intros pid' s id. rewrite nth_error_snoc, (ti_roots _ _ HI). split; [auto|].
        intros [H|[_ H]]; [assumption|]. unfold i_snoc in H. injection H as _ _ H.
        destruct (i_kids pit); discriminate.
      + intros e id. rewrite (ti_len _ _ HI). destruct (tedge_eqb (m, par) e) eqn:Ek.
        * apply tedge_eqb_eq in Ek. subst e. split.
          -- intro H. injection H as <-. eexists. split; [apply nth_error_snoc; right; split; [symmetry; apply (ti_len _ _ HI)|reflexivity]|reflexivity].
          -- intros (t' & H1 & H2). apply nth_error_snoc in H1. destruct H1 as [H1|[-> _]].
             ++ assert (hm_get tedge_eqb (tt_edges tr) (m, par) = Some id) by (apply (ti_edges _ _ HI); eauto). congruence.
             ++ rewrite (ti_len _ _ HI). reflexivity.
        * rewrite (ti_edges _ _ HI). split.
          -- intros (t' & H1 & H2). exists t'. split; [apply nth_error_ext; assumption|assumption].
          -- intros (t' & H1 & H2). apply nth_error_snoc in H1. destruct H1 as [H1|[_ ->]]; [eauto|].
             simpl in H2. injection H2 as <-. exfalso. rewrite <- not_true_iff_false in Ek. apply Ek.
             apply tedge_eqb_eq; reflexivity.
      + intros it0 H. apply in_app_or in H. destruct H as [H|[<-|[]]]; [apply (ti_reach _ _ HI); assumption|].
        apply nth_error_In in Hpar. apply (ir_kid pit lhs t rest k); [apply (ti_reach _ _ HI); assumption|assumption..].
  Qed.
End Inv.
