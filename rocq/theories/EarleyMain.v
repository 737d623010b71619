(** Main facts about parsing, at the level of the public API. *)
From Verif Require Export EarleyRun.
From Coq Require Import Permutation.
From Coq Require String.
Import String.StringSyntax.

(** ** Derivations and trees labelled with production ids *)

Section Erase.
  Variable g : grammar.
  Variable pg : parse_grammar.
  Hypothesis prods_eq : pg_prods pg = flat_prods g.
  Notation dvalid := (dvalid pg).
  Notation dkids := (dkids pg).
  Notation erase := (erase pg).
  Notation erase_node := (erase_node pg).

  Lemma erase_Node pid ks : erase (Node pid ks) = Node (lhs_of pg pid) (map erase_node ks).
  Proof. reflexivity. Qed.

  Lemma yield_erase t : yield (erase t) = yield t.
  Proof.
    induction t as [pid kids IH] using tree_ind'. cbn.
    induction kids as [|k kids IHk]; cbn; [reflexivity|].
    rewrite IHk by (intros; apply IH; right; assumption). f_equal.
    destruct k as [s|t]; cbn; [reflexivity|]. apply IH. left; reflexivity.
  Qed.

  Lemma nth_prods pid l e : nth_error (pg_prods pg) pid = Some (l, e) ->
    exists p, In p g /\ p_lhs p = l /\ In e (p_rhs p).
  Proof. intro H. apply nth_error_In in H. rewrite prods_eq in H. apply flat_prods_In; assumption. Qed.

  Lemma erase_derives t : dvalid t -> derives g (erase t).
  Proof.
    induction t as [pid kids IH] using tree_ind'. intro Hv.
    inversion Hv as [pid' l rhs kids' Hpid Hk]; subst pid' kids'. cbn.
    unfold lhs_of. rewrite Hpid. destruct (nth_prods _ _ _ Hpid) as (p & Hp & <- & Hr).
    econstructor; [eassumption|eassumption|]. clear Hv Hr Hpid.
    induction Hk as [|s r ks Hk IHk|n pid' rhs' kids' r ks Hpid' Hv Hk IHk]; cbn.
    - constructor.
    - constructor. apply IHk. intros; apply IH; [right|]; assumption.
    - constructor.
      + unfold lhs_of. rewrite Hpid'. reflexivity.
      + apply (IH (Node pid' kids')); [left; reflexivity|assumption].
      + apply IHk. intros; apply IH; [right|]; assumption.
  Qed.

  Lemma derives_erase t : derives g t -> exists dt, dvalid dt /\ erase dt = t.
  Proof.
    induction t as [l kids IH] using tree_ind'. intro Hd.
    inversion Hd as [p rhs kids' Hp Hr Hk E1]; subst.
    assert (Hks : exists dks, dkids rhs dks /\ map erase_node dks = kids).
    { clear Hd Hr. induction Hk as [|s r ks Hk IHk|n t r ks Hroot Ht Hk IHk].
      - exists []. split; [constructor|reflexivity].
      - destruct IHk as (dks & H1 & H2). { intros; apply IH; [right|]; assumption. }
        exists (Leaf s :: dks). split; [constructor; assumption|]. rewrite <- H2. reflexivity.
      - destruct IHk as (dks & H1 & H2). { intros; apply IH; [right|]; assumption. }
        destruct (IH t) as (dt & H3 & H4); [left; reflexivity|assumption|].
        exists (Sub dt :: dks). split; [|rewrite <- H2, <- H4; reflexivity].
        inversion H3 as [pid l rhs kids' Hpid Hdk]; subst. econstructor; [|exact H3|exact H1].
        rewrite Hpid. cbn in Hroot. unfold lhs_of in Hroot. rewrite Hpid in Hroot. rewrite Hroot. reflexivity. }
    destruct Hks as (dks & Hdk & <-).
    assert (Hin : In (p_lhs p, rhs) (pg_prods pg)) by (rewrite prods_eq; apply flat_prods_In; eauto).
    apply In_nth_error in Hin. destruct Hin as [pid Hpid].
    exists (Node pid dks). split; [econstructor; eassumption|]. cbn. unfold lhs_of. rewrite Hpid. reflexivity.
  Qed.

  Definition term_of (k : pnode) : term := match k with Leaf s => Terminal s | Sub t => root t end.

  Lemma dkids_terms rhs ks : dkids rhs ks -> rhs = map term_of (map erase_node ks).
  Proof.
    induction 1 as [|s r ks Hk IHk|n pid' rhs' kids' r ks Hpid' Hv Hk IHk]; cbn; [reflexivity| |].
    - f_equal; assumption.
    - unfold lhs_of. rewrite Hpid'. f_equal; assumption.
  Qed.

  Lemma dkids_Sub rhs ks t : dkids rhs ks -> In (Sub t) ks -> dvalid t.
  Proof.
    induction 1; cbn; [intros []| |]; intros [E|Hin]; try discriminate; auto.
    injection E as <-. assumption.
  Qed.

  Lemma erase_inj : NoDup (flat_prods g) -> forall a, dvalid a -> forall b, dvalid b -> erase a = erase b -> a = b.
  Proof.
    intro Hnd. intro a. induction a as [pid kids IH] using tree_ind'. intros Ha [pid' kids'] Hb E.
    inversion Ha as [? l rhs ? Hpid Hk]; subst. inversion Hb as [? l' rhs' ? Hpid' Hk']; subst.
    rewrite !erase_Node in E. unfold lhs_of in E. rewrite Hpid, Hpid' in E. injection E as <- E.
    assert (rhs = rhs') by (rewrite (dkids_terms _ _ Hk), (dkids_terms _ _ Hk'); congruence). subst rhs'.
    assert (pid = pid').
    { eapply nth_error_NoDup; [|exact Hpid|exact Hpid']. rewrite prods_eq. assumption. }
    subst pid'. f_equal.
    assert (H1 : forall t, In (Sub t) kids -> dvalid t) by (intros t Ht; exact (dkids_Sub _ _ _ Hk Ht)).
    assert (H2 : forall t, In (Sub t) kids' -> dvalid t) by (intros t Ht; exact (dkids_Sub _ _ _ Hk' Ht)).
    clear Ha Hb Hpid Hpid' Hk Hk'. revert kids' E H2.
    induction kids as [|k kids IHk]; intros [|k' kids'] E H2; cbn in E; try discriminate; [reflexivity|].
    injection E as E1 E2. f_equal.
    - destruct k as [s|t], k' as [s'|t']; cbn in E1; try discriminate; [congruence|].
      injection E1 as E1. f_equal. apply IH; try assumption; [left; reflexivity| |].
      + apply H1; left; reflexivity.
      + apply H2; left; reflexivity.
    - apply IHk; try assumption.
      + intros; apply IH; [right|..]; assumption.
      + intros; apply H1; right; assumption.
      + intros; apply H2; right; assumption.
  Qed.
End Erase.

(** ** Opening an iterator *)

Lemma build_parser_eq ho g p : build_parser ho g = ROk p ->
  exists st, starting_term g = Some st /\ p = mkGP st (pg_new_unchecked g).
Proof.
  unfold build_parser. destruct (starting_term g) as [st|] eqn:E; [|discriminate].
  destruct (pg_new ho g) as [pg|] eqn:E2; [|discriminate]. intro H. injection H as <-.
  apply pg_new_unchecked_eq in E2. subst. eauto.
Qed.

Lemma iter_new_ok g st0 input start :
  exists st, iter_new (mkGP st0 (pg_new_unchecked g)) input (Some start) =
             Ok (mkI (mkGP st0 (pg_new_unchecked g)) st) /\
             exists gh, Inv (pg_new_unchecked g) input start st gh 0.
Proof.
  destruct (pg_new_unchecked_ok g) as [Hok _].
  destruct (init_inv (pg_new_unchecked g) Hok input start) as (tr & q & gh & E & HI).
  unfold iter_new. simpl gp_pg. rewrite E, rbind_Ok. eexists. split; [reflexivity|]. eauto.
Qed.

Lemma iter_new_None p input : iter_new p input None = iter_new p input (Some (gp_start p)).
Proof. reflexivity. Qed.

(** However it is opened, the iterator is in the same state. *)
Lemma opens_inv g start input it : opens g start input it ->
  exists st0, starting_term g = Some st0 /\
    iter_new (mkGP st0 (pg_new_unchecked g)) input (Some start) = Ok it.
Proof.
  intros [ho p it' H1 H2|ho p it' H1 H0 H2|it' H2|it' H0 H2].
  - apply build_parser_eq in H1. destruct H1 as (st0 & Hs & ->). eauto.
  - apply build_parser_eq in H1. destruct H1 as (st0 & Hs & ->).
    rewrite Hs in H0. injection H0 as ->. exists start. auto.
  - unfold grammar_parse_input_starting_with, parser_new_unchecked in H2.
    destruct (starting_term g) as [st0|]; [|discriminate]. exists st0. auto.
  - unfold grammar_parse_input, parser_new_unchecked in H2. rewrite H0 in H2. exists start. auto.
Qed.

Lemma opens_Inv g start input it : opens g start input it ->
  exists st0, it_parser it = mkGP st0 (pg_new_unchecked g) /\
    exists gh, Inv (pg_new_unchecked g) input start (it_state it) gh 0.
Proof.
  intro H. apply opens_inv in H. destruct H as (st0 & _ & H).
  destruct (iter_new_ok g st0 input start) as (st & E & gh & HI).
  rewrite E in H. injection H as <-. simpl. eauto.
Qed.

(** Summary of what a run of the iterator has produced. *)
Lemma run_summary g start input it ts it' :
  opens g start input it -> produces it ts it' ->
  let pg := pg_new_unchecked g in
  exists st0 gh d ids, it_parser it' = mkGP st0 pg /\ Inv pg input start (it_state it') gh d /\ NoDup ids /\
    Forall2 (fun i t => exists x, nth_error gh i = Some x /\ full pg input start x /\ t = erase pg (i_tree x)) ids ts /\
    (forall i x, i < d -> nth_error gh i = Some x -> full pg input start x -> In i ids).
Proof.
  intros Ho Hp pg. destruct (opens_Inv _ _ _ _ Ho) as (st0 & Hpar & gh & HI).
  destruct (pg_new_unchecked_ok g) as [Hok _].
  destruct (produces_spec pg Hok input start (mkGP st0 pg) eq_refl it ts it' Hp Hpar gh 0 HI)
    as (Hpar' & new & d' & ids & H1 & H2 & H3 & H4 & H5 & H6).
  exists st0, (gh ++ new), d', ids. split; [assumption|]. split; [assumption|]. split; [assumption|].
  split; [assumption|]. intros i x Hi. apply H6. lia.
Qed.

Lemma full_dvalid pg input start x : full pg input start x ->
  dvalid pg (i_tree x) /\ lhs_of pg (root (i_tree x)) = start /\ yield (i_tree x) = input.
Proof.
  intros ((pre & Hp & Hk) & _ & Hy). rewrite app_nil_r in Hp. split; [econstructor; eassumption|].
  split; [|exact Hy]. unfold lhs_of, i_tree; simpl. rewrite Hp. reflexivity.
Qed.

Lemma soundness g start input it ts it' t :
  opens g start input it -> produces it ts it' -> In t ts -> parses g start input t.
Proof.
  intros Ho Hp Hin. destruct (run_summary _ _ _ _ _ _ Ho Hp) as (st0 & gh & d & ids & _ & HI & _ & HF & _).
  assert (H : exists i x, nth_error gh i = Some x /\ full (pg_new_unchecked g) input start x /\
                          t = erase (pg_new_unchecked g) (i_tree x)).
  { clear - HF Hin. induction HF as [|i t' ids ts H HF IH]; [destruct Hin|].
    destruct Hin as [->|Hin]; eauto. }
  destruct H as (i & x & Hx & Hf & ->). apply full_dvalid in Hf. destruct Hf as (H1 & H2 & H3).
  split; [apply (erase_derives g _ (proj2 (pg_new_unchecked_ok g))); assumption|]. split.
  - rewrite <- H2. destruct (i_tree x); reflexivity.
  - rewrite yield_erase. assumption.
Qed.

Lemma completeness g start input it t :
  opens g start input it -> parses g start input t ->
  exists ts it', produces it ts it' /\ In t ts.
Proof.
  intros Ho (Hd & Hr & Hy). destruct (opens_Inv _ _ _ _ Ho) as (st0 & Hpar & gh & HI).
  set (pg := pg_new_unchecked g) in *. destruct (pg_new_unchecked_ok g) as [Hok Heq].
  destruct (derives_erase g pg Heq t Hd) as (dt & Hv & He).
  destruct dt as [pid kids]. inversion Hv as [? l rhs ? Hpid Hk]; subst pid0 kids0.
  assert (Hl : l = start).
  { rewrite <- Hr, <- He. simpl. unfold lhs_of. rewrite Hpid. reflexivity. }
  subst l. rewrite <- He, yield_erase in Hy.
  destruct (reach_tree pg Hok input start (Node pid kids) Hv (it_state it) gh 0 0 HI)
    as (st1 & gh1 & d1 & Ha1 & HI1 & Hin1).
  { simpl. eapply (inv_start _ _ _ _ _ _ HI). exact Hpid. }
  { rewrite Hy. exists [], []. rewrite app_nil_r. auto. }
  simpl in Hin1.
  destruct (adv_fair_In pg Hok input start _ _ _ _ HI1 Hin1) as (st2 & gh2 & d2 & i & Ha2 & HI2 & Hi & Hni).
  pose proof (adv_trans _ _ _ _ _ _ _ _ _ _ _ _ Ha1 Ha2) as Ha.
  destruct (adv_produces pg input start (mkGP st0 pg) eq_refl _ _ _ _ _ _ Ha HI)
    as (ts & it' & Hprod & Hall).
  exists ts, it'. split.
  - destruct it as [p st]; simpl in *. subst p. exact Hprod.
  - rewrite <- He. apply (Hall i (mkItem pid 0 kids)); [lia|exact Hni|].
    split; [exists rhs; rewrite app_nil_r; auto|]. split; [reflexivity|]. exact Hy.
Qed.

(** Fuel only bounds the search: more of it never changes an answer. *)
Lemma earley_mono f f' pg st r : earley f pg st = Ok r -> f <= f' -> earley f' pg st = Ok r.
Proof.
  revert f' st; induction f as [|f IH]; intros f' st H Hle; [discriminate|].
  destruct f' as [|f']; [lia|]. cbn [earley] in *.
  destruct (q_queue (s_queue st)) as [|id rest]; [assumption|].
  destruct (process pg (s_tree st) (mkQ (q_processed (s_queue st)) rest) (s_comp st) id) as [[o st1]| |];
    simpl in *; try discriminate.
  destruct o; [assumption|]. apply IH; [assumption|lia].
Qed.

Lemma iter_next_mono f f' it r : iter_next f it = Ok r -> f <= f' -> iter_next f' it = Ok r.
Proof.
  unfold iter_next. intros H Hle. destruct (earley f (gp_pg (it_parser it)) (it_state it)) as [r'| |] eqn:E;
    simpl in H; try discriminate. rewrite (earley_mono _ _ _ _ _ E Hle). exact H.
Qed.

Lemma iter_next_det f f' it r r' : iter_next f it = Ok r -> iter_next f' it = Ok r' -> r = r'.
Proof.
  intros H H'. apply (iter_next_mono _ (f + f')) in H; [|lia]. apply (iter_next_mono _ (f + f')) in H'; [|lia].
  congruence.
Qed.

Lemma produces_app it ts it1 ts' it2 : produces it ts it1 -> produces it1 ts' it2 -> produces it (ts ++ ts') it2.
Proof. induction 1; simpl; [auto|]. intro. econstructor; eauto. Qed.

(** Two runs from the same state: one extends the other. *)
Lemma produces_linear it ts1 it1 : produces it ts1 it1 -> forall ts2 it2, produces it ts2 it2 ->
  (exists r, ts2 = ts1 ++ r /\ produces it1 r it2) \/ (exists r, ts1 = ts2 ++ r /\ produces it2 r it1).
Proof.
  induction 1 as [it|it t it1 ts it1' fuel Hn Hp IH]; intros ts2 it2 H2.
  - left. exists ts2. auto.
  - inversion H2 as [|? t' it3 ts2' ? fuel' Hn' Hp']; subst.
    + right. exists (t :: ts). split; [reflexivity|]. econstructor; eassumption.
    + pose proof (iter_next_det _ _ _ _ _ Hn Hn') as E. injection E as <- <-.
      destruct (IH _ _ Hp') as [(r & -> & Hr)|(r & -> & Hr)]; [left|right]; exists r; auto.
Qed.

Lemma exhausted_no_more it t ts it' : exhausted it -> ~ produces it (t :: ts) it'.
Proof.
  intros (f & it1 & H) Hp. inversion Hp; subst.
  pose proof (iter_next_det _ _ _ _ _ H H3). discriminate.
Qed.

Lemma exhaustive g start input it ts it' t :
  opens g start input it -> produces it ts it' -> exhausted it' ->
  parses g start input t -> In t ts.
Proof.
  intros Ho Hp He Hd. destruct (completeness _ _ _ _ _ Ho Hd) as (ts2 & it2 & Hp2 & Hin).
  destruct (produces_linear _ _ _ Hp _ _ Hp2) as [(r & -> & Hr)|(r & -> & Hr)].
  - destruct r as [|x r]; [rewrite app_nil_r in Hin; assumption|].
    exfalso. eapply exhausted_no_more; eassumption.
  - apply in_or_app; left; assumption.
Qed.

Lemma no_duplicates g start input it ts it' :
  NoDup (flat_prods g) -> opens g start input it -> produces it ts it' -> NoDup ts.
Proof.
  intros Hnd Ho Hp. destruct (run_summary _ _ _ _ _ _ Ho Hp) as (st0 & gh & d & ids & _ & HI & Hids & HF & _).
  pose proof (ti_nodup _ _ _ _ _ (inv_t _ _ _ _ _ _ HI)) as Hgh. clear Hp.
  induction HF as [|i t ids ts (x & Hx & Hf & ->) HF IH]; [constructor|].
  inversion Hids as [|? ? Hni Hids']; subst. constructor; [|apply IH; try assumption].
  - intro Hin. apply Hni. clear - Hnd Hgh Hx Hf Hin HF.
    induction HF as [|j t ids ts (y & Hy & Hfy & ->) HF IH]; [destruct Hin|].
    destruct Hin as [E|Hin]; [left|right; auto].
    pose proof (full_dvalid _ _ _ _ Hf) as (V1 & _ & _). pose proof (full_dvalid _ _ _ _ Hfy) as (V2 & _ & _).
    apply (erase_inj g _ (proj2 (pg_new_unchecked_ok g)) Hnd _ V2 _ V1) in E.
    assert (x = y).
    { destruct x as [p s k], y as [p' s' k']. unfold i_tree in E; simpl in E. injection E as -> ->.
      destruct Hf as (_ & Hs & _), Hfy as (_ & Hs' & _). simpl in *. congruence. }
    subst y. eapply nth_error_NoDup; eassumption.
Qed.

(** ** Textbook rewriting agrees with derivation trees *)

Lemma rewrites_trans g a b c : rewrites g a b -> rewrites g b c -> rewrites g a c.
Proof. induction 1; [auto|]. intro. econstructor; eauto. Qed.

Lemma rewrite_ctx g x y a b : rewrite g a b -> rewrite g (x ++ a ++ y) (x ++ b ++ y).
Proof.
  intros [c n d p rhs H1 H2 H3].
  replace (x ++ (c ++ Nonterminal n :: d) ++ y) with ((x ++ c) ++ Nonterminal n :: (d ++ y))
    by (rewrite <- !app_assoc; reflexivity).
  replace (x ++ (c ++ rhs ++ d) ++ y) with ((x ++ c) ++ rhs ++ (d ++ y))
    by (rewrite <- !app_assoc; reflexivity).
  econstructor; eassumption.
Qed.

Lemma rewrites_ctx g x y a b : rewrites g a b -> rewrites g (x ++ a ++ y) (x ++ b ++ y).
Proof. induction 1; [constructor|]. econstructor; [apply rewrite_ctx; eassumption|assumption]. Qed.

Lemma kids_match_rewrites g : forall ks e, kids_match g e ks ->
  (forall t, In (Sub t) ks -> derives g t -> forall n, root t = Nonterminal n ->
     exists ss, rewrites g [Nonterminal n] (map Terminal ss) /\ concat ss = yield t) ->
  exists ss, rewrites g e (map Terminal ss) /\ concat ss = yields ks.
Proof.
  intros ks e H. induction H as [|s r ks Hk IHk|n t r ks Hroot Ht Hk IHk]; intro IH.
  - exists []. split; [constructor|reflexivity].
  - destruct IHk as (ss & H1 & H2). { intros; apply IH; auto. right; assumption. }
    exists (s :: ss). split; [|simpl; rewrite H2; reflexivity].
    pose proof (rewrites_ctx g [Terminal s] [] _ _ H1) as H. rewrite !app_nil_r in H. exact H.
  - destruct IHk as (ss & H1 & H2). { intros; apply IH; auto. right; assumption. }
    destruct (IH t (or_introl eq_refl) Ht n Hroot) as (ss0 & H3 & H4).
    exists (ss0 ++ ss). split; [|rewrite concat_app, H2, H4; reflexivity].
    rewrite map_app. eapply rewrites_trans.
    + apply (rewrites_ctx g [] r _ _ H3).
    + pose proof (rewrites_ctx g (map Terminal ss0) [] _ _ H1) as H. rewrite !app_nil_r in H. exact H.
Qed.

Lemma derives_rewrites g : forall t, derives g t -> forall n, root t = Nonterminal n ->
  exists ss, rewrites g [Nonterminal n] (map Terminal ss) /\ concat ss = yield t.
Proof.
  intro t. induction t as [l kids IH] using tree_ind'. intros Hd n Hn.
  inversion Hd as [p rhs kids' Hp Hr Hk E1]; subst. simpl in Hn.
  destruct (kids_match_rewrites g _ _ Hk IH) as (ss & H1 & H2).
  exists ss. split; [|exact H2]. econstructor; [|exact H1].
  rewrite <- (app_nil_r rhs). apply (rewrite_at g [] n [] p rhs); assumption.
Qed.

Lemma kids_match_app g e1 e2 k1 k2 : kids_match g e1 k1 -> kids_match g e2 k2 -> kids_match g (e1 ++ e2) (k1 ++ k2).
Proof. induction 1; simpl; intros; [assumption| |]; constructor; auto. Qed.

Lemma kids_match_app_inv g e1 : forall e2 ks, kids_match g (e1 ++ e2) ks ->
  exists k1 k2, ks = k1 ++ k2 /\ kids_match g e1 k1 /\ kids_match g e2 k2.
Proof.
  induction e1 as [|t e1 IH]; simpl; intros e2 ks H.
  - exists [], ks. repeat split; [constructor|assumption].
  - inversion H; subst.
    + destruct (IH _ _ H3) as (k1 & k2 & -> & H1 & H2). exists (Leaf s :: k1), k2.
      repeat split; [constructor|]; assumption.
    + destruct (IH _ _ H5) as (k1 & k2 & -> & H6 & H7). exists (Sub t0 :: k1), k2.
      repeat split; [constructor|]; assumption.
Qed.

Lemma rewrites_kids g e f : rewrites g e f -> forall ss, f = map Terminal ss ->
  exists ks, kids_match g e ks /\ yields ks = concat ss.
Proof.
  induction 1 as [f|f1 f2 f3 Hstep Hrest IH]; intros ss E.
  - subst f. exists (map Leaf ss). induction ss as [|s ss IH]; simpl.
    + split; [constructor|reflexivity].
    + destruct IH as [IH1 IH2]. split; [constructor; assumption|]. rewrite <- IH2. reflexivity.
  - destruct (IH ss E) as (ks & Hk & Hy). destruct Hstep as [a n b p rhs H1 H2 H3].
    apply kids_match_app_inv in Hk. destruct Hk as (ka & kr & -> & Ka & Kr).
    apply kids_match_app_inv in Kr. destruct Kr as (kr' & kb & -> & Kr & Kb).
    exists (ka ++ Sub (Node (Nonterminal n) kr') :: kb). split.
    + apply kids_match_app; [assumption|]. constructor; [reflexivity| |assumption].
      rewrite <- H2. econstructor; eassumption.
    + rewrite <- Hy. unfold yields. rewrite !flat_map_app. reflexivity.
Qed.

Lemma generates_parses g n w : generates g n w <-> exists t, parses g (Nonterminal n) w t.
Proof.
  split.
  - intros (ss & H & ->). destruct (rewrites_kids _ _ _ H ss eq_refl) as (ks & Hk & Hy).
    inversion Hk as [| |n' t r ks' Hroot Ht Hk' E1 E2]; subst.
    inversion Hk'; subst. exists t. split; [assumption|]. split; [assumption|].
    rewrite <- Hy. unfold yields; simpl. rewrite app_nil_r. reflexivity.
  - intros (t & Hd & Hr & Hy). destruct (derives_rewrites g t Hd n Hr) as (ss & H1 & H2).
    exists ss. split; [assumption|]. congruence.
Qed.

Lemma recognition g n input it : opens g (Nonterminal n) input it ->
  (exists fuel t it', iter_next fuel it = Ok (Some t, it')) <-> generates g n input.
Proof.
  intro Ho. rewrite generates_parses. split.
  - intros (f & t & it' & H). exists t.
    apply (soundness g (Nonterminal n) input it [t] it' t Ho); [|left; reflexivity].
    econstructor; [exact H|constructor].
  - intros (t & Ht). destruct (completeness _ _ _ _ _ Ho Ht) as (ts & it' & Hp & Hin).
    inversion Hp; subst; [destruct Hin|]. eauto.
Qed.

(** ** Exhaustion, panics, entry points *)

Lemma exhausted_stays g start input it ts it1 f it2 :
  opens g start input it -> produces it ts it1 -> iter_next f it1 = Ok (None, it2) ->
  it_parser it2 = it_parser it1 /\ (forall f', 1 <= f' -> iter_next f' it2 = Ok (None, it2)).
Proof.
  intros Ho Hp Hn. destruct (run_summary _ _ _ _ _ _ Ho Hp) as (st0 & gh & d & ids & Hpar & HI & _).
  destruct (pg_new_unchecked_ok g) as [Hok _]. destruct it1 as [p st]; simpl in Hpar, HI. subst p.
  destruct (iter_next_spec _ Hok input start (mkGP st0 (pg_new_unchecked g)) eq_refl f st gh d HI)
    as [(E & _)|[(st' & new & E & Hq & _)|(st' & new & id & x & E & _)]]; rewrite E in Hn; try discriminate.
  injection Hn as <-. split; [reflexivity|]. intros [|f'] Hf; [lia|].
  unfold iter_next. cbn [it_parser it_state earley]. rewrite Hq. reflexivity.
Qed.

Lemma no_panic g start input it ts it1 f :
  opens g start input it -> produces it ts it1 -> iter_next f it1 <> Panic.
Proof.
  intros Ho Hp Hn. destruct (run_summary _ _ _ _ _ _ Ho Hp) as (st0 & gh & d & ids & Hpar & HI & _).
  destruct (pg_new_unchecked_ok g) as [Hok _]. destruct it1 as [p st]; simpl in Hpar, HI. subst p.
  destruct (iter_next_spec _ Hok input start (mkGP st0 (pg_new_unchecked g)) eq_refl f st gh d HI)
    as [(E & _)|[(st' & new & E & _)|(st' & new & id & x & E & _)]]; rewrite E in Hn; discriminate.
Qed.

Lemma opens_parser_ok ho g p input start : build_parser ho g = ROk p ->
  (exists it, parse_input_starting_with p input start = Ok it) /\ (exists it, parse_input p input = Ok it).
Proof.
  intro H. apply build_parser_eq in H. destruct H as (st0 & Hs & ->).
  unfold parse_input, parse_input_starting_with. simpl gp_start. split.
  - destruct (iter_new_ok g st0 input start) as (st & E & _). eauto.
  - destruct (iter_new_ok g st0 input st0) as (st & E & _). eauto.
Qed.

Lemma opens_deprecated_ok g input start :
  (g = [] -> grammar_parse_input g input = Panic /\ grammar_parse_input_starting_with g input start = Panic) /\
  (g <> [] -> (exists it, grammar_parse_input g input = Ok it) /\
              (exists it, grammar_parse_input_starting_with g input start = Ok it)).
Proof.
  split; [intros ->; split; reflexivity|]. intro Hg. destruct g as [|pr g]; [congruence|].
  unfold grammar_parse_input, grammar_parse_input_starting_with, parser_new_unchecked. simpl starting_term.
  cbn [expect rbind gp_start]. split.
  - destruct (iter_new_ok (pr :: g) (p_lhs pr) input (p_lhs pr)) as (st & E & _). eauto.
  - destruct (iter_new_ok (pr :: g) (p_lhs pr) input start) as (st & E & _). eauto.
Qed.

Lemma api_parity ho g p input start : build_parser ho g = ROk p ->
  parse_input p input = grammar_parse_input g input /\
  parse_input_starting_with p input start = grammar_parse_input_starting_with g input start /\
  parse_input p input = parse_input_starting_with p input (gp_start p).
Proof.
  intro H. apply build_parser_eq in H. destruct H as (st0 & Hs & ->).
  unfold grammar_parse_input, grammar_parse_input_starting_with, parser_new_unchecked.
  rewrite Hs. split; [|split]; reflexivity.
Qed.

Lemma unknown_start g start input it :
  (forall p, In p g -> p_lhs p = start -> p_rhs p = []) ->
  opens g start input it -> forall f, 1 <= f -> iter_next f it = Ok (None, it).
Proof.
  intros Hun Ho [|f] Hf; [lia|]. apply opens_inv in Ho. destruct Ho as (st0 & _ & E).
  destruct (pg_new_unchecked_ok g) as [Hok Heq]. unfold iter_new in E. simpl gp_pg in E.
  assert (Hnil : get_productions_by_lhs (pg_new_unchecked g) start = []).
  { destruct (get_productions_by_lhs (pg_new_unchecked g) start) as [|pid l] eqn:El; [reflexivity|exfalso].
    assert (Hin : In pid (get_productions_by_lhs (pg_new_unchecked g) start)) by (rewrite El; left; reflexivity).
    apply Hok in Hin. destruct Hin as [rhs Hr]. apply nth_error_In in Hr. rewrite Heq in Hr.
    apply flat_prods_In in Hr. destruct Hr as (p & Hp & Hl & Hr). rewrite (Hun p Hp Hl) in Hr. destruct Hr. }
  rewrite Hnil in E. simpl in E. injection E as <-. reflexivity.
Qed.

(** All offsets that the parser computes lie on character boundaries of the input. *)
Lemma boundaries g start input it ts it1 t :
  opens g start input it -> produces it ts it1 -> In t (tt_arena (s_tree (it_state it1))) ->
  exists before matched after, input = before ++ matched ++ after /\
    r_input (t_range t) = input /\ r_start (t_range t) = byte_len before /\ r_len (t_range t) = byte_len matched /\
    range_next (t_range t) = after.
Proof.
  intros Ho Hp Hin. destruct (run_summary _ _ _ _ _ _ Ho Hp) as (st0 & gh & d & ids & Hpar & HI & _).
  pose proof (inv_t _ _ _ _ _ _ HI) as HT. apply In_nth_error in Hin. destruct Hin as [i Hi].
  destruct (nth_error gh i) as [x|] eqn:Ex.
  2:{ apply nth_error_None in Ex. apply nth_error_lt in Hi. rewrite (ti_len _ _ _ _ _ HT) in Hi. lia. }
  pose proof (ti_rel _ _ _ _ _ HT _ _ _ Hi Ex) as R.
  pose proof (tr_range _ _ _ _ _ _ _ R) as Er. destruct (tr_pos _ _ _ _ _ _ _ R) as (a & b & Ei & Ea).
  exists a, (yields (i_kids x)), b. rewrite Er. simpl. repeat (split; [congruence || reflexivity|]).
  unfold range_next; simpl. rewrite <- Ea, <- byte_len_app. rewrite Ei at 1. rewrite app_assoc, str_get_from_app. reflexivity.
Qed.

(** ** Order independence *)

Lemma derives_same_alts g g' :
  (forall l e, In (l, e) (flat_prods g) -> In (l, e) (flat_prods g')) ->
  forall t, derives g t -> derives g' t.
Proof.
  intros Hs t. induction t as [l kids IH] using tree_ind'. intro Hd.
  inversion Hd as [p rhs kids' Hp Hr Hk E1]; subst.
  assert (Hin : In (p_lhs p, rhs) (flat_prods g')) by (apply Hs, flat_prods_In; eauto).
  apply flat_prods_In in Hin. destruct Hin as (p' & Hp' & Hl & Hr'). rewrite <- Hl.
  econstructor; [eassumption|eassumption|]. clear Hd Hr Hr'.
  induction Hk as [|s r ks Hk IHk|n t r ks Hroot Ht Hk IHk].
  - constructor.
  - constructor. apply IHk. intros; apply IH; [right|]; assumption.
  - constructor; [assumption| |].
    + apply IH; [left; reflexivity|assumption].
    + apply IHk. intros; apply IH; [right|]; assumption.
Qed.

Lemma order_independent g g' start input it it' ts ts' itf itf' :
  (forall l e, In (l, e) (flat_prods g) <-> In (l, e) (flat_prods g')) ->
  opens g start input it -> produces it ts itf -> exhausted itf ->
  opens g' start input it' -> produces it' ts' itf' -> exhausted itf' ->
  (forall t, In t ts <-> In t ts') /\
  (NoDup (flat_prods g) -> NoDup (flat_prods g') -> Permutation ts ts').
Proof.
  intros Hs Ho Hp He Ho' Hp' He'.
  assert (Hiff : forall t, In t ts <-> In t ts').
  { intro t. split; intro Hin.
    - destruct (soundness _ _ _ _ _ _ _ Ho Hp Hin) as (H1 & H2 & H3).
      eapply exhaustive; eauto. split; [|auto]. eapply derives_same_alts; [|exact H1]. intros; apply Hs; assumption.
    - destruct (soundness _ _ _ _ _ _ _ Ho' Hp' Hin) as (H1 & H2 & H3).
      eapply exhaustive; [exact Ho|exact Hp|exact He|]. split; [|auto].
      eapply derives_same_alts; [|exact H1]. intros; apply Hs; assumption. }
  split; [exact Hiff|]. intros Hn Hn'. apply NoDup_Permutation; auto; [exact (no_duplicates _ _ _ _ _ _ Hn Ho Hp)|exact (no_duplicates _ _ _ _ _ _ Hn' Ho' Hp')].
Qed.

(** ** Sharing a parser *)

Definition next_fuels (k : nat) (cs : list command) : list nat :=
  flat_map (fun c => match c with Next k' f => if Nat.eqb k k' then [f] else [] | Open _ _ => [] end) cs.

Lemma nth_replace_same {A} k (x y : A) l : nth_error l k = Some y -> nth_error (replace_nth k x l) k = Some x.
Proof. revert k; induction l as [|z l IH]; intros [|k] H; simpl in *; try discriminate; auto. Qed.
Lemma nth_replace_other {A} k k' (x : A) l : k <> k' -> nth_error (replace_nth k x l) k' = nth_error l k'.
Proof. revert k k'; induction l as [|z l IH]; intros [|k] [|k'] H; simpl; try reflexivity; [congruence|]. apply IH; congruence. Qed.

Lemma session_solo p cs : forall its k it, nth_error its k = Some it ->
  map snd (filter (fun e => Nat.eqb k (fst e)) (session p its cs)) = solo it (next_fuels k cs).
Proof.
  induction cs as [|c cs IH]; intros its k it Hk; simpl; [reflexivity|]. destruct c as [input st|k' f]; simpl.
  - destruct (iter_new p input st) as [it0| |]; try (apply IH; assumption).
    apply IH. apply nth_error_ext; assumption.
  - destruct (Nat.eqb_spec k k') as [<-|Hne].
    + rewrite Hk. cbn [app solo]. destruct (iter_next f it) as [[o it']| |]; cbn [filter fst map snd]; rewrite Nat.eqb_refl; cbn [map snd]; f_equal.
      * apply IH. eapply nth_replace_same; eassumption.
      * apply IH. assumption.
      * apply IH. assumption.
    + destruct (nth_error its k') as [it0|]; simpl; [|apply IH; assumption].
      destruct (iter_next f it0) as [[o it']| |]; simpl; destruct (Nat.eqb_spec k k'); try congruence.
      * apply IH. rewrite nth_replace_other by congruence. assumption.
      * apply IH. assumption.
      * apply IH. assumption.
Qed.

(** ** Validation *)

Definition defined_everywhere (def : grammar -> str -> Prop) (g : grammar) : Prop :=
  forall x, refers g x -> def g x.

Lemma validate_spec ho g :
  (validate ho g = ROk tt <-> g <> [] /\ forall x, refers g x -> has_lhs g x) /\
  (forall e, validate ho g = RErr e ->
     (g = [] /\ e = ValidationError msg_empty) \/
     (g <> [] /\ exists x, e = ValidationError (msg_undefined x) /\ refers g x /\ ~ has_lhs g x)).
Proof.
  unfold validate. destruct g as [|p g].
  - split; [split; [discriminate|intros [H _]; congruence]|]. intros e H. injection H as <-. auto.
  - set (gg := p :: g). destruct (undefined ho (validate_sets gg)) as [|x l] eqn:E.
    + split; [|discriminate]. split; [|reflexivity]. intros _. split; [discriminate|].
      intros x Hx. destruct (validate_sets_spec gg x) as [H1 H2].
      destruct (in_dec str_eq_dec x (defined (validate_sets gg))) as [Hd|Hd]; [apply H2; assumption|].
      exfalso. assert (Hin : In x (undefined ho (validate_sets gg))) by (apply undefined_spec; split; [apply H1|]; assumption).
      rewrite E in Hin. destruct Hin.
    + assert (Hin : In x (undefined ho (validate_sets gg))) by (rewrite E; left; reflexivity).
      apply undefined_spec in Hin. destruct (validate_sets_spec gg x) as [H1 H2]. rewrite H1, H2 in Hin.
      destruct Hin as [Hr Hl]. split.
      * split; [discriminate|]. intros [_ H]. exfalso. apply Hl. apply H. assumption.
      * intros e He. injection He as <-. right. split; [discriminate|]. exists x. auto.
Qed.

Lemma build_parser_spec ho g :
  ((exists p, build_parser ho g = ROk p) <-> g <> [] /\ forall x, refers g x -> has_alt g x) /\
  (forall e, build_parser ho g = RErr e ->
     (g = [] /\ e = ValidationError msg_empty) \/
     (g <> [] /\ exists x, e = ValidationError (msg_undefined x) /\ refers g x /\ ~ has_alt g x)).
Proof.
  unfold build_parser. destruct g as [|p g]; simpl starting_term.
  - split; [split; [intros [p H]; discriminate|intros [H _]; congruence]|]. intros e H. injection H as <-. auto.
  - cbn iota. set (gg := p :: g) in *. unfold pg_new. pose proof (pg_new_sets_spec gg) as Hsp. cbv zeta in Hsp.
    destruct (fold_left pg_step (flat_prods gg) (sets_new, mkPG [] [])) as [s pg]. cbn [fst] in Hsp.
    destruct (undefined ho s) as [|x l] eqn:E.
    + split; [|discriminate]. split; [|intros _; eexists; reflexivity]. intros _. split; [discriminate|].
      intros x Hx. destruct (Hsp x) as [H1 H2].
      destruct (in_dec str_eq_dec x (defined s)) as [Hd|Hd]; [apply H2; assumption|].
      exfalso. assert (Hin : In x (undefined ho s)) by (apply undefined_spec; split; [apply H1|]; assumption).
      rewrite E in Hin. destruct Hin.
    + assert (Hin : In x (undefined ho s)) by (rewrite E; left; reflexivity).
      apply undefined_spec in Hin. destruct (Hsp x) as [H1 H2]. rewrite H1, H2 in Hin.
      destruct Hin as [Hr Hl]. split.
      * split; [intros [q H]; discriminate|]. intros [_ H]. exfalso. apply Hl. apply H. assumption.
      * intros e He. injection He as <-. right. split; [discriminate|]. exists x. auto.
Qed.

(** Advancing a range is never clamped: every traversal extends its parent by exactly the
    length of what it matched. *)
Lemma no_clamp g start input it ts it1 i t m par :
  opens g start input it -> produces it ts it1 ->
  nth_error (tt_arena (s_tree (it_state it1))) i = Some t -> t_from t = Some (m, par) ->
  exists tp, nth_error (tt_arena (s_tree (it_state it1))) par = Some tp /\
    r_start (t_range t) = r_start (t_range tp) /\
    match m with
    | MTerminal s => r_len (t_range t) = r_len (t_range tp) + byte_len s
    | MNonterminal c => exists tc, nth_error (tt_arena (s_tree (it_state it1))) c = Some tc /\
        r_start (t_range tc) = r_start (t_range tp) + r_len (t_range tp) /\
        r_len (t_range t) = r_len (t_range tp) + r_len (t_range tc)
    end.
Proof.
  intros Ho Hp Hi Hf. destruct (run_summary _ _ _ _ _ _ Ho Hp) as (st0 & gh & d & ids & Hpar & HI & _).
  pose proof (inv_t _ _ _ _ _ _ HI) as HT.
  destruct (nth_error gh i) as [x|] eqn:Ex.
  2:{ apply nth_error_None in Ex. apply nth_error_lt in Hi. rewrite (ti_len _ _ _ _ _ HT) in Hi. lia. }
  pose proof (ti_rel _ _ _ _ _ HT _ _ _ Hi Ex) as R.
  pose proof (tr_from _ _ _ _ _ _ _ R) as Hfr. unfold from_ok in Hfr. rewrite Hf in Hfr.
  destruct Hfr as (_ & pit & k & Hpit & -> & Hk).
  destruct (TInv_arena _ _ _ _ _ _ _ HT Hpit) as (tp & Htp & Rp).
  exists tp. split; [assumption|]. rewrite (tr_range _ _ _ _ _ _ _ R), (tr_range _ _ _ _ _ _ _ Rp).
  cbn [r_start r_len i_start i_kids i_snoc]. split; [reflexivity|]. rewrite yields_snoc, byte_len_app.
  destruct m as [s|c].
  - subst k. reflexivity.
  - destruct Hk as (_ & cit & Hcit & -> & Hst). destruct (TInv_arena _ _ _ _ _ _ _ HT Hcit) as (tc & Htc & Rc).
    exists tc. split; [assumption|]. rewrite (tr_range _ _ _ _ _ _ _ Rc). cbn [r_start r_len].
    split; [exact Hst|reflexivity].
Qed.

Lemma default_start ho g p : build_parser ho g = ROk p -> exists pr rest, g = pr :: rest /\ gp_start p = p_lhs pr.
Proof.
  intro H. apply build_parser_eq in H. destruct H as (st0 & Hs & ->). destruct g as [|pr rest]; [discriminate|].
  injection Hs as <-. eauto.
Qed.

Lemma build_implies_validate ho ho' g p : build_parser ho' g = ROk p -> validate ho g = ROk tt.
Proof.
  intro H. apply validate_spec. destruct (build_parser_spec ho' g) as [[H1 _] _].
  destruct (H1 (ex_intro _ p H)) as [Hne Hall]. split; [assumption|]. intros x Hx.
  destruct (Hall x Hx) as (q & e & Hq & Hl & _). exists q. auto.
Qed.

Lemma validate_build_agree ho ho' g : (forall p, In p g -> p_rhs p <> []) ->
  (validate ho g = ROk tt <-> exists p, build_parser ho' g = ROk p).
Proof.
  intro Hg. split; [|intros [p H]; eapply build_implies_validate; exact H].
  intro H. apply validate_spec in H. destruct H as [Hne Hall]. apply build_parser_spec.
  split; [assumption|]. intros x Hx. destruct (Hall x Hx) as (q & Hq & Hl).
  destruct (p_rhs q) as [|e es] eqn:E; [exfalso; exact (Hg q Hq E)|]. exists q, e. rewrite E. cbn. auto.
Qed.

Definition disagree_grammar : grammar :=
  [mkProd (Nonterminal (lit "a")) [[Nonterminal (lit "b")]]; mkProd (Nonterminal (lit "b")) []].
Lemma agree_counterexample ho ho' :
  validate ho disagree_grammar = ROk tt /\ forall p, build_parser ho' disagree_grammar <> ROk p.
Proof.
  split.
  - apply validate_spec. split; [discriminate|]. intros x (p & e & [<-|[<-|[]]] & He & Hx); [|destruct He].
    destruct He as [<-|[]]. destruct Hx as [Hx|[]]. injection Hx as <-.
    exists (mkProd (Nonterminal (lit "b")) []). cbn. auto.
  - intros p H. destruct (build_parser_spec ho' disagree_grammar) as [[H1 _] _].
    destruct (H1 (ex_intro _ p H)) as [_ Hall]. destruct (Hall (lit "b")) as (q & e & [<-|[<-|[]]] & Hl & He).
    + exists (mkProd (Nonterminal (lit "a")) [[Nonterminal (lit "b")]]), [Nonterminal (lit "b")]. cbn. auto.
    + discriminate.
    + destruct He.
Qed.
