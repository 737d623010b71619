(** How often a tree is returned. *)
From Verif Require Export CopiesSpec EarleyOrder.
From Coq Require Import FinFun.

(** ** The numbered trees behind a tree *)

Section Labels.
  Variable g : grammar.
  Let pg := pg_new_unchecked g.
  Let Heq : pg_prods pg = flat_prods g := proj2 (pg_new_unchecked_ok g).
  Notation dvalid := (dvalid pg).
  Notation dkids := (dkids pg).
  Notation erase := (erase pg).
  Notation erase_node := (erase_node pg).

  Definition positions {A} (dec : forall a b : A, {a = b} + {a <> b}) (l : list A) (a : A) : list nat :=
    filter (fun i => match nth_error l i with Some b => if dec b a then true else false | None => false end) (seq 0 (length l)).
  Lemma positions_in {A} dec (l : list A) a i : In i (positions dec l a) <-> nth_error l i = Some a.
  Proof.
    unfold positions. rewrite filter_In, in_seq. split.
    - intros [_ H]. destruct (nth_error l i) as [b|]; [|discriminate]. destruct (dec b a) as [->|]; [reflexivity|discriminate].
    - intro H. rewrite H. destruct (dec a a); [|congruence]. split; [|reflexivity]. split; [lia|]. apply nth_error_Some. congruence.
  Qed.
  Lemma positions_length {A} dec (l : list A) a : length (positions dec l a) = count_occ dec l a.
  Proof.
    unfold positions. induction l as [|b l IH]; [reflexivity|]. cbn [length seq filter nth_error count_occ].
    rewrite <- seq_shift. assert (H : forall f (m : list nat), length (filter f (map S m)) = length (filter (fun i => f (S i)) m)).
    { intros f m. induction m as [|x m IHm]; [reflexivity|]. cbn [map filter]. destruct (f (S x)); cbn [length]; rewrite IHm; reflexivity. }
    destruct (dec b a); cbn [length]; rewrite H; cbn [nth_error]; rewrite IH; reflexivity.
  Qed.

  Fixpoint labels (t : ptree) : list dtree :=
    match t with
    | Node l ks => flat_map (fun kids => map (fun pid => Node pid kids) (positions alternative_eq_dec (flat_prods g) (l, map term_of ks)))
                     (fold_right (fun k acc => match k with
                                               | Leaf s => map (cons (Leaf s)) acc
                                               | Sub t => flat_map (fun d => map (cons (Sub d)) acc) (labels t)
                                               end) [[]] ks)
    end.
  Definition label_kids (ks : list pnode) : list (list dnode) :=
    fold_right (fun k acc => match k with
                             | Leaf s => map (cons (Leaf s)) acc
                             | Sub t => flat_map (fun d => map (cons (Sub d)) acc) (labels t)
                             end) [[]] ks.
  Lemma labels_Node l ks : labels (Node l ks) =
    flat_map (fun kids => map (fun pid => Node pid kids) (positions alternative_eq_dec (flat_prods g) (l, map term_of ks))) (label_kids ks).
  Proof. reflexivity. Qed.

  Lemma flat_map_const {A B} (f : A -> list B) l n : (forall x, In x l -> length (f x) = n) -> length (flat_map f l) = length l * n.
  Proof. induction l as [|a l IH]; intro H; [reflexivity|]. cbn [flat_map length]. rewrite app_length, IH, H by (intros; apply H || left; try right; auto). lia. Qed.

  Lemma labels_length t : length (labels t) = copies g t.
  Proof.
    induction t as [l ks IH] using tree_ind'. rewrite labels_Node. cbn [copies].
    rewrite (flat_map_const _ _ (count_occ alternative_eq_dec (flat_prods g) (l, map term_of ks))) by (intros kids _; rewrite map_length; apply positions_length).
    generalize (count_occ alternative_eq_dec (flat_prods g) (l, map term_of ks)). intro n.
    induction ks as [|k ks IHk]; [cbn; lia|]. cbn [label_kids fold_right]. fold (label_kids ks). destruct k as [s|t].
    - rewrite map_length. apply IHk. intros t Ht. apply IH. right. exact Ht.
    - rewrite <- IHk by (intros t' Ht; apply IH; right; exact Ht). rewrite <- (IH t (or_introl eq_refl)).
      rewrite (flat_map_const _ _ (length (label_kids ks))) by (intros d _; apply map_length). lia.
  Qed.

  Lemma NoDup_flat {A B} (f : A -> list B) l : NoDup l -> (forall x, In x l -> NoDup (f x)) ->
    (forall x y b, In x l -> In y l -> In b (f x) -> In b (f y) -> x = y) -> NoDup (flat_map f l).
  Proof.
    induction 1 as [|a l Ha Hl IH]; intros Hf Hd; [constructor|]. cbn [flat_map].
    assert (H1 : NoDup (flat_map f l)) by (apply IH; [intros x Hx; apply Hf; right; exact Hx|intros x y b Hx Hy; apply Hd; right; assumption]).
    assert (H2 : NoDup (f a)) by (apply Hf; left; reflexivity).
    assert (H3 : forall b, In b (f a) -> ~ In b (flat_map f l)).
    { intros b Hb Hb'. apply in_flat_map in Hb'. destruct Hb' as (y & Hy & Hb'). apply Ha. rewrite (Hd a y b (or_introl eq_refl) (or_intror Hy) Hb Hb'). exact Hy. }
    clear - H1 H2 H3. induction H2 as [|b l' Hb Hl' IH]; [exact H1|]. cbn [app]. constructor.
    - rewrite in_app_iff. intros [H|H]; [exact (Hb H)|]. exact (H3 b (or_introl eq_refl) H).
    - apply IH. intros c Hc. apply H3. right. exact Hc.
  Qed.

  Lemma label_kids_NoDup ks : (forall t, In (Sub t) ks -> NoDup (labels t)) -> NoDup (label_kids ks).
  Proof.
    induction ks as [|k ks IH]; intro H; [constructor; [intros []|constructor]|]. cbn [label_kids fold_right]. fold (label_kids ks).
    assert (Hk : NoDup (label_kids ks)) by (apply IH; intros t Ht; apply H; right; exact Ht).
    destruct k as [s|t]; [apply Injective_map_NoDup; [intros a b E; injection E; auto|exact Hk]|].
    apply NoDup_flat; [apply H; left; reflexivity| |].
    - intros d _. apply Injective_map_NoDup; [intros a b E; injection E; auto|exact Hk].
    - intros x y b _ _ Hx Hy. apply in_map_iff in Hx. apply in_map_iff in Hy. destruct Hx as (u & <- & _), Hy as (v & E & _). injection E as -> _. reflexivity.
  Qed.
  Lemma labels_NoDup t : NoDup (labels t).
  Proof.
    induction t as [l ks IH] using tree_ind'. rewrite labels_Node. apply NoDup_flat; [apply label_kids_NoDup, IH| |].
    - intros kids _. apply Injective_map_NoDup; [intros a b E; injection E; auto|]. apply NoDup_filter, seq_NoDup.
    - intros x y b _ _ Hx Hy. apply in_map_iff in Hx. apply in_map_iff in Hy. destruct Hx as (u & <- & _), Hy as (v & E & _). injection E as _ ->. reflexivity.
  Qed.

  Lemma labels_complete d : dvalid d -> In d (labels (erase d)).
  Proof.
    induction d as [pid kids IH] using tree_ind'. intro Hv. inversion Hv as [? l rhs ? Hpid Hk]; subst. rewrite erase_Node, labels_Node.
    apply in_flat_map. exists kids. split.
    - clear Hpid Hv. induction Hk as [|s r ks Hk IHk|n pid' rhs' kids' r ks Hpid' Hv' Hk IHk]; [left; reflexivity| |].
      + cbn [map label_kids fold_right]. fold (label_kids (map erase_node ks)). apply in_map, IHk. intros; apply IH; [right|]; assumption.
      + cbn [map label_kids fold_right]. fold (label_kids (map erase_node ks)). apply in_flat_map. exists (Node pid' kids').
        split; [apply IH; [left; reflexivity|exact Hv']|]. apply in_map, IHk. intros; apply IH; [right|]; assumption.
    - apply in_map_iff. exists pid. split; [reflexivity|]. apply positions_in. rewrite <- Heq, Hpid. unfold lhs_of. rewrite Hpid.
      rewrite <- (dkids_terms pg _ _ Hk). reflexivity.
  Qed.

  Lemma labels_sound t : derives g t -> forall d, In d (labels t) -> dvalid d /\ erase d = t.
  Proof.
    induction t as [l ks IH] using tree_ind'. intros Hd d Hin. inversion Hd as [p rhs ? Hp Hr Hk]; subst. rewrite labels_Node in Hin.
    apply in_flat_map in Hin. destruct Hin as (kids & Hkids & Hin). apply in_map_iff in Hin. destruct Hin as (pid & <- & Hpid). apply positions_in in Hpid.
    assert (H : dkids (map term_of ks) kids /\ map erase_node kids = ks).
    { clear Hd Hr Hpid. revert kids Hkids. induction Hk as [|s r ks Hk IHk|n t r ks Hroot Ht Hk IHk]; intros kids Hkids.
      - destruct Hkids as [<-|[]]. split; [constructor|reflexivity].
      - cbn [label_kids fold_right] in Hkids. fold (label_kids ks) in Hkids. apply in_map_iff in Hkids. destruct Hkids as (kids' & <- & Hkids).
        destruct (IHk (fun t Ht => IH t (or_intror Ht)) kids' Hkids) as [H1 H2]. cbn [map term_of]. split; [constructor; exact H1|]. cbn [map]. rewrite H2. reflexivity.
      - cbn [label_kids fold_right] in Hkids. fold (label_kids ks) in Hkids. apply in_flat_map in Hkids. destruct Hkids as (d & Hd & Hkids).
        apply in_map_iff in Hkids. destruct Hkids as (kids' & <- & Hkids).
        destruct (IHk (fun t Ht => IH t (or_intror Ht)) kids' Hkids) as [H1 H2]. destruct (IH t (or_introl eq_refl) Ht d Hd) as [H3 H4].
        cbn [map term_of]. rewrite Hroot. split.
        + inversion H3 as [pid' l' rhs' kids'' Hpid' Hdk]; subst. rewrite erase_Node in Hroot. cbn [root] in Hroot. unfold lhs_of in Hroot. rewrite Hpid' in Hroot. cbn in Hroot. subst l'.
          econstructor; eassumption.
        + rewrite H2. change (erase_node (Sub d)) with (Sub (erase d) : pnode). rewrite H4. reflexivity. }
    destruct H as [H1 H2]. rewrite <- Heq in Hpid. split; [econstructor; eassumption|]. rewrite erase_Node, H2. unfold lhs_of. rewrite Hpid. reflexivity.
  Qed.
End Labels.

(** ** The numbered trees that have been returned *)

Lemma produced_items g start input it ts it' :
  opens g start input it -> produces it ts it' ->
  let pg := pg_new_unchecked g in
  exists F : list dtree, NoDup F /\ (forall dt, In dt F -> dvalid pg dt) /\ ts = map (erase pg) F.
Proof.
  intros Ho Hp pg.
  destruct (run_summary _ _ _ _ _ _ Ho Hp) as (st0 & gh & d & ids & Hpar & HI & Hnd & HF & Hall).
  fold pg in Hpar, HI, HF, Hall.
  assert (Hitems : forall i, In i ids -> exists x, nth_error gh i = Some x /\ full pg input start x).
  { clear - HF. induction HF as [|i t ids ts (x & Hx & Hf & ->) HF IH]; [intros i []|]. intros j [<-|Hj]; eauto. }
  set (tree_at := fun i => match nth_error gh i with Some x => i_tree x | None => Node 0 [] end).
  exists (map tree_at ids). split; [|split].
  - pose proof (ti_nodup _ _ _ _ _ (inv_t _ _ _ _ _ _ HI)) as Hgh. clear - Hnd Hitems Hgh.
    induction Hnd as [|i ids Hni Hnd IH]; cbn; [constructor|]. constructor.
    + intro Hin. apply in_map_iff in Hin. destruct Hin as (j & E & Hj).
      destruct (Hitems i) as (x & Hx & _ & Hs & _); [left; reflexivity|].
      destruct (Hitems j) as (y & Hy & _ & Hs' & _); [right; assumption|].
      unfold tree_at in E. rewrite Hx, Hy in E. destruct x as [px sx kx], y as [py sy ky].
      unfold i_tree in E. cbn in *. injection E as -> ->. subst sx sy.
      assert (j = i) by (eapply nth_error_NoDup; eassumption). subst. contradiction.
    + apply IH. intros j Hj. apply Hitems. right; assumption.
  - intros dt Hin. apply in_map_iff in Hin. destruct Hin as (i & <- & Hi).
    destruct (Hitems i Hi) as (x & Hx & Hf). unfold tree_at. rewrite Hx. apply full_dvalid in Hf. apply Hf.
  - clear - HF. subst tree_at. induction HF as [|i t ids ts (x & Hx & Hf & ->) HF IH]; cbn; [reflexivity|].
    rewrite Hx. f_equal. exact IH.
Qed.

Section Reach.
  Variable pg : parse_grammar.
  Hypothesis Hpg : pg_ok pg.
  Variable input : str.
  Variable start : term.
  Variable p : grammar_parser.
  Hypothesis Hp : gp_pg p = pg.
  Notation full := (full pg input start).
  Notation adv := (adv pg input start).
  Notation Inv := (Inv pg input start).

  Lemma adv_items st gh d st' gh' d' : adv st gh d st' gh' d' -> Inv st gh d ->
    exists F it', produces (mkI p st) (map (erase pg) F) it' /\
      forall i x, d <= i < d' -> nth_error gh' i = Some x -> full x -> In (i_tree x) F.
  Proof.
    induction 1 as [st gh d|st gh d rest found st1 new st2 gh2 d2 it Hq Hpr Hit Hf HI1 Hadv IH]; intro HI.
    - exists [], (mkI p st). split; [constructor|]. intros i x Hi. lia.
    - destruct (IH HI1) as (F & it2 & Hprod & Hall).
      pose proof (adv_nth _ _ _ _ _ _ _ _ _ d it Hadv (nth_error_ext _ _ _ _ Hit)) as Hit2.
      destruct Hf as [[-> Hfull]|[-> Hnf]].
      + assert (Hnext : iter_next 1 (mkI p st) = Ok (Some (erase pg (i_tree it)), mkI p st1)).
        { unfold iter_next. cbn [it_parser it_state]. rewrite Hp. cbn [earley]. rewrite Hq, Hpr, !rbind_Ok.
          pose proof (inv_t _ _ _ _ _ _ HI1) as HT.
          rewrite (parse_tree_ok pg input start _ _ HT _ d it);
            [reflexivity| |apply nth_error_ext; assumption].
          rewrite (ti_len _ _ _ _ _ HT). apply nth_error_lt in Hit. rewrite app_length. lia. }
        exists (i_tree it :: F), it2. split; [econstructor; eassumption|].
        intros i x Hi Hx Hfx. destruct (Nat.eq_dec i d) as [->|].
        * left. rewrite Hit2 in Hx. injection Hx as <-. reflexivity.
        * right. eapply Hall; [|exact Hx|exact Hfx]. lia.
      + assert (Hfx : forall i x, d <= i < d2 -> nth_error gh2 i = Some x -> full x -> In (i_tree x) F).
        { intros i x Hi Hx Hfx. destruct (Nat.eq_dec i d) as [->|].
          - exfalso. rewrite Hit2 in Hx. injection Hx as <-. contradiction.
          - eapply Hall; [|exact Hx|exact Hfx]. lia. }
        destruct F as [|f0 F].
        * exists [], (mkI p st). split; [constructor|]. exact Hfx.
        * exists (f0 :: F), it2. split; [|exact Hfx]. cbn [map] in *. inversion_clear Hprod as [|it0 t it1 ts' it3 fuel Hn Hrest].
          econstructor; [|exact Hrest].
          instantiate (1 := S fuel). unfold iter_next in *. cbn [it_parser it_state] in *.
          rewrite Hp in *. cbn [earley]. rewrite Hq, Hpr, rbind_Ok. exact Hn.
  Qed.

  Lemma reach_all (l : list dtree) : (forall dt, In dt l -> dvalid pg dt /\ lhs_of pg (root dt) = start /\ yield dt = input) ->
    forall st gh d, Inv st gh d -> exists st' gh' d', adv st gh d st' gh' d' /\ Inv st' gh' d' /\
      forall dt, In dt l -> exists i x, i < d' /\ nth_error gh' i = Some x /\ full x /\ i_tree x = dt.
  Proof.
    induction l as [|dt l IH]; intros Hl st gh d HI.
    - exists st, gh, d. split; [constructor|]. split; [exact HI|]. intros dt [].
    - destruct (IH (fun dt Hdt => Hl dt (or_intror Hdt)) st gh d HI) as (st1 & gh1 & d1 & Ha1 & HI1 & H1).
      destruct (Hl dt (or_introl eq_refl)) as (Hv & Hlhs & Hy). destruct dt as [pid kids]. inversion Hv as [? l' rhs ? Hpid Hk]; subst pid0 kids0.
      cbn [root] in Hlhs. unfold lhs_of in Hlhs. rewrite Hpid in Hlhs. cbn in Hlhs. subst l'.
      destruct (reach_tree pg Hpg input start (Node pid kids) Hv st1 gh1 d1 0 HI1) as (st2 & gh2 & d2 & Ha2 & HI2 & Hin2).
      { cbn. eapply (inv_start _ _ _ _ _ _ HI1). exact Hpid. }
      { rewrite Hy. exists [], []. rewrite app_nil_r. auto. }
      cbn in Hin2. destruct (adv_fair_In pg Hpg input start _ _ _ _ HI2 Hin2) as (st3 & gh3 & d3 & i & Ha3 & HI3 & Hi & Hni).
      pose proof (adv_trans _ _ _ _ _ _ _ _ _ _ _ _ Ha2 Ha3) as Ha. exists st3, gh3, d3.
      split; [exact (adv_trans _ _ _ _ _ _ _ _ _ _ _ _ Ha1 Ha)|]. split; [exact HI3|]. intros dt [<-|Hdt].
      + exists i, (mkItem pid 0 kids). split; [exact Hi|]. split; [exact Hni|]. split; [|reflexivity].
        split; [exists rhs; rewrite app_nil_r; auto|]. split; [reflexivity|]. exact Hy.
      + destruct (H1 dt Hdt) as (j & x & Hj & Hnj & Hf & Ex). exists j, x. destruct (adv_ext _ _ _ _ _ _ _ _ _ Ha) as [_ Hle].
        split; [lia|]. split; [exact (adv_nth _ _ _ _ _ _ _ _ _ j x Ha Hnj)|]. auto.
  Qed.
End Reach.

(** ** Counting *)

Lemma count_map {A B} (dec : forall a b : B, {a = b} + {a <> b}) (f : A -> B) l b :
  count_occ dec (map f l) b = length (filter (fun a => if dec (f a) b then true else false) l).
Proof. induction l as [|a l IH]; [reflexivity|]. cbn [map count_occ filter]. destruct (dec (f a) b); cbn [length]; rewrite IH; reflexivity. Qed.

Lemma copies_most g start input it ts it' t :
  opens g start input it -> produces it ts it' -> count_occ ptree_eq_dec ts t <= copies g t.
Proof.
  intros Ho Hp. destruct (produced_items _ _ _ _ _ _ Ho Hp) as (F & Hnd & Hv & ->).
  rewrite count_map, <- (labels_length g t). apply NoDup_incl_length; [apply NoDup_filter; exact Hnd|].
  intros dt Hin. apply filter_In in Hin. destruct Hin as [Hin E]. destruct (ptree_eq_dec _ t) as [<-|]; [|discriminate].
  apply labels_complete. exact (Hv dt Hin).
Qed.

Lemma copies_reached g start input it t :
  opens g start input it -> parses g start input t -> exists ts it', produces it ts it' /\ count_occ ptree_eq_dec ts t = copies g t.
Proof.
  intros Ho (Hd & Hr & Hy). destruct (opens_Inv _ _ _ _ Ho) as (st0 & Hpar & gh & HI).
  set (pg := pg_new_unchecked g) in *. destruct (pg_new_unchecked_ok g) as [Hok Heq].
  assert (Hl : forall dt, In dt (labels g t) -> dvalid pg dt /\ lhs_of pg (root dt) = start /\ yield dt = input).
  { intros dt Hin. destruct (labels_sound g t Hd dt Hin) as [Hv He]. fold pg in Hv, He. split; [exact Hv|]. split.
    - rewrite <- Hr, <- He. destruct dt. reflexivity.
    - rewrite <- Hy, <- He. symmetry. apply yield_erase. }
  destruct (reach_all pg Hok input start (labels g t) Hl _ _ _ HI) as (st1 & gh1 & d1 & Ha & HI1 & Hall).
  destruct (adv_items pg input start (mkGP st0 pg) eq_refl _ _ _ _ _ _ Ha HI) as (F & it' & Hprod & HF).
  assert (Hprod' : produces it (map (erase pg) F) it') by (destruct it as [p st]; cbn in *; subst p; exact Hprod).
  exists (map (erase pg) F), it'. split; [exact Hprod'|]. apply Nat.le_antisymm; [exact (copies_most _ _ _ _ _ _ t Ho Hprod')|].
  rewrite count_map, <- (labels_length g t). apply NoDup_incl_length; [apply labels_NoDup|]. intros dt Hin. apply filter_In. split.
  - destruct (Hall dt Hin) as (i & x & Hi & Hx & Hf & <-). apply (HF i x); [lia|exact Hx|exact Hf].
  - destruct (labels_sound g t Hd dt Hin) as [_ He]. fold pg in He. rewrite He. destruct (ptree_eq_dec t t); congruence.
Qed.

Lemma copies_all g start input it ts it' t :
  opens g start input it -> produces it ts it' -> exhausted it' -> parses g start input t -> count_occ ptree_eq_dec ts t = copies g t.
Proof.
  intros Ho Hp He Ht. apply Nat.le_antisymm; [exact (copies_most _ _ _ _ _ _ t Ho Hp)|].
  destruct (copies_reached _ _ _ _ _ Ho Ht) as (ts2 & it2 & Hp2 & <-).
  destruct (produces_linear _ _ _ Hp _ _ Hp2) as [(r & -> & Hr)|(r & -> & Hr)].
  - destruct r as [|x r]; [rewrite app_nil_r; reflexivity|]. destruct (exhausted_no_more _ _ _ _ He Hr).
  - rewrite count_occ_app. lia.
Qed.
