(** Two grammars that present the same alternatives under an injective renaming drive the
    parser through the same states, up to renaming of terms and production ids. *)
From Verif Require Export RenameSpec EarleyMain.

(** ** Results related by a function *)
Definition sim {A B} (f : A -> B) (P : A -> Prop) (x : res A) (y : res B) : Prop :=
  match x with
  | Ok a => y = Ok (f a) /\ P a
  | Panic => y = Panic
  | OutOfFuel => y = OutOfFuel
  end.

Lemma sim_bind {A B C D} (f : A -> B) (P : A -> Prop) (g : C -> D) (Q : C -> Prop) x y k k' :
  sim f P x y -> (forall a, P a -> sim g Q (k a) (k' (f a))) -> sim g Q (rbind x k) (rbind y k').
Proof.
  destruct x as [a| |]; cbn; intros H Hk.
  - destruct H as [-> H]. cbn. auto.
  - subst; reflexivity.
  - subst; reflexivity.
Qed.

Lemma sim_ok {A B} (f : A -> B) (P : A -> Prop) a b : b = f a -> P a -> sim f P (Ok a) (Ok b).
Proof. intros -> H. split; auto. Qed.

Lemma sim_refl {A} (x : res A) : sim (fun a => a) (fun a => x = Ok a) x x.
Proof. destruct x; cbn; auto. Qed.

Lemma hm_get_map {K K' V} (eqb : K -> K -> bool) (eqb' : K' -> K' -> bool) (f : K -> K') (m : hmap K V) k :
  Forall (fun x => eqb' (f (fst x)) (f k) = eqb (fst x) k) m ->
  hm_get eqb' (map (fun x => (f (fst x), snd x)) m) (f k) = hm_get eqb m k.
Proof.
  induction m as [|[k0 v] m IH]; intro H; cbn; [reflexivity|].
  inversion H as [|? ? H1 H2]; subst. cbn in H1. rewrite H1. destruct (eqb k0 k); auto.
Qed.

Section Sim.
  Variables pg pg' : parse_grammar.
  Variable h : str -> str.
  Variable rho : nat -> nat.
  Variable L : term -> Prop.
  Variable D : nat -> Prop.
  Notation rn := (rename h).
  Definition okterm (t : term) : Prop := match t with Terminal _ => True | Nonterminal _ => L t end.
  Hypothesis Hrn : forall a b, L a -> L b -> rn a = rn b -> a = b.
  Hypothesis Hrho : forall a b, D a -> D b -> rho a = rho b -> a = b.
  Hypothesis Hby : forall l, L l ->
    get_productions_by_lhs pg' (rn l) = map rho (get_productions_by_lhs pg l) /\
    Forall D (get_productions_by_lhs pg l).
  Hypothesis Hprod : forall id, D id -> exists l e,
    nth_error (pg_prods pg) id = Some (l, e) /\
    nth_error (pg_prods pg') (rho id) = Some (rn l, map rn e) /\ L l /\ Forall okterm e.

  Definition f_trav (t : traversal) : traversal :=
    mkT (t_id t) (map rn (t_unmatched t)) (t_range t) (rho (t_pid t)) (t_starting t) (t_from t).
  Definition f_root (k : troot) : troot := (rho (fst k), snd k).
  Definition f_tree (tr : ttree) : ttree :=
    mkTT (map f_trav (tt_arena tr)) (map (fun x => (f_root (fst x), snd x)) (tt_roots tr)) (tt_edges tr).
  Definition f_key (k : ckey) : ckey := (rn (fst k), snd k).
  Definition f_cmap (cm : cmap) : cmap :=
    mkCM (map (fun x => (f_key (fst x), snd x)) (cm_incomplete cm))
         (map (fun x => (f_key (fst x), snd x)) (cm_complete cm)).
  Definition f_state (st : pstate) : pstate :=
    mkS (f_tree (s_tree st)) (s_queue st) (f_cmap (s_comp st)).

  Definition okt (t : traversal) : Prop := D (t_pid t) /\ Forall okterm (t_unmatched t).
  Definition oktree (tr : ttree) : Prop :=
    Forall okt (tt_arena tr) /\ Forall (fun x => D (fst (fst x))) (tt_roots tr).
  Definition okcm (cm : cmap) : Prop :=
    Forall (fun x => L (fst (fst x))) (cm_incomplete cm) /\ Forall (fun x => L (fst (fst x))) (cm_complete cm).
  Definition okst (st : pstate) : Prop := oktree (s_tree st) /\ okcm (s_comp st).

  Lemma f_next t : next_unmatched (f_trav t) = option_map rn (next_unmatched t).
  Proof. unfold next_unmatched. cbn. destruct (t_unmatched t); reflexivity. Qed.

  Lemma sim_arena tr id : oktree tr ->
    sim f_trav (fun t => okt t) (expect (nth_error (tt_arena tr) id)) (expect (nth_error (tt_arena (f_tree tr)) id)).
  Proof.
    intros [H _]. cbn [tt_arena f_tree]. rewrite nth_error_map.
    destruct (nth_error (tt_arena tr) id) as [t|] eqn:E; cbn; [|reflexivity].
    split; [reflexivity|]. rewrite Forall_forall in H. apply H. eapply nth_error_In; eassumption.
  Qed.

  Lemma sim_production id : D id ->
    sim (fun p => (rn (fst p), map rn (snd p))) (fun p => L (fst p) /\ Forall okterm (snd p))
        (get_production_by_id pg id) (get_production_by_id pg' (rho id)).
  Proof.
    intro H. destruct (Hprod id H) as (l & e & H1 & H2 & H3 & H4).
    unfold get_production_by_id. rewrite H1, H2. cbn. auto.
  Qed.

  Lemma f_predict tr range pid rhs starting : oktree tr -> D pid -> Forall okterm rhs ->
    tt_predict (f_tree tr) range (rho pid) (map rn rhs) starting =
      (fst (tt_predict tr range pid rhs starting), f_tree (snd (tt_predict tr range pid rhs starting))) /\
    oktree (snd (tt_predict tr range pid rhs starting)).
  Proof.
    intros [Ha Hr] Hp Hrhs. unfold tt_predict. cbn [tt_roots f_tree].
    change (rho pid, total_len range) with (f_root (pid, total_len range)).
    rewrite (hm_get_map troot_eqb troot_eqb f_root).
    - destruct (hm_get troot_eqb (tt_roots tr) (pid, total_len range)) as [id|]; cbn [fst snd].
      + split; [reflexivity|]. split; assumption.
      + cbn [tt_arena f_tree tt_edges]. rewrite map_length. split.
        * f_equal. unfold f_tree. cbn [tt_arena tt_roots tt_edges]. rewrite map_app. reflexivity.
        * split; cbn [tt_arena tt_roots].
          -- apply Forall_app. split; [assumption|]. constructor; [|constructor]. split; assumption.
          -- constructor; assumption.
    - eapply Forall_impl; [|exact Hr]. intros [[p s] v] Hd. cbn in Hd.
      unfold troot_eqb, f_root. cbn [fst snd]. f_equal.
      destruct (Nat.eqb_spec p pid) as [->|Hne]; [apply Nat.eqb_refl|].
      apply Nat.eqb_neq. intro E. apply Hne. apply Hrho; assumption.
  Qed.

  Lemma f_predict_all range starting pids : forall tr q, oktree tr -> Forall D pids ->
    sim (fun x => (f_tree (fst x), snd x)) (fun x => oktree (fst x))
        (predict_all pg range starting pids tr q)
        (predict_all pg' range starting (map rho pids) (f_tree tr) q).
  Proof.
    induction pids as [|pid pids IH]; intros tr q Ht Hd; cbn [predict_all map].
    - apply sim_ok; auto.
    - inversion Hd as [|? ? Hd1 Hd2]; subst.
      eapply sim_bind; [apply sim_production; assumption|]. intros [l e] [HL He]. cbn [fst snd] in *.
      destruct (f_predict tr range pid e starting Ht Hd1 He) as [E Hok]. rewrite E.
      destruct (tt_predict tr range pid e starting) as [id tr1]. cbn [fst snd] in *. apply IH; assumption.
  Qed.

  Lemma f_match_term tr parent m : oktree tr ->
    sim (fun x => (fst x, f_tree (snd x))) (fun x => oktree (snd x))
        (tt_match_term tr parent m) (tt_match_term (f_tree tr) parent m).
  Proof.
    intro Ht. unfold tt_match_term. eapply sim_bind; [apply sim_arena; assumption|].
    intros t Hto. cbn beta.
    apply (sim_bind (fun r => r) (fun _ => True)).
    - destruct m as [s|i].
      + cbn [t_range f_trav]. destruct (advance_by (t_range t) (byte_len s)); cbn; auto.
      + eapply sim_bind; [apply sim_arena; assumption|]. intros t2 _. cbn [t_range f_trav].
        destruct (advance_by (t_range t) (r_len (t_range t2))); cbn; auto.
    - intros r _. apply (sim_bind (map rn) (fun u => Forall okterm u)).
      + cbn [t_unmatched f_trav]. destruct Hto as [_ Hu]. destruct (t_unmatched t) as [|x u]; cbn; [reflexivity|].
        inversion Hu; subst. auto.
      + intros u Hu. cbn [t_id f_trav tt_edges f_tree].
        destruct (hm_get tedge_eqb (tt_edges tr) (m, t_id t)) as [id|].
        * apply sim_ok; [reflexivity|]. cbn. assumption.
        * apply sim_ok.
          -- cbn [fst snd]. unfold f_tree. cbn [tt_arena tt_roots tt_edges]. rewrite map_length, map_app. reflexivity.
          -- cbn [snd]. destruct Ht as [Ha Hr]. split; cbn [tt_arena tt_roots]; [|assumption].
             apply Forall_app. split; [assumption|]. constructor; [|constructor].
             split; cbn [t_pid t_unmatched]; [apply Hto|assumption].
  Qed.

  Lemma f_match_all l : forall tr q, oktree tr ->
    sim (fun x => (f_tree (fst x), snd x)) (fun x => oktree (fst x))
        (match_all l tr q) (match_all l (f_tree tr) q).
  Proof.
    induction l as [|[p m] l IH]; intros tr q Ht; cbn [match_all].
    - apply sim_ok; auto.
    - eapply sim_bind; [apply f_match_term; assumption|]. intros [id tr1] H1. cbn [fst snd] in *. apply IH; assumption.
  Qed.

  Lemma f_lookup (m : hmap ckey (list nat)) k : Forall (fun x => L (fst (fst x))) m -> L (fst k) ->
    cm_lookup (map (fun x => (f_key (fst x), snd x)) m) (f_key k) = cm_lookup m k.
  Proof.
    intros Hm Hk. unfold cm_lookup. rewrite (hm_get_map ckey_eqb ckey_eqb f_key); [reflexivity|].
    eapply Forall_impl; [|exact Hm]. intros [[t s] v] Ht. cbn in Ht. destruct k as [t' s']. cbn in Hk.
    unfold ckey_eqb, f_key. cbn [fst snd]. f_equal.
    destruct (term_eqb t t') eqn:E.
    - apply term_eqb_eq in E. subst. apply term_eqb_refl.
    - destruct (term_eqb (rn t) (rn t')) eqn:E2; [|reflexivity]. apply term_eqb_eq in E2.
      apply Hrn in E2; [|assumption|assumption]. subst. rewrite term_eqb_refl in E. discriminate.
  Qed.

  Lemma f_cm_insert cm t l : okcm cm -> okt t -> L l ->
    cm_insert (f_cmap cm) (f_trav t) (rn l) = f_cmap (cm_insert cm t l) /\ okcm (cm_insert cm t l).
  Proof.
    intros [Hi Hc] [_ Hu] Hl. unfold cm_insert. rewrite f_next. unfold next_unmatched.
    destruct (t_unmatched t) as [|[s|n] u]; cbn [hd_error option_map rename].
    - cbn [t_range f_trav t_id]. split.
      + unfold f_cmap. cbn [cm_incomplete cm_complete]. f_equal.
        change (key_start (rn l) (t_range t)) with (f_key (key_start l (t_range t))).
        rewrite f_lookup by assumption. reflexivity.
      + split; cbn [cm_incomplete cm_complete]; [assumption|]. constructor; assumption.
    - split; [reflexivity|]. split; assumption.
    - inversion Hu as [|? ? Hn Hu']; subst. cbn in Hn. cbn [t_range f_trav t_id]. split.
      + unfold f_cmap. cbn [cm_incomplete cm_complete]. f_equal.
        change (key_total (Nonterminal (h n)) (t_range t)) with (f_key (key_total (Nonterminal n) (t_range t))).
        rewrite f_lookup by assumption. reflexivity.
      + split; cbn [cm_incomplete cm_complete]; [|assumption]. constructor; assumption.
  Qed.

  Lemma f_process tr q cm id : oktree tr -> okcm cm ->
    sim (fun x => (fst x, f_state (snd x))) (fun x => okst (snd x))
        (process pg tr q cm id) (process pg' (f_tree tr) q (f_cmap cm) id).
  Proof.
    intros Ht Hcm. unfold process. eapply sim_bind; [apply sim_arena; assumption|].
    intros t Hto. cbn beta. rewrite f_next. assert (Hnx := proj2 Hto). unfold next_unmatched at 1 2.
    destruct (t_unmatched t) as [|[s|n] u] eqn:Hu; cbn [hd_error option_map rename].
    - (* complete *)
      eapply sim_bind; [apply sim_production; apply Hto|]. intros [l e] [HL _]. cbn [fst snd] in *.
      destruct (f_cm_insert cm t l Hcm Hto HL) as [E1 Hcm1].
      unfold get_incomplete. cbn [t_range f_trav t_starting].
      rewrite E1. change (key_start (rn l) (t_range t)) with (f_key (key_start l (t_range t))).
      unfold f_cmap at 1. cbn [cm_incomplete]. rewrite f_lookup; [|apply Hcm1|assumption].
      eapply sim_bind; [apply f_match_all; assumption|]. intros [tr1 q1] H1. cbn [fst snd] in *.
      apply sim_ok; [reflexivity|]. split; assumption.
    - (* terminal *)
      cbn [t_range f_trav]. destruct (starts_with (range_next (t_range t)) s).
      + eapply sim_bind; [apply f_match_all; assumption|]. intros [tr1 q1] H1. cbn [fst snd] in *.
        apply sim_ok; [reflexivity|]. split; assumption.
      + apply sim_ok; [reflexivity|]. split; assumption.
    - (* nonterminal *)
      inversion Hnx as [|? ? Hn _]; subst. cbn in Hn.
      eapply sim_bind; [apply sim_production; apply Hto|]. intros [l e] [HL _]. cbn [fst snd] in *.
      destruct (f_cm_insert cm t l Hcm Hto HL) as [E1 Hcm1]. rewrite E1. cbn [t_range f_trav].
      change (Nonterminal (h n)) with (rn (Nonterminal n)).
      destruct (Hby _ Hn) as [Eb Hb]. rewrite Eb.
      eapply sim_bind; [apply f_predict_all; assumption|]. intros [tr1 q1] H1. cbn [fst snd] in *.
      unfold get_complete.
      change (key_total (rn (Nonterminal n)) (t_range t)) with (f_key (key_total (Nonterminal n) (t_range t))).
      unfold f_cmap at 1. cbn [cm_complete]. rewrite f_lookup; [|apply Hcm1|assumption].
      eapply sim_bind; [apply f_match_all; assumption|]. intros [tr2 q2] H2. cbn [fst snd] in *.
      apply sim_ok; [reflexivity|]. split; assumption.
  Qed.

  Lemma f_earley fuel : forall st, okst st ->
    sim (fun x => (fst x, f_state (snd x))) (fun x => okst (snd x))
        (earley fuel pg st) (earley fuel pg' (f_state st)).
  Proof.
    induction fuel as [|fuel IH]; intros st [Ht Hc]; cbn [earley]; [reflexivity|].
    change (s_queue (f_state st)) with (s_queue st).
    destruct (q_queue (s_queue st)) as [|id rest].
    - apply sim_ok; [reflexivity|]. split; assumption.
    - eapply sim_bind; [apply f_process; assumption|]. intros [[i|] st1] H1; cbn [fst snd] in *.
      + apply sim_ok; [reflexivity|]. assumption.
      + apply IH. assumption.
  Qed.

  (** ** Trees *)
  Lemma f_tt_get tr id : tt_get (f_tree tr) id =
    match tt_get tr id with Ok t => Ok (f_trav t) | Panic => Panic | OutOfFuel => OutOfFuel end.
  Proof.
    unfold tt_get. cbn [f_tree tt_arena]. rewrite nth_error_map. destruct (nth_error (tt_arena tr) id); reflexivity.
  Qed.

  Lemma f_match_iter_root fuel tr : forall id, match_iter_root fuel (f_tree tr) id = match_iter_root fuel tr id.
  Proof.
    induction fuel as [|fuel IH]; intro id; cbn [match_iter_root]; [reflexivity|].
    rewrite f_tt_get. destruct (tt_get tr id) as [t| |]; cbn; try reflexivity.
    destruct (t_from t); [apply IH|reflexivity].
  Qed.

  Lemma f_match_iter_scan fuel tr c : forall s, match_iter_scan fuel (f_tree tr) c s = match_iter_scan fuel tr c s.
  Proof.
    induction fuel as [|fuel IH]; intro s; cbn [match_iter_scan]; [reflexivity|].
    rewrite f_tt_get. destruct (tt_get tr s) as [t| |]; cbn; try reflexivity.
    destruct (t_from t) as [e|]; [|reflexivity]. destruct (c =? snd e); [reflexivity|apply IH].
  Qed.

  Lemma f_match_iter_all walk tr last fuel : forall c,
    match_iter_all fuel walk (f_tree tr) c last = match_iter_all fuel walk tr c last.
  Proof.
    induction fuel as [|fuel IH]; intro c; cbn [match_iter_all]; [reflexivity|].
    unfold match_iter_next. destruct (c =? last); [reflexivity|]. rewrite f_match_iter_scan.
    destruct (match_iter_scan walk tr c last) as [[[c' m]|]| |]; cbn; try reflexivity. rewrite IH. reflexivity.
  Qed.

  Lemma f_get_matched tr id : get_matched (f_tree tr) id = get_matched tr id.
  Proof.
    unfold get_matched. cbn [tt_arena f_tree]. rewrite map_length.
    change (mkTT (map f_trav (tt_arena tr)) (map (fun x => (f_root (fst x), snd x)) (tt_roots tr)) (tt_edges tr)) with (f_tree tr).
    rewrite f_match_iter_root. destruct (match_iter_root _ tr id); unfold rbind; [|reflexivity|reflexivity]. apply f_match_iter_all.
  Qed.

  Lemma sim_res_map {A B B'} (f : B -> B') (k : A -> res B) (k' : A -> res B') l :
    (forall a, sim f (fun _ => True) (k a) (k' a)) ->
    sim (map f) (fun _ => True) (res_map k l) (res_map k' l).
  Proof.
    intro H. induction l as [|a l IH]; cbn [res_map]; [split; auto|].
    eapply sim_bind; [apply H|]. intros b _. eapply sim_bind; [apply IH|]. intros r _. split; auto.
  Qed.

  Lemma f_parse_tree fuel tr : oktree tr -> forall id,
    sim (rename_tree h) (fun _ => True) (parse_tree fuel tr pg id) (parse_tree fuel (f_tree tr) pg' id).
  Proof.
    intro Ht. induction fuel as [|fuel IH]; intro id; cbn [parse_tree]; [reflexivity|].
    eapply sim_bind; [apply sim_arena; assumption|]. intros t Hto. cbn [t_pid f_trav].
    eapply sim_bind; [apply sim_production; apply Hto|]. intros [l e] _. cbn [fst].
    rewrite f_get_matched. eapply sim_bind; [apply sim_refl|]. intros ms _. cbn beta.
    eapply sim_bind; [apply (sim_res_map (rename_node h))|].
    - intros [s|i]; [split; auto|]. eapply sim_bind; [apply IH|]. intros st _. split; auto.
    - intros rhs _. apply sim_ok; auto.
  Qed.

  (** ** The iterator *)
  Lemma f_iter_next fuel st0 st0' st : okst st ->
    sim (fun x => (option_map (rename_tree h) (fst x), mkI (mkGP st0' pg') (f_state (it_state (snd x)))))
        (fun x => okst (it_state (snd x)) /\ it_parser (snd x) = mkGP st0 pg)
        (iter_next fuel (mkI (mkGP st0 pg) st)) (iter_next fuel (mkI (mkGP st0' pg') (f_state st))).
  Proof.
    intro Hs. unfold iter_next. cbn [it_parser it_state gp_pg].
    eapply sim_bind; [apply f_earley; assumption|]. intros [[i|] st1] H1; cbn [fst snd] in *.
    - cbn [f_state s_tree]. replace (length (tt_arena (f_tree (s_tree st1)))) with (length (tt_arena (s_tree st1)))
        by (cbn; rewrite map_length; reflexivity).
      eapply sim_bind; [apply f_parse_tree; apply H1|]. intros t _. apply sim_ok; [reflexivity|]. auto.
    - apply sim_ok; [reflexivity|]. auto.
  Qed.

  (** Two iterators in corresponding states. *)
  Definition corresponds (it it' : piter) : Prop :=
    exists st0 st0' st, it = mkI (mkGP st0 pg) st /\ it' = mkI (mkGP st0' pg') (f_state st) /\ okst st.

  Lemma corresponds_next fuel it it' : corresponds it it' ->
    match iter_next fuel it with
    | Ok (o, it1) => exists it1', iter_next fuel it' = Ok (option_map (rename_tree h) o, it1') /\ corresponds it1 it1'
    | Panic => iter_next fuel it' = Panic
    | OutOfFuel => iter_next fuel it' = OutOfFuel
    end.
  Proof.
    intros (st0 & st0' & st & -> & -> & Hs). pose proof (f_iter_next fuel st0 st0' st Hs) as H.
    destruct (iter_next fuel (mkI (mkGP st0 pg) st)) as [[o [p st1]]| |]; cbn in H; [|assumption|assumption].
    destruct H as [-> [H1 H2]]. subst p. eexists. split; [reflexivity|]. exists st0, st0', st1. auto.
  Qed.

  Lemma corresponds_new st0 st0' input start it it' : L start ->
    iter_new (mkGP st0 pg) input (Some start) = Ok it ->
    iter_new (mkGP st0' pg') input (Some (rn start)) = Ok it' -> corresponds it it'.
  Proof.
    intro HL. unfold iter_new. cbn [gp_pg]. destruct (Hby _ HL) as [Eb Hb]. rewrite Eb.
    pose proof (f_predict_all (range_new input) true (get_productions_by_lhs pg start) (mkTT [] [] []) (mkQ [] [])) as H.
    intros E E'. destruct (predict_all pg (range_new input) true (get_productions_by_lhs pg start) (mkTT [] [] []) (mkQ [] []))
      as [[tr q]| |]; cbn in E; try discriminate. injection E as <-.
    cbn [sim] in H. destruct H as [E2 H2]; [split; constructor|assumption|].
    change (f_tree (mkTT [] [] [])) with (mkTT [] [] []) in E2. rewrite E2 in E'. cbn in E'. injection E' as <-.
    exists st0, st0', (mkS tr q (mkCM [] [])). split; [reflexivity|]. split; [reflexivity|].
    split; [exact H2|]. split; constructor.
  Qed.

  Lemma corresponds_solo fuels : forall it it', corresponds it it' ->
    solo it' fuels = map (rename_outcome h) (solo it fuels).
  Proof.
    induction fuels as [|f fuels IH]; intros it it' H; cbn [solo map]; [reflexivity|].
    pose proof (corresponds_next f it it' H) as Hn.
    destruct (iter_next f it) as [[o it1]| |].
    - destruct Hn as (it1' & -> & H1). cbn [map]. rewrite (IH _ _ H1). destruct o; reflexivity.
    - rewrite Hn. cbn [map]. rewrite (IH _ _ H). reflexivity.
    - rewrite Hn. cbn [map]. rewrite (IH _ _ H). reflexivity.
  Qed.

  Lemma corresponds_produces it ts itf : produces it ts itf -> forall it', corresponds it it' ->
    exists itf', produces it' (map (rename_tree h) ts) itf' /\ corresponds itf itf'.
  Proof.
    induction 1 as [it|it t it1 ts it2 fuel H1 H2 IH]; intros it' Hc.
    - exists it'. split; [constructor|assumption].
    - pose proof (corresponds_next fuel it it' Hc) as Hn. rewrite H1 in Hn.
      destruct Hn as (it1' & E & Hc1). destruct (IH _ Hc1) as (itf' & Hp & Hcf).
      exists itf'. split; [|assumption]. econstructor; eassumption.
  Qed.

  Lemma corresponds_exhausted it it' : corresponds it it' -> (exhausted it <-> exhausted it').
  Proof.
    intro Hc. split; intros (f & it1 & E); exists f; pose proof (corresponds_next f it it' Hc) as Hn.
    - rewrite E in Hn. destruct Hn as (it1' & E' & _). eauto.
    - destruct (iter_next f it) as [[[t|] it2]| |].
      + destruct Hn as (it1' & E' & _). rewrite E in E'. discriminate.
      + eauto.
      + congruence.
      + congruence.
  Qed.

  Lemma corresponds_diverges it it' : corresponds it it' -> (diverges it <-> diverges it').
  Proof.
    intro Hc. split; intros H f; specialize (H f); pose proof (corresponds_next f it it' Hc) as Hn.
    - rewrite H in Hn. assumption.
    - destruct (iter_next f it) as [[o it2]| |]; [|congruence|reflexivity].
      destruct Hn as (it1' & E' & _). congruence.
  Qed.

  Lemma corresponds_traversals it it' : corresponds it it' -> traversals it' = traversals it.
  Proof. intros (st0 & st0' & st & -> & -> & _). unfold traversals. cbn. apply map_length. Qed.
End Sim.

(** ** The tables of a grammar *)

Definition has_lhs (ps : list (term * expression)) (l : term) (i : nat) : bool :=
  match nth_error ps i with Some (l', _) => term_eqb l' l | None => false end.

Lemma has_lhs_snoc ps x l i : i < length ps -> has_lhs (ps ++ [x]) l i = has_lhs ps l i.
Proof. intro H. unfold has_lhs. rewrite nth_error_app1 by assumption. reflexivity. Qed.

Lemma filter_ext_in' {A} (f g : A -> bool) l : (forall a, In a l -> f a = g a) -> filter f l = filter g l.
Proof.
  induction l as [|a l IH]; intro H; cbn; [reflexivity|].
  rewrite (H a) by (left; reflexivity). rewrite IH by (intros; apply H; right; assumption). reflexivity.
Qed.

Definition pg_listed (pg : parse_grammar) : Prop :=
  forall l, get_productions_by_lhs pg l =
    filter (has_lhs (pg_prods pg) l) (seq 0 (length (pg_prods pg))).

Lemma pg_push_listed pg x : pg_listed pg -> pg_listed (pg_push pg x).
Proof.
  intros H l. destruct x as [l0 e]. rewrite pg_push_prods, app_length. cbn [length].
  rewrite Nat.add_1_r, seq_S, filter_app. cbn [plus].
  rewrite (filter_ext_in' _ (has_lhs (pg_prods pg) l)) by
    (intros i Hi; apply in_seq in Hi; apply has_lhs_snoc; lia).
  rewrite <- H. cbn [filter]. unfold has_lhs at 1. rewrite nth_error_app2, Nat.sub_diag by lia. cbn [nth_error].
  unfold get_productions_by_lhs at 1, pg_push; cbn.
  destruct (term_eqb l0 l) eqn:E.
  - apply term_eqb_eq in E. subst. reflexivity.
  - rewrite app_nil_r. reflexivity.
Qed.

Lemma fold_pg_push_listed ps : forall pg, pg_listed pg -> pg_listed (fold_left pg_push ps pg).
Proof. induction ps as [|x ps IH]; intros pg H; cbn; [assumption|]. apply IH, pg_push_listed, H. Qed.

Lemma pg_new_unchecked_listed g : pg_listed (pg_new_unchecked g).
Proof. apply fold_pg_push_listed. intro l. reflexivity. Qed.

Lemma by_lhs_NoDup g l : NoDup (get_productions_by_lhs (pg_new_unchecked g) l).
Proof. rewrite pg_new_unchecked_listed. apply NoDup_filter, seq_NoDup. Qed.

Definition rhs_of (ps : list (term * expression)) (i : nat) : expression :=
  match nth_error ps i with Some (_, e) => e | None => [] end.

Lemma filter_seq_shift (f : nat -> bool) n :
  filter f (seq 1 n) = map S (filter (fun i => f (S i)) (seq 0 n)).
Proof.
  rewrite <- seq_shift. generalize (seq 0 n) as l. induction l as [|i l IH]; cbn; [reflexivity|].
  destruct (f (S i)); cbn; rewrite IH; reflexivity.
Qed.

Lemma listed_rhs ps l :
  map (rhs_of ps) (filter (has_lhs ps l) (seq 0 (length ps))) =
  flat_map (fun x => if term_eqb (fst x) l then [snd x] else []) ps.
Proof.
  induction ps as [|[l0 e] ps IH]; [reflexivity|].
  cbn [length seq filter flat_map fst snd]. rewrite filter_seq_shift. unfold has_lhs at 1. cbn [nth_error].
  assert (E : map (rhs_of ((l0, e) :: ps)) (map S (filter (fun i => has_lhs ((l0, e) :: ps) l (S i)) (seq 0 (length ps)))) =
              flat_map (fun x => if term_eqb (fst x) l then [snd x] else []) ps).
  { rewrite <- IH, map_map. reflexivity. }
  destruct (term_eqb l0 l); cbn [map app]; rewrite E; reflexivity.
Qed.

Lemma flat_map_flat_map {A B C} (f : B -> list C) (k : A -> list B) l :
  flat_map f (flat_map k l) = flat_map (fun a => flat_map f (k a)) l.
Proof. induction l as [|a l IH]; cbn; [reflexivity|]. rewrite flat_map_app, IH. reflexivity. Qed.

Lemma alternatives_flat g l :
  flat_map (fun x => if term_eqb (fst x) l then [snd x] else []) (flat_prods g) = alternatives g l.
Proof.
  unfold flat_prods, alternatives. rewrite flat_map_flat_map. apply flat_map_ext. intro p.
  induction (p_rhs p) as [|e es IH]; cbn [map flat_map fst snd].
  - destruct (term_eqb (p_lhs p) l); reflexivity.
  - rewrite IH. destruct (term_eqb (p_lhs p) l); reflexivity.
Qed.

Lemma by_lhs_alternatives g l :
  map (rhs_of (pg_prods (pg_new_unchecked g))) (get_productions_by_lhs (pg_new_unchecked g) l) = alternatives g l.
Proof.
  rewrite pg_new_unchecked_listed, listed_rhs, (proj2 (pg_new_unchecked_ok g)). apply alternatives_flat.
Qed.

(** ** Matching up the production ids by rank *)

Fixpoint rank (x : nat) (l : list nat) : nat :=
  match l with [] => 0 | y :: r => if Nat.eqb y x then 0 else S (rank x r) end.

Lemma nth_rank l : forall x, In x l -> nth (rank x l) l 0 = x.
Proof.
  induction l as [|y l IH]; intros x H; [destruct H|]. cbn [rank].
  destruct (Nat.eqb_spec y x) as [->|Hne]; [reflexivity|]. cbn [nth]. destruct H as [->|H]; [contradiction|]. auto.
Qed.

Lemma rank_lt l : forall x, In x l -> rank x l < length l.
Proof.
  induction l as [|y l IH]; intros x H; [destruct H|]. cbn [rank length].
  destruct (Nat.eqb_spec y x) as [->|Hne]; [lia|]. destruct H as [->|H]; [contradiction|].
  apply IH in H. lia.
Qed.

Lemma map_rank l : NoDup l -> forall l', length l' = length l -> map (fun x => nth (rank x l) l' 0) l = l'.
Proof.
  induction 1 as [|y l Hni Hnd IH]; intros [|y' l'] Hl; cbn [length] in Hl; try discriminate; [reflexivity|].
  cbn [map rank]. rewrite Nat.eqb_refl. cbn [nth]. f_equal.
  transitivity (map (fun x => nth (rank x l) l' 0) l); [|apply IH; lia].
  apply map_ext_in. intros x Hx. destruct (Nat.eqb_spec y x) as [->|Hne]; [contradiction|]. reflexivity.
Qed.

Section Matching.
  Variables g g' : grammar.
  Variable h : str -> str.
  Variable start : term.
  Hypothesis HP : presents h g start g'.
  Notation pg := (pg_new_unchecked g).
  Notation pg' := (pg_new_unchecked g').
  Notation rn := (rename h).
  Notation L := (reachable g start).

  Definition match_id (i : nat) : nat :=
    match nth_error (pg_prods pg) i with
    | Some (l, _) => nth (rank i (get_productions_by_lhs pg l)) (get_productions_by_lhs pg' (rn l)) 0
    | None => 0
    end.
  Definition seen (i : nat) : Prop := exists l e, nth_error (pg_prods pg) i = Some (l, e) /\ L l.

  Lemma rename_inj a b : L a -> L b -> rn a = rn b -> a = b.
  Proof.
    intros Ha Hb. destruct a as [s|a], b as [s'|b]; cbn; intro E; try discriminate; [exact E|].
    injection E as E. f_equal. exact (proj1 HP _ _ Ha Hb E).
  Qed.

  Lemma by_lhs_length l : L l ->
    length (get_productions_by_lhs pg' (rn l)) = length (get_productions_by_lhs pg l).
  Proof.
    intro H. pose proof (proj2 HP l H) as E. rewrite <- !by_lhs_alternatives in E.
    apply (f_equal (@length _)) in E. rewrite !map_length in E. exact E.
  Qed.

  Lemma by_lhs_In l i : In i (get_productions_by_lhs pg l) <-> exists e, nth_error (pg_prods pg) i = Some (l, e).
  Proof. apply (proj1 (pg_new_unchecked_ok g)). Qed.

  Lemma match_by l : L l ->
    get_productions_by_lhs pg' (rn l) = map match_id (get_productions_by_lhs pg l) /\
    Forall seen (get_productions_by_lhs pg l).
  Proof.
    intro H. split.
    - transitivity (map (fun x => nth (rank x (get_productions_by_lhs pg l)) (get_productions_by_lhs pg' (rn l)) 0)
                        (get_productions_by_lhs pg l)).
      { symmetry. apply map_rank; [apply by_lhs_NoDup|apply by_lhs_length; assumption]. }
      apply map_ext_in. intros i Hi. apply by_lhs_In in Hi. destruct Hi as [e E].
      unfold match_id. rewrite E. reflexivity.
    - apply Forall_forall. intros i Hi. apply by_lhs_In in Hi. destruct Hi as [e E]. exists l, e. auto.
  Qed.

  Lemma match_prod i : seen i -> exists l e,
    nth_error (pg_prods pg) i = Some (l, e) /\
    nth_error (pg_prods pg') (match_id i) = Some (rn l, map rn e) /\ L l /\ Forall (okterm L) e.
  Proof.
    intros (l & e & E & HL). exists l, e. split; [exact E|].
    assert (Hi : In i (get_productions_by_lhs pg l)) by (apply by_lhs_In; eauto).
    assert (Hi' : In (match_id i) (get_productions_by_lhs pg' (rn l))).
    { rewrite (proj1 (match_by l HL)). apply in_map. exact Hi. }
    assert (Halt : map (rhs_of (pg_prods pg')) (map match_id (get_productions_by_lhs pg l)) =
                   map (fun i => map rn (rhs_of (pg_prods pg) i)) (get_productions_by_lhs pg l)).
    { rewrite <- (proj1 (match_by l HL)), by_lhs_alternatives, (proj2 HP l HL), <- by_lhs_alternatives, map_map. reflexivity. }
    rewrite map_map in Halt.
    assert (He : rhs_of (pg_prods pg') (match_id i) = map rn (rhs_of (pg_prods pg) i)).
    { revert Halt Hi. generalize (get_productions_by_lhs pg l) as ids. clear.
      induction ids as [|j ids IH]; intros E H; [destruct H|]. cbn [map] in E. injection E as E1 E2.
      destruct H as [->|H]; [exact E1|auto]. }
    apply (proj1 (pg_new_unchecked_ok g')) in Hi'. destruct Hi' as [e' E'].
    unfold rhs_of in He. rewrite E, E' in He. subst e'.
    split; [exact E'|]. split; [exact HL|]. apply Forall_forall. intros [s|n] Hin; cbn; [exact I|].
    eapply reachable_in; [exact HL| |exact Hin]. rewrite <- by_lhs_alternatives. apply in_map_iff.
    exists i. unfold rhs_of. rewrite E. auto.
  Qed.

  Lemma match_inj a b : seen a -> seen b -> match_id a = match_id b -> a = b.
  Proof.
    intros Ha Hb E. pose proof Ha as (la & ea & Ea & Hla). pose proof Hb as (lb & eb & Eb & Hlb).
    assert (la = lb).
    { destruct (match_prod a Ha) as (l & e & E1 & E2 & _). destruct (match_prod b Hb) as (l2 & e2 & F1 & F2 & _).
      rewrite Ea in E1. rewrite Eb in F1. injection E1 as <- <-. injection F1 as <- <-.
      rewrite E, F2 in E2. injection E2 as E2 _. apply rename_inj; auto. }
    subst lb. assert (Ia : In a (get_productions_by_lhs pg la)) by (apply by_lhs_In; eauto).
    assert (Ib : In b (get_productions_by_lhs pg la)) by (apply by_lhs_In; eauto).
    unfold match_id in E. rewrite Ea, Eb in E.
    rewrite <- (nth_rank _ _ Ia), <- (nth_rank _ _ Ib). f_equal.
    eapply (proj1 (NoDup_nth (get_productions_by_lhs pg' (rn la)) 0)); [apply by_lhs_NoDup| | |exact E];
      rewrite by_lhs_length by assumption; apply rank_lt; assumption.
  Qed.

  Lemma opens_corresponds input it it' :
    opens g start input it -> opens g' (rn start) input it' ->
    corresponds pg pg' h match_id L seen it it'.
  Proof.
    intros H H'. apply opens_inv in H, H'. destruct H as (st0 & _ & H). destruct H' as (st0' & _ & H').
    eapply corresponds_new; [exact match_inj|exact match_by|exact match_prod|constructor|exact H|exact H'].
  Qed.
End Matching.
