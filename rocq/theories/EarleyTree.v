(** Reading a parse tree back from the arena. *)
From Verif Require Export EarleyLoop.

Section Tree.
  Variable pg : parse_grammar.
  Variable input : str.
  Variable start : term.
  Notation TInv := (TInv pg input start).

  Definition lhs_of (pid : nat) : term :=
    match nth_error (pg_prods pg) pid with Some (l, _) => l | None => Terminal [] end.

  Fixpoint erase (t : dtree) : ptree :=
    match t with Node pid ks => Node (lhs_of pid) (map erase_node ks) end
  with erase_node (k : dnode) : pnode :=
    match k with Leaf s => Leaf s | Sub t => Sub (erase t) end.

  (** [path tr r id l]: the edges, as (child id, match), from root [r] down to [id]. *)
  Inductive path (tr : ttree) : nat -> nat -> list (nat * tmatch) -> Prop :=
  | path_root id t : nth_error (tt_arena tr) id = Some t -> t_from t = None -> path tr id id []
  | path_edge r par id m t l : nth_error (tt_arena tr) id = Some t -> t_from t = Some (m, par) ->
      par < id -> path tr r par l -> path tr r id (l ++ [(id, m)]).

  Lemma path_last tr r id l : path tr r id l -> id = last (map fst l) r.
  Proof. inversion 1; subst; [reflexivity|]. rewrite map_app. simpl. rewrite last_last. reflexivity. Qed.

  Lemma path_length tr r id l : path tr r id l -> r + length l <= id.
  Proof. induction 1; simpl; [lia|]. rewrite app_length. simpl. lia. Qed.

  Lemma snoc_split {A} (l : list A) a l1 x l2 : l ++ [a] = l1 ++ x :: l2 ->
    (l2 = [] /\ l = l1 /\ a = x) \/ exists l2', l2 = l2' ++ [a] /\ l = l1 ++ x :: l2'.
  Proof.
    intro H. destruct l2 as [|y l2] using rev_ind.
    - left. apply app_inj_tail in H. destruct H as [-> ->]. auto.
    - right. rewrite app_comm_cons, app_assoc in H. apply app_inj_tail in H. destruct H as [-> ->].
      exists l2. auto.
  Qed.

  Lemma path_lt tr r id l1 x m l2 : path tr r id (l1 ++ (x, m) :: l2) -> last (map fst l1) r < x <= id.
  Proof.
    remember (l1 ++ (x, m) :: l2) as l eqn:E. intro H. revert l1 l2 E.
    induction H as [id t Ht Hf|r par id m' t l Ht Hf Hlt Hp IH]; intros l1 l2 E.
    - destruct l1; discriminate.
    - apply snoc_split in E. destruct E as [(-> & -> & E)|(l2' & -> & ->)].
      + injection E as -> ->. rewrite <- (path_last _ _ _ _ Hp). lia.
      + specialize (IH l1 l2' eq_refl). lia.
  Qed.

  Lemma match_iter_root_ok tr r id l fuel : path tr r id l -> id < fuel ->
    match_iter_root fuel tr id = Ok r.
  Proof.
    intro H. revert fuel. induction H as [id t Ht Hf|r par id m' t l Ht Hf Hlt Hp IH]; intros [|fuel] Hfu; try lia;
      simpl; unfold tt_get; rewrite Ht; simpl; rewrite Hf; [reflexivity|]. apply IH; simpl; lia.
  Qed.

  Lemma match_iter_scan_ok tr r id l1 x m l2 fuel :
    path tr r id (l1 ++ (x, m) :: l2) -> id < fuel ->
    match_iter_scan fuel tr (last (map fst l1) r) id = Ok (Some (x, m)).
  Proof.
    remember (l1 ++ (x, m) :: l2) as l eqn:E. intro H. revert l1 l2 E fuel.
    induction H as [id t Ht Hf|r par id m' t l Ht Hf Hlt Hp IH]; intros l1 l2 E [|fuel] Hfu; try lia.
    - destruct l1; discriminate.
    - simpl. unfold tt_get. rewrite Ht. simpl. rewrite Hf. simpl.
      apply snoc_split in E. destruct E as [(-> & -> & E)|(l2' & -> & ->)].
      + injection E as -> ->. rewrite (path_last _ _ _ _ Hp), Nat.eqb_refl. reflexivity.
      + pose proof (path_lt _ _ _ _ _ _ _ Hp) as Hlt'.
        destruct (Nat.eqb_spec (last (map fst l1) r) par); [lia|]. eapply IH; [reflexivity|lia].
  Qed.

  Lemma match_iter_all_ok tr r id walk : id < walk -> forall l2 l1 fuel,
    path tr r id (l1 ++ l2) -> length l2 < fuel ->
    match_iter_all fuel walk tr (last (map fst l1) r) id = Ok (map snd l2).
  Proof.
    intros Hw. induction l2 as [|[x m] l2 IH]; intros l1 [|fuel] Hp Hf; try (simpl in Hf; lia); simpl.
    - unfold match_iter_next. rewrite app_nil_r in Hp. rewrite <- (path_last _ _ _ _ Hp), Nat.eqb_refl. reflexivity.
    - unfold match_iter_next. pose proof (path_lt _ _ _ _ _ _ _ Hp) as Hlt.
      destruct (Nat.eqb_spec (last (map fst l1) r) id); [lia|].
      rewrite (match_iter_scan_ok _ _ _ _ _ _ _ _ Hp Hw). simpl.
      replace x with (last (map fst (l1 ++ [(x, m)])) r)
        by (rewrite map_app; simpl; apply last_last).
      rewrite IH; [reflexivity| |simpl in Hf; lia]. rewrite <- app_assoc. exact Hp.
  Qed.

  Lemma Forall2_impl' {A B} (P Q : A -> B -> Prop) l l' :
    (forall a b, P a b -> Q a b) -> Forall2 P l l' -> Forall2 Q l l'.
  Proof. intros H. induction 1; constructor; auto. Qed.

  Definition kid_of (gh : list item) (id : nat) (m : tmatch) (k : dnode) : Prop :=
    match m with
    | MTerminal s => k = Leaf s
    | MNonterminal c => c < id /\ exists cit, nth_error gh c = Some cit /\ k = Sub (i_tree cit)
    end.

  Lemma kid_of_mono gh id id' m k : id <= id' -> kid_of gh id m k -> kid_of gh id' m k.
  Proof. destruct m; simpl; [auto|]. intros Hle [H1 H2]. split; [lia|assumption]. Qed.

  Lemma path_exists tr gh : TInv tr gh -> forall id it, nth_error gh id = Some it ->
    exists r l, path tr r id l /\ Forall2 (kid_of gh id) (map snd l) (i_kids it).
  Proof.
    intro HI. intro id. induction id as [id IH] using (well_founded_induction lt_wf). intros it Hit.
    destruct (TInv_arena _ _ _ _ _ _ _ HI Hit) as (t & Et & Rt).
    pose proof (tr_from _ _ _ _ _ _ _ Rt) as Hf. unfold from_ok in Hf.
    destruct (t_from t) as [[m par]|] eqn:Ef.
    - destruct Hf as [Hlt (pit & k & H1 & -> & H3)].
      destruct (IH par Hlt pit H1) as (r & l & Hp & HF).
      exists r, (l ++ [(id, m)]). split; [econstructor; eassumption|].
      rewrite map_app. simpl. apply Forall2_app.
      + eapply Forall2_impl'; [|exact HF]. intros. eapply kid_of_mono; [|eassumption]. lia.
      + constructor; [|constructor]. destruct m as [s|c]; simpl; [assumption|].
        destruct H3 as [Hc (cit & G1 & G2 & _)]. split; [assumption|]. eauto.
    - exists id, []. split; [econstructor; eassumption|]. rewrite Hf. constructor.
  Qed.

  Lemma get_matched_ok tr gh id it : TInv tr gh -> nth_error gh id = Some it ->
    exists ms, get_matched tr id = Ok ms /\ Forall2 (kid_of gh id) ms (i_kids it).
  Proof.
    intros HI Hit. destruct (path_exists tr gh HI id it Hit) as (r & l & Hp & HF).
    exists (map snd l). split; [|assumption]. unfold get_matched.
    pose proof (ti_len _ _ _ _ _ HI) as Hlen. apply nth_error_lt in Hit.
    rewrite (match_iter_root_ok _ _ _ _ _ Hp) by lia. rewrite rbind_Ok.
    apply (match_iter_all_ok tr r id) with (l1 := []); [lia|assumption|].
    apply path_length in Hp. lia.
  Qed.

  Lemma parse_tree_ok tr gh : TInv tr gh -> forall fuel id it, id < fuel ->
    nth_error gh id = Some it -> parse_tree fuel tr pg id = Ok (erase (i_tree it)).
  Proof.
    intro HI. induction fuel as [|fuel IH]; intros id it Hlt Hit; [lia|]. cbn [parse_tree].
    destruct (TInv_arena _ _ _ _ _ _ _ HI Hit) as (t & Et & Rt).
    unfold tt_get. rewrite Et. cbn [expect]. rewrite rbind_Ok.
    destruct (tr_view _ _ _ _ _ _ _ Rt) as (lhs & (pre & Hv & _) & _).
    unfold get_production_by_id. rewrite (tr_pid _ _ _ _ _ _ _ Rt), Hv. cbn [expect]. rewrite rbind_Ok.
    destruct (get_matched_ok _ _ _ _ HI Hit) as (ms & -> & HF). rewrite rbind_Ok.
    match goal with |- rbind (res_map ?f ms) _ = _ =>
      assert (Hm : res_map f ms = Ok (map erase_node (i_kids it))) end.
    { clear Hv Hit Rt Et. induction HF as [|m k ms ks Hmk HF IHF]; simpl; [reflexivity|].
      destruct m as [s|c]; simpl in Hmk.
      - subst k. rewrite rbind_Ok, IHF. reflexivity.
      - destruct Hmk as [Hc (cit & Hcit & ->)]. rewrite (IH c cit) by (assumption || lia).
        rewrite !rbind_Ok, IHF. reflexivity. }
    rewrite Hm, rbind_Ok. cbn [fst]. unfold i_tree. simpl. unfold lhs_of. rewrite Hv. reflexivity.
  Qed.
End Tree.
