(** Termination of the enumeration on non-cyclic grammars, and a divergence witness. *)
From Verif Require Export EarleyMain.
From Coq Require Import Relation_Operators.

Section Term.
  Variable g : grammar.
  Let pg := pg_new_unchecked g.
  Let Heq : pg_prods pg = flat_prods g := proj2 (pg_new_unchecked_ok g).
  Notation prods := (pg_prods pg).
  Notation dvalid := (dvalid pg).
  Notation dkids := (dkids pg).

  Lemma dkids_kids_match e ks : dkids e ks -> kids_match g e (map (erase_node pg) ks).
  Proof.
    induction 1 as [|s r ks Hk IHk|n pid' rhs' kids' r ks Hpid' Hv Hk IHk].
    - constructor.
    - cbn. constructor. assumption.
    - cbn [map]. change (erase_node pg (Sub (Node pid' kids'))) with (Sub (erase pg (Node pid' kids'))).
      constructor; [|exact (erase_derives g pg Heq _ Hv)|assumption].
      rewrite erase_Node. cbn. unfold lhs_of. rewrite Hpid'. reflexivity.
  Qed.

  Lemma yields_erase ks : yields (map (erase_node pg) ks) = yields ks.
  Proof.
    induction ks as [|k ks IH]; [reflexivity|]. unfold yields in *. cbn [map flat_map]. rewrite IH. f_equal.
    destruct k as [s|t]; [reflexivity|]. change (yield (erase pg t) = yield t). apply yield_erase.
  Qed.

  Lemma dkids_nullable e ks : dkids e ks -> yields ks = [] -> nullable g e.
  Proof.
    intros Hk Hy. destruct (kids_match_rewrites g _ _ (dkids_kids_match _ _ Hk)) as (ss & H1 & H2).
    { intros t _ Hd n Hn. apply derives_rewrites; assumption. }
    exists ss. split; [assumption|]. rewrite H2, yields_erase. assumption.
  Qed.

  Lemma dkids_split e k1 : forall k2, dkids e (k1 ++ k2) ->
    exists e1 e2, e = e1 ++ e2 /\ dkids e1 k1 /\ dkids e2 k2.
  Proof.
    revert e; induction k1 as [|k k1 IH]; simpl; intros e k2 H.
    - exists [], e. repeat split; [constructor|assumption].
    - inversion H; subst.
      + destruct (IH _ _ H2) as (e1 & e2 & -> & H1 & H3). exists (Terminal s :: e1), e2.
        repeat split; [constructor|]; assumption.
      + destruct (IH _ _ H5) as (e1 & e2 & -> & H1 & H6). exists (Nonterminal n :: e1), e2.
        repeat split; [econstructor; eassumption|assumption].
  Qed.

  (** Trees of bounded height. *)
  Fixpoint hle (h : nat) (t : dtree) : Prop :=
    match h with
    | 0 => False
    | S h => match t with Node _ ks => forall c, In (Sub c) ks -> hle h c end
    end.

  Fixpoint enum_kids (f : list dtree) (e : expression) : list (list dnode) :=
    match e with
    | [] => [[]]
    | Terminal s :: r => map (cons (Leaf s)) (enum_kids f r)
    | Nonterminal _ :: r => flat_map (fun t => map (cons (Sub t)) (enum_kids f r)) f
    end.

  Definition rhs_of (pid : nat) : expression :=
    match nth_error prods pid with Some (_, e) => e | None => [] end.

  Fixpoint enum (h : nat) : list dtree :=
    match h with
    | 0 => []
    | S h => flat_map (fun pid => map (Node pid) (enum_kids (enum h) (rhs_of pid)))
               (seq 0 (length prods))
    end.

  Lemma enum_kids_In f e ks : dkids e ks -> (forall c, In (Sub c) ks -> In c f) -> In ks (enum_kids f e).
  Proof.
    induction 1 as [|s r ks Hk IHk|n pid' rhs' kids' r ks Hpid' Hv Hk IHk]; cbn; intro Hc.
    - left; reflexivity.
    - apply in_map. apply IHk. intros; apply Hc; right; assumption.
    - apply in_flat_map. exists (Node pid' kids'). split; [apply Hc; left; reflexivity|].
      apply in_map. apply IHk. intros; apply Hc; right; assumption.
  Qed.

  Lemma enum_In h : forall t, dvalid t -> hle h t -> In t (enum h).
  Proof.
    induction h as [|h IH]; intros [pid kids] Hv Hh; [destruct Hh|].
    inversion Hv as [? l rhs ? Hpid Hk]; subst. cbn [enum]. apply in_flat_map. exists pid.
    split; [apply in_seq; apply nth_error_lt in Hpid; lia|]. apply in_map.
    unfold rhs_of. rewrite Hpid.
    apply enum_kids_In; [assumption|]. intros c Hc. apply IH; [|apply Hh; assumption].
    eapply dkids_Sub; eassumption.
  Qed.

  Lemma dkids_generates e ks : dkids e ks -> seq_generates g e (yields ks).
  Proof.
    intro Hk. destruct (kids_match_rewrites g _ _ (dkids_kids_match _ _ Hk)) as (ss & H1 & H2).
    { intros t _ Hd n Hn. apply derives_rewrites; assumption. }
    exists ss. split; [assumption|]. rewrite H2, yields_erase. reflexivity.
  Qed.

  Lemma dvalid_generates t n : dvalid t -> lhs_of pg (root t) = Nonterminal n -> generates g n (yield t).
  Proof.
    intros Hv Hn. apply generates_parses. exists (erase pg t). split; [exact (erase_derives g pg Heq _ Hv)|].
    split; [|apply yield_erase]. destruct t. exact Hn.
  Qed.

  Variable input : str.
  Variable start : term.
  Notation Inv := (Inv pg input start).

  (** Whatever the parser expands is predicted in the sense of the specification. *)
  Lemma ireach_predicted it : ireach pg input start it ->
    exists l un u w, iview pg it l un /\ predicted g start l u /\ byte_len u = i_start it /\ input = u ++ yields (i_kids it) ++ w.
  Proof.
    induction 1 as [pid rhs Hp|it l n rest pid rhs Hr IH Hv Hp|it l t rest k Hr IH Hv Hk Hat].
    - exists start, rhs, [], input. split; [exists []; split; [exact Hp|constructor]|].
      split; [constructor|]. split; reflexivity.
    - destruct IH as (l' & un & u & w & Hv' & Hpr & Hu & Hin).
      destruct (iview_fun _ _ _ _ _ _ Hv Hv') as [<- <-]. destruct Hv as (pre & Hpp & Hk).
      destruct (nth_prods g pg Heq _ _ _ Hpp) as (p & H1 & H2 & H3).
      exists (Nonterminal n), rhs, (u ++ yields (i_kids it)), w.
      split; [exists []; split; [exact Hp|constructor]|].
      split; [eapply predicted_in; [exact Hpr|exact H1|exact H2|exact H3|apply dkids_generates; exact Hk]|].
      split; [rewrite byte_len_app; unfold i_end; cbn [i_start]; lia|]. cbn [i_kids yields flat_map app].
      rewrite <- app_assoc. exact Hin.
    - destruct IH as (l' & un & u & w & Hv' & Hpr & Hu & Hin).
      destruct (iview_fun _ _ _ _ _ _ Hv Hv') as [<- <-]. destruct Hv as (pre & Hpp & Hk').
      destruct Hat as (a & b & E & Ha).
      assert (Hab : (u ++ yields (i_kids it)) = a /\ w = yield_node k ++ b).
      { apply app_byte_len_inj; [rewrite <- app_assoc, <- Hin; exact E|].
        rewrite byte_len_app, Hu, Ha. reflexivity. }
      destruct Hab as [<- ->]. exists l, rest, u, b. split.
      { exists (pre ++ [t]). split; [rewrite <- app_assoc; exact Hpp|]. cbn [i_snoc i_kids]. apply dkids_app; assumption. }
      split; [exact Hpr|]. split; [exact Hu|]. cbn [i_snoc i_kids]. rewrite yields_snoc, <- !app_assoc.
      rewrite <- app_assoc in E. exact E.
  Qed.

  Hypothesis Hnl : ~ live_cycle g start input.

  Let K := length prods.

  Lemma height_bound h : forall t n V u, dvalid t -> lhs_of pg (root t) = Nonterminal n ->
    predicted g start (Nonterminal n) u -> (exists w, input = u ++ yield t ++ w) ->
    NoDup V -> (forall v, In v V -> clos_trans str (unit_step g) v n /\ In (Nonterminal v) (map fst prods)) ->
    byte_len (yield t) * (K + 1) + (K + 1 - length V) <= h -> hle h t.
  Proof.
    induction h as [|h IH]; intros [pid ks] n V u Hv Hn Hpred Hin HV HinV Hh.
    all: assert (HK : length V <= K).
    1,3: apply Nat.le_trans with (length (map fst prods)); [|rewrite map_length; apply Nat.le_refl];
         rewrite <- (map_length Nonterminal V); apply NoDup_incl_length;
         [apply FinFun.Injective_map_NoDup; [intros a b E; congruence|assumption]
         |intros x Hx; apply in_map_iff in Hx; destruct Hx as (v & <- & Hv'); apply HinV; assumption].
    - exfalso. lia.
    - inversion Hv as [? l rhs ? Hpid Hk]; subst. simpl in Hn. unfold lhs_of in Hn. rewrite Hpid in Hn.
      cbn in Hn. subst l. cbn [hle]. intros c Hc.
      pose proof (dkids_Sub _ _ _ _ Hk Hc) as Hvc.
      apply in_split in Hc. destruct Hc as (k1 & k2 & ->).
      apply dkids_split in Hk. destruct Hk as (e1 & e2 & -> & Hk1 & Hk2).
      inversion Hk2 as [| |m cpid crhs ckids r ks' Hcp _ Hk3 E1 E2]; subst.
      assert (Hy : yield (Node pid (k1 ++ Sub (Node cpid ckids) :: k2)) =
                   yields k1 ++ yield (Node cpid ckids) ++ yields k2).
      { cbn [yield]. rewrite flat_map_app. reflexivity. }
      assert (Hgen : generates g n (yield (Node pid (k1 ++ Sub (Node cpid ckids) :: k2)))).
      { apply dvalid_generates; [exact Hv|]. simpl. unfold lhs_of. rewrite Hpid. reflexivity. }
      destruct Hin as [w Hin]. pose proof Hin as Hin0. rewrite Hy, <- !app_assoc in Hin. rewrite Hy, !byte_len_app in Hh.
      destruct (nth_prods g pg Heq _ _ _ Hpid) as (p & Hp & Hl & Hr).
      assert (Hpredm : predicted g start (Nonterminal m) (u ++ yields k1)).
      { eapply predicted_in; [exact Hpred|exact Hp|exact Hl|exact Hr|]. apply dkids_generates; exact Hk1. }
      rewrite app_assoc in Hin. apply (ex_intro (fun w => input = (u ++ yields k1) ++ yield (Node cpid ckids) ++ w)) in Hin.
      destruct (Nat.eq_dec (byte_len (yields k1) + byte_len (yields k2)) 0) as [E0|Ene].
      + assert (E1 : yields k1 = []) by (apply byte_len_0; lia).
        assert (E2 : yields k2 = []) by (apply byte_len_0; lia).
        assert (Hstep : unit_step g n m).
        { exists p, e1, r. repeat (split; [assumption|]).
          split; [exact (dkids_nullable _ _ Hk1 E1)|exact (dkids_nullable _ _ Hk3 E2)]. }
        apply (IH _ m (n :: V) (u ++ yields k1)); try assumption.
        * simpl. unfold lhs_of. rewrite Hcp. reflexivity.
        * constructor; [|assumption]. intro Hinn. apply Hnl.
          exists n, u, (yield (Node pid (k1 ++ Sub (Node cpid ckids) :: k2))), w.
          split; [exact Hin0|]. split; [exact Hpred|]. split; [exact Hgen|]. apply HinV. assumption.
        * intros v [<-|Hinv].
          -- split; [apply t_step; assumption|]. apply nth_error_In in Hpid. apply (in_map fst) in Hpid. exact Hpid.
          -- destruct (HinV v Hinv) as [H1 H2]. split; [|assumption]. eapply t_trans; [exact H1|apply t_step; assumption].
        * rewrite E1, E2 in Hh. cbn [byte_len length] in *. lia.
      + apply (IH _ m [] (u ++ yields k1)); try assumption.
        * simpl. unfold lhs_of. rewrite Hcp. reflexivity.
        * constructor.
        * intros v [].
        * simpl length. nia.
  Qed.

  Let Hmax := byte_len input * (K + 1) + (K + 1).

  (** All items that can ever occur. *)
  Definition all_items : list item :=
    flat_map (fun pid => flat_map (fun s => flat_map (fun n =>
        map (mkItem pid s) (enum_kids (enum Hmax) (firstn n (rhs_of pid))))
      (seq 0 (S (length (rhs_of pid)))))
      (seq 0 (S (byte_len input)))) (seq 0 (length prods)).

  Lemma all_items_In st gh d it : Inv st gh d -> In it gh -> In it all_items.
  Proof.
    intros HI Hin. pose proof (inv_t _ _ _ _ _ _ HI) as HT.
    destruct (ireach_predicted _ (ti_reach _ _ _ _ _ HT _ Hin)) as (l0 & un0 & u & w & Hv0 & Hpred & Hu & Hinp).
    apply (ex_intro (fun w => input = u ++ yields (i_kids it) ++ w)) in Hinp. clear w.
    apply In_nth_error in Hin. destruct Hin as [i Hi].
    destruct (TInv_arena _ _ _ _ _ _ _ HT Hi) as (t & _ & R).
    destruct Hv0 as (pre & Hp & Hk). pose proof (tr_pos _ _ _ _ _ _ _ R) as Hpos.
    pose proof (at_pos_bound _ _ _ Hpos) as Hb. destruct it as [pid s ks]. cbn [i_pid i_kids i_start] in *.
    apply in_flat_map. exists pid. split; [apply in_seq; apply nth_error_lt in Hp; lia|].
    apply in_flat_map. exists s. split; [apply in_seq; lia|].
    unfold rhs_of. rewrite Hp.
    apply in_flat_map. exists (length pre). split; [apply in_seq; rewrite app_length; lia|].
    apply in_map. rewrite firstn_app, Nat.sub_diag, firstn_all, firstn_O, app_nil_r.
    apply enum_kids_In; [assumption|]. intros c Hc. pose proof (dkids_Sub _ _ _ _ Hk Hc) as Hvc.
    apply enum_In; [assumption|]. apply in_split in Hc. destruct Hc as (k1 & k2 & ->).
    apply dkids_split in Hk. destruct Hk as (e1 & e2 & -> & Hk1 & Hk2).
    inversion Hk2 as [| |m cpid crhs ckids r ks' Hcp _ Hk3 E1 E2]; subst.
    apply (height_bound _ _ m [] (u ++ yields k1)); [assumption| | | |constructor|intros v []|].
    - simpl. unfold lhs_of. rewrite Hcp. reflexivity.
    - destruct (nth_prods g pg Heq _ _ _ Hp) as (p & H1 & H2 & H3). rewrite <- app_assoc in H3.
      eapply predicted_in; [exact Hpred|exact H1|exact H2|exact H3|apply dkids_generates; exact Hk1].
    - destruct Hinp as [w Hinp]. exists (yields k2 ++ w). rewrite Hinp at 1. rewrite yields_app. unfold yields at 2. cbn [flat_map yield_node].
      rewrite <- !app_assoc. reflexivity.
    - unfold Hmax. simpl length. rewrite yields_app in Hb. unfold yields in Hb at 2. cbn [flat_map yield_node] in Hb.
      rewrite !byte_len_app in Hb. nia.
  Qed.

  Lemma Inv_bound st gh d : Inv st gh d -> d <= length all_items.
  Proof.
    intro HI. transitivity (length gh); [eapply Inv_le; eassumption|].
    apply NoDup_incl_length; [exact (ti_nodup _ _ _ _ _ (inv_t _ _ _ _ _ _ HI))|].
    intros x Hx. eapply all_items_In; eassumption.
  Qed.

  Variable st0 : term.
  Let p := mkGP st0 pg.
  Let Hok : pg_ok pg := proj1 (pg_new_unchecked_ok g).

  Lemma next_returns st gh d : Inv st gh d ->
    exists o st' gh' d', iter_next (S (length all_items)) (mkI p st) = Ok (o, mkI p st') /\
      Inv st' gh' d' /\ (o <> None -> d < d').
  Proof.
    intro HI.
    destruct (iter_next_spec pg Hok input start p eq_refl (S (length all_items)) st gh d HI)
      as [(E & st' & new & HI' & _)|[(st' & new & E & _ & HI' & _)|(st' & new & id & x & E & HI' & Hd & _)]].
    - apply Inv_bound in HI'. lia.
    - exists None, st', (gh ++ new), (length (gh ++ new)). split; [exact E|]. split; [exact HI'|]. congruence.
    - eexists _, st', (gh ++ new), (S id). split; [exact E|]. split; [exact HI'|]. intros _. lia.
  Qed.

  Lemma run_ends k : forall st gh d, Inv st gh d -> length all_items - d <= k ->
    exists ts it', produces (mkI p st) ts it' /\ exhausted it'.
  Proof.
    induction k as [|k IH]; intros st gh d HI Hk;
      destruct (next_returns _ _ _ HI) as ([t|] & st' & gh' & d' & E & HI' & Hd).
    - apply Inv_bound in HI'. assert (d < d') by (apply Hd; discriminate). lia.
    - exists [], (mkI p st). split; [constructor|]. eexists _, _. exact E.
    - destruct (IH st' gh' d' HI') as (ts & it' & Hp & He).
      { apply Inv_bound in HI'. assert (d < d') by (apply Hd; discriminate). lia. }
      exists (t :: ts), it'. split; [econstructor; eassumption|assumption].
    - exists [], (mkI p st). split; [constructor|]. eexists _, _. exact E.
  Qed.
End Term.

Lemma live_cycle_cyclic g start input : live_cycle g start input -> cyclic g.
Proof. intros (a & _ & _ & _ & _ & _ & _ & H). exists a. exact H. Qed.

Lemma enumeration_ends_live g start input it :
  ~ live_cycle g start input -> opens g start input it -> exists ts it', produces it ts it' /\ exhausted it'.
Proof.
  intros Hnc Ho. destruct (opens_Inv _ _ _ _ Ho) as (st0 & Hp & gh & HI). destruct it as [p st].
  simpl in *. subst p. eapply run_ends; eauto.
Qed.

Lemma every_next_returns_live g start input it ts it1 :
  ~ live_cycle g start input -> opens g start input it -> produces it ts it1 ->
  exists fuel r, iter_next fuel it1 = Ok r.
Proof.
  intros Hnc Ho Hp. destruct (run_summary _ _ _ _ _ _ Ho Hp) as (st0 & gh & d & ids & Hpar & HI & _).
  destruct it1 as [p st]; simpl in *. subst p.
  destruct (next_returns g input start Hnc st0 _ _ _ HI) as (o & st' & gh' & d' & E & _). eauto.
Qed.

Lemma enumeration_ends g start input it :
  ~ cyclic g -> opens g start input it -> exists ts it', produces it ts it' /\ exhausted it'.
Proof.
  intro Hnc. apply enumeration_ends_live. intro H. apply Hnc. exact (live_cycle_cyclic _ _ _ H).
Qed.

Lemma every_next_returns g start input it ts it1 :
  ~ cyclic g -> opens g start input it -> produces it ts it1 ->
  exists fuel r, iter_next fuel it1 = Ok r.
Proof.
  intro Hnc. apply every_next_returns_live. intro H. apply Hnc. exact (live_cycle_cyclic _ _ _ H).
Qed.

(** ** A cyclic grammar on which a single [next] runs for ever *)
From Coq Require String.
Import String.StringSyntax.

Definition loop_grammar : grammar :=
  [mkProd (Nonterminal (lit "s")) [[Nonterminal (lit "a"); Terminal (lit "y")]];
   mkProd (Nonterminal (lit "a")) [[Nonterminal (lit "a")]; [Terminal (lit "z")]]].

Fixpoint loop_chain (k : nat) : dtree :=
  match k with
  | 0 => Node 2 [Leaf (lit "z")]
  | S k => Node 1 [Sub (loop_chain k)]
  end.
Definition loop_item (k : nat) : item :=
  match k with
  | 0 => mkItem 2 0 [Leaf (lit "z")]
  | S k => mkItem 1 0 [Sub (loop_chain k)]
  end.

Lemma loop_chain_inj a : forall b, loop_chain a = loop_chain b -> a = b.
Proof.
  induction a as [|a IH]; intros [|b] E; cbn in E; try discriminate; [reflexivity|].
  injection E as E. f_equal. apply IH; assumption.
Qed.
Lemma loop_item_tree k : i_tree (loop_item k) = loop_chain k.
Proof. destruct k; reflexivity. Qed.
Lemma loop_item_inj a b : loop_item a = loop_item b -> a = b.
Proof. intro E. apply loop_chain_inj. rewrite <- !loop_item_tree, E. reflexivity. Qed.

Lemma loop_dvalid k : dvalid (pg_new_unchecked loop_grammar) (loop_chain k) /\
  exists pid kids rhs, loop_chain k = Node pid kids /\
    nth_error (pg_prods (pg_new_unchecked loop_grammar)) pid = Some (Nonterminal (lit "a"), rhs) /\
    dkids (pg_new_unchecked loop_grammar) rhs kids.
Proof.
  induction k as [|k [IH (pid & kids & rhs & E & Hp & Hk)]]; cbn [loop_chain].
  - assert (Hk : dkids (pg_new_unchecked loop_grammar) [Terminal (lit "z")] [Leaf (lit "z")])
      by (constructor; constructor).
    split; [econstructor; [reflexivity|exact Hk]|]. exists 2, [Leaf (lit "z")], [Terminal (lit "z")].
    split; [reflexivity|]. split; [reflexivity|exact Hk].
  - assert (Hk' : dkids (pg_new_unchecked loop_grammar) [Nonterminal (lit "a")] [Sub (loop_chain k)]).
    { rewrite E in *. econstructor; [exact Hp|exact IH|constructor]. }
    split; [econstructor; [reflexivity|exact Hk']|]. exists 1, [Sub (loop_chain k)], [Nonterminal (lit "a")].
    split; [reflexivity|]. split; [reflexivity|exact Hk'].
Qed.

Lemma loop_item_complete k : iview (pg_new_unchecked loop_grammar) (loop_item k) (Nonterminal (lit "a")) [].
Proof.
  destruct (loop_dvalid k) as [_ (pid & kids & rhs & E & Hp & Hk)].
  exists rhs. rewrite app_nil_r. rewrite <- loop_item_tree in E. destruct (loop_item k) as [pid' s' ks'].
  unfold i_tree in E. cbn in E. injection E as -> ->. split; assumption.
Qed.

Lemma loop_diverges it :
  opens loop_grammar (Nonterminal (lit "s")) (lit "z") it -> diverges it.
Proof.
  intros Ho fuel. destruct (opens_Inv _ _ _ _ Ho) as (st0 & Hp & gh & HI).
  destruct (pg_new_unchecked_ok loop_grammar) as [Hok _]. pose proof Ho as Ho'.
  destruct it as [p st]. cbn [it_parser it_state] in *. subst p.
  destruct (iter_next_spec _ Hok (lit "z") (Nonterminal (lit "s")) (mkGP st0 (pg_new_unchecked loop_grammar)) eq_refl fuel st gh 0 HI)
    as [(E & _)|[(st' & new & E & _ & HI' & _)|(st' & new & id & x & E & _)]]; [exact E|exfalso..].
  - set (gh' := gh ++ new) in *.
    assert (Hnth : forall x, In x gh' -> exists i, i < List.length gh' /\ nth_error gh' i = Some x).
    { intros x Hx. apply In_nth_error in Hx. destruct Hx as [i Hi]. exists i.
      split; [eapply nth_error_lt; exact Hi|exact Hi]. }
    assert (H0 : In (mkItem 0 0 []) gh') by (eapply (inv_start _ _ _ _ _ _ HI'); reflexivity).
    destruct (Hnth _ H0) as (i0 & Hi0 & Hn0).
    assert (Hv0 : iview (pg_new_unchecked loop_grammar) (mkItem 0 0 []) (Nonterminal (lit "s"))
                    (Nonterminal (lit "a") :: [Terminal (lit "y")])).
    { exists []. split; [reflexivity|constructor]. }
    assert (H1 : In (mkItem 1 0 []) gh').
    { apply (inv_pred _ _ _ _ _ _ HI' i0 _ _ _ _ 1 [Nonterminal (lit "a")] Hi0 Hn0 Hv0). reflexivity. }
    assert (H2 : In (mkItem 2 0 []) gh').
    { apply (inv_pred _ _ _ _ _ _ HI' i0 _ _ _ _ 2 [Terminal (lit "z")] Hi0 Hn0 Hv0). reflexivity. }
    assert (Hall : forall k, In (loop_item k) gh').
    { induction k as [|k IHk].
      - destruct (Hnth _ H2) as (i2 & Hi2 & Hn2).
        apply (inv_scan _ _ _ _ _ _ HI' i2 (mkItem 2 0 []) (Nonterminal (lit "a")) (lit "z") [] Hi2 Hn2).
        + exists []. split; [reflexivity|constructor].
        + exists [], []. split; reflexivity.
      - destruct (Hnth _ H1) as (i1 & Hi1 & Hn1). destruct (Hnth _ IHk) as (c & Hc & Hnc).
        change (loop_item (S k)) with (i_snoc (mkItem 1 0 []) (Sub (loop_chain k))).
        rewrite <- loop_item_tree.
        apply (inv_compl _ _ _ _ _ _ HI' i1 (mkItem 1 0 []) (Nonterminal (lit "a")) (lit "a") [] c (loop_item k)
                 Hi1 Hc Hn1).
        + exists []. split; [reflexivity|constructor].
        + exact Hnc.
        + apply loop_item_complete.
        + destruct k; reflexivity. }
    assert (Hlen : List.length (map loop_item (seq 0 (S (List.length gh')))) <= List.length gh').
    { apply NoDup_incl_length.
      - apply FinFun.Injective_map_NoDup; [intros a b; apply loop_item_inj|apply seq_NoDup].
      - intros y Hy. apply in_map_iff in Hy. destruct Hy as (k & <- & _). apply Hall. }
    rewrite map_length, seq_length in Hlen. lia.
  - assert (Hs : parses loop_grammar (Nonterminal (lit "s")) (lit "z") (erase (pg_new_unchecked loop_grammar) (i_tree x))).
    { apply (soundness _ _ _ _ [erase (pg_new_unchecked loop_grammar) (i_tree x)] _ _ Ho'
               (produces_next _ _ _ _ _ _ E (produces_nil _))). left; reflexivity. }
    revert Hs. generalize (erase (pg_new_unchecked loop_grammar) (i_tree x)). clear. intros tree0 (Hd & Hr & Hy). inversion Hd as [q rhs kids Hq Hin Hk E1].
    rewrite <- E1 in Hr, Hy. cbn [root] in Hr. destruct Hq as [<-|[<-|[]]]; [|discriminate].
    cbn [p_rhs] in Hin. destruct Hin as [<-|[]]. inversion Hk as [| |n t r ks Hroot Ht Hk2 Ea Eb]; subst.
    inversion Hk2 as [|s r' ks' Hk3 Ea Eb|]; subst. inversion Hk3; subst.
    cbn [yield flat_map yield_node] in Hy. rewrite app_nil_r in Hy.
    apply (f_equal (@rev _)) in Hy. rewrite rev_app_distr in Hy. discriminate.
Qed.
