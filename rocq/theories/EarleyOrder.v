(** The exhausted enumeration, as a list of trees labelled with production ids; invariance
    under reordering of the grammar (with multiplicities). *)
From Verif Require Export EarleyMain.
From Coq Require Import Permutation FinFun.

Lemma exhausted_items g start input it ts it' :
  opens g start input it -> produces it ts it' -> exhausted it' ->
  let pg := pg_new_unchecked g in
  exists F : list dtree, NoDup F /\
    (forall dt, In dt F <-> dvalid pg dt /\ lhs_of pg (root dt) = start /\ yield dt = input) /\
    ts = map (erase pg) F.
Proof.
  intros Ho Hp (f & it2 & He) pg.
  destruct (run_summary _ _ _ _ _ _ Ho Hp) as (st0 & gh & d & ids & Hpar & HI & Hnd & HF & Hall).
  fold pg in Hpar, HI, HF, Hall.
  destruct (pg_new_unchecked_ok g) as [Hok Heq]. fold pg in Hok, Heq.
  destruct it' as [p st]; cbn [it_parser it_state] in *. subst p.
  destruct (iter_next_spec pg Hok input start (mkGP st0 pg) eq_refl f st gh d HI)
    as [(E & _)|[(st' & new & E & Hq & HI' & Hno)|(st' & new & id & x & E & _)]]; rewrite E in He; try discriminate.
  clear He E.
  assert (Hitems : forall i, In i ids -> exists x, nth_error gh i = Some x /\ full pg input start x).
  { clear - HF. induction HF as [|i t ids ts (x & Hx & Hf & ->) HF IH]; [intros i []|].
    intros j [<-|Hj]; eauto. }
  set (tree_at := fun i => match nth_error gh i with Some x => i_tree x | None => Node 0 [] end).
  exists (map tree_at ids). split; [|split].
  - pose proof (ti_nodup _ _ _ _ _ (inv_t _ _ _ _ _ _ HI)) as Hgh. clear - Hnd Hitems Hgh.
    induction Hnd as [|i ids Hni Hnd IH]; cbn; [constructor|]. constructor.
    + intro Hin. apply in_map_iff in Hin. destruct Hin as (j & E & Hj).
      destruct (Hitems i) as (x & Hx & _ & Hs & _); [left; reflexivity|].
      destruct (Hitems j) as (y & Hy & _ & Hs' & _); [right; assumption|].
      unfold tree_at in E. rewrite Hx, Hy in E. destruct x as [px sx kx], y as [py sy ky].
      unfold i_tree in E. cbn in *. injection E as -> ->. subst sx sy.
      assert (j = i) by (eapply nth_error_NoDup; eassumption). subst. contradiction.
    + apply IH. intros j Hj. apply Hitems. right; assumption.
  - intro dt. split.
    + intro Hin. apply in_map_iff in Hin. destruct Hin as (i & <- & Hi).
      destruct (Hitems i Hi) as (x & Hx & Hf). unfold tree_at. rewrite Hx. apply full_dvalid in Hf. exact Hf.
    + intros (Hv & Hl & Hy). destruct dt as [pid kids]. inversion Hv as [? l rhs ? Hpid Hk]; subst pid0 kids0.
      cbn [root] in Hl. unfold lhs_of in Hl. rewrite Hpid in Hl. cbn in Hl. subst l.
      destruct (reach_tree pg Hok input start (Node pid kids) Hv st' (gh ++ new) _ 0 HI')
        as (st1 & gh1 & d1 & Ha1 & HI1 & Hin1).
      { cbn. eapply (inv_start _ _ _ _ _ _ HI'). exact Hpid. }
      { rewrite Hy. exists [], []. rewrite app_nil_r. auto. }
      cbn in Hin1.
      assert (Hg : gh1 = gh ++ new).
      { inversion Ha1 as [? ? ? E1 E2 E3|? ? ? rest ? ? ? ? ? ? ? Hq']; [reflexivity|].
        rewrite Hq in Hq'. discriminate. }
      rewrite Hg in Hin1.
      apply In_nth_error in Hin1. destruct Hin1 as [i Hi].
      assert (Hfull : full pg input start (mkItem pid 0 kids)).
      { split; [exists rhs; rewrite app_nil_r; auto|]. split; [reflexivity|]. exact Hy. }
      assert (Hid : i < d).
      { destruct (le_lt_dec d i); [exfalso|assumption]. eapply Hno; [|exact Hi|exact Hfull].
        apply nth_error_lt in Hi. lia. }
      assert (Hi' : nth_error gh i = Some (mkItem pid 0 kids)).
      { eapply nth_error_ext_lt; [|exact Hi]. pose proof (Inv_le pg input start _ _ _ HI). lia. }
      apply in_map_iff. exists i. split; [unfold tree_at; rewrite Hi'; reflexivity|]. eapply Hall; eassumption.
  - clear - HF. subst tree_at. induction HF as [|i t ids ts (x & Hx & Hf & ->) HF IH]; cbn; [reflexivity|].
    rewrite Hx. f_equal. exact IH.
Qed.

(** Renaming of production ids. *)
Fixpoint relabel (f : nat -> nat) (t : dtree) : dtree :=
  match t with Node pid ks => Node (f pid) (map (relabel_node f) ks) end
with relabel_node (f : nat -> nat) (k : dnode) : dnode :=
  match k with Leaf s => Leaf s | Sub t => Sub (relabel f t) end.

Section Relabel.
  Variables pg pg' : parse_grammar.
  Variable f : nat -> nat.
  Hypothesis Hinj : Injective f.
  Hypothesis Hf : forall n, nth_error (pg_prods pg') n = nth_error (pg_prods pg) (f n).

  Lemma relabel_Node pid ks : relabel f (Node pid ks) = Node (f pid) (map (relabel_node f) ks).
  Proof. reflexivity. Qed.

  Lemma relabel_inj : forall a b, relabel f a = relabel f b -> a = b.
  Proof.
    intro a. induction a as [pid kids IH] using tree_ind'. intros [pid' kids'] E.
    rewrite !relabel_Node in E. injection E as E1 E2. apply Hinj in E1. subst pid'. f_equal.
    revert kids' E2. induction kids as [|k kids IHk]; intros [|k' kids'] E; cbn [map] in E; try discriminate; [reflexivity|].
    injection E as E1 E2. f_equal.
    - destruct k as [s|t], k' as [s'|t']; cbn in E1; try discriminate; [congruence|].
      injection E1 as E1. f_equal. apply IH; [left; reflexivity|exact E1].
    - apply IHk; [|assumption]. intros; apply IH; [right|]; assumption.
  Qed.

  Lemma relabel_dvalid : forall t, dvalid pg' t -> dvalid pg (relabel f t).
  Proof.
    intro t. induction t as [pid kids IH] using tree_ind'. intro Hv.
    inversion Hv as [? l rhs ? Hpid Hk]; subst. rewrite relabel_Node.
    econstructor; [rewrite <- Hf; exact Hpid|]. clear Hpid Hv.
    induction Hk as [|s r ks Hk IHk|n pid' rhs' kids' r ks Hpid' Hv Hk IHk]; cbn [map].
    - constructor.
    - constructor. apply IHk. intros; apply IH; [right|]; assumption.
    - cbn [relabel_node]. rewrite relabel_Node. econstructor.
      + rewrite <- Hf. exact Hpid'.
      + apply (IH (Node pid' kids')); [left; reflexivity|assumption].
      + apply IHk. intros; apply IH; [right|]; assumption.
  Qed.

  Lemma relabel_yield : forall t, yield (relabel f t) = yield t.
  Proof.
    intro t. induction t as [pid kids IH] using tree_ind'. rewrite relabel_Node. cbn [yield].
    induction kids as [|k kids IHk]; [reflexivity|]. cbn [map flat_map].
    rewrite IHk by (intros; apply IH; right; assumption). f_equal.
    destruct k as [s|t]; [reflexivity|]. apply (IH t). left; reflexivity.
  Qed.

  Lemma relabel_lhs pid : lhs_of pg (f pid) = lhs_of pg' pid.
  Proof. unfold lhs_of. rewrite <- Hf. reflexivity. Qed.

  Lemma relabel_erase : forall t, erase pg (relabel f t) = erase pg' t.
  Proof.
    intro t. induction t as [pid kids IH] using tree_ind'. rewrite relabel_Node, !erase_Node, relabel_lhs. f_equal.
    rewrite map_map. apply map_ext_in. intros k Hk. destruct k as [s|t]; [reflexivity|].
    change (Sub (erase pg (relabel f t)) = Sub (erase pg' t)). f_equal. apply IH. exact Hk.
  Qed.
End Relabel.

Lemma Permutation_flat g g' : Permutation g g' -> Permutation (flat_prods g) (flat_prods g').
Proof. intro H. unfold flat_prods. apply Permutation_flat_map; assumption. Qed.

Lemma exhausted_length_le g g' start input it it' ts ts' itf itf' :
  Permutation (flat_prods g) (flat_prods g') ->
  opens g start input it -> produces it ts itf -> exhausted itf ->
  opens g' start input it' -> produces it' ts' itf' -> exhausted itf' ->
  length ts' <= length ts /\ (length ts <= length ts' -> Permutation ts' ts).
Proof.
  intros HP Ho Hp He Ho' Hp' He'.
  destruct (exhausted_items _ _ _ _ _ _ Ho Hp He) as (F & HN & HF & ->).
  destruct (exhausted_items _ _ _ _ _ _ Ho' Hp' He') as (F' & HN' & HF' & ->).
  apply Permutation_nth_error in HP. destruct HP as (_ & f & Hinj & Hf).
  rewrite <- (proj2 (pg_new_unchecked_ok g)), <- (proj2 (pg_new_unchecked_ok g')) in Hf.
  set (pg := pg_new_unchecked g) in *. set (pg' := pg_new_unchecked g') in *.
  rewrite !map_length.
  assert (HNr : NoDup (map (relabel f) F')).
  { apply Injective_map_NoDup; [intros a b; apply relabel_inj; assumption|assumption]. }
  assert (Hincl : incl (map (relabel f) F') F).
  { intros x Hx. apply in_map_iff in Hx. destruct Hx as (t & <- & Ht). apply HF' in Ht.
    destruct Ht as (H1 & H2 & H3). apply HF. split; [apply (relabel_dvalid pg pg'); assumption|]. split.
    - destruct t as [pid ks]. rewrite relabel_Node. cbn [root]. rewrite (relabel_lhs pg pg' f Hf). exact H2.
    - rewrite relabel_yield. assumption. }
  split.
  - rewrite <- (map_length (relabel f) F'). apply NoDup_incl_length; assumption.
  - intro Hle. replace (map (erase pg') F') with (map (erase pg) (map (relabel f) F')).
    + apply Permutation_map. apply NoDup_Permutation_bis; [assumption|rewrite map_length; assumption|assumption].
    + rewrite map_map. apply map_ext. intro t. apply relabel_erase; assumption.
Qed.

Lemma permutation_invariance g g' start input it it' ts ts' itf itf' :
  Permutation g g' ->
  opens g start input it -> produces it ts itf -> exhausted itf ->
  opens g' start input it' -> produces it' ts' itf' -> exhausted itf' ->
  Permutation ts ts'.
Proof.
  intros HP Ho Hp He Ho' Hp' He'. apply Permutation_flat in HP.
  destruct (exhausted_length_le _ _ _ _ _ _ _ _ _ _ HP Ho Hp He Ho' Hp' He') as [H1 H2].
  destruct (exhausted_length_le _ _ _ _ _ _ _ _ _ _ (Permutation_sym HP) Ho' Hp' He' Ho Hp He) as [H3 H4].
  apply H4. assumption.
Qed.

(** The set of trees that are ever returned, ended or not. *)
Lemma returned_set g start input it t : opens g start input it ->
  (exists ts it', produces it ts it' /\ In t ts) <-> parses g start input t.
Proof.
  intro Ho. split.
  - intros (ts & it' & Hp & Hin). eapply soundness; eassumption.
  - apply completeness. assumption.
Qed.

Lemma set_invariance g g' start input it it' t :
  Permutation g g' -> opens g start input it -> opens g' start input it' ->
  (exists ts itf, produces it ts itf /\ In t ts) <-> (exists ts itf, produces it' ts itf /\ In t ts).
Proof.
  intros HP Ho Ho'. rewrite (returned_set _ _ _ _ t Ho), (returned_set _ _ _ _ t Ho').
  apply Permutation_flat in HP.
  split; intros (H1 & H2 & H3); (split; [|auto]); (eapply derives_same_alts; [|exact H1]); intros l e Hin.
  - eapply Permutation_in; eassumption.
  - eapply Permutation_in; [apply Permutation_sym|]; eassumption.
Qed.
