(** Exactly which traversals the parser creates. *)
From Verif Require Export EarleyExact EarleyBounds EarleyOrder.
From Coq Require Import Permutation.

(** A rule of the grammar, expanded where the derivation from [start] can have consumed [u], with
    the first terms of its right hand side matched by [ks] in the input after [u]. *)
Definition partial_parse (g : grammar) (start : term) (input : str) (x : (term * expression) * str * list pnode) : Prop :=
  let '((l, rhs), u, ks) := x in
  In (l, rhs) (flat_prods g) /\ predicted g start l u /\
  exists done todo w, rhs = done ++ todo /\ kids_match g done ks /\ input = u ++ flat_map yield_node ks ++ w.

Fixpoint take_bytes (n : nat) (s : str) : str :=
  match n, s with
  | 0, _ | _, [] => []
  | _, c :: r => c :: take_bytes (n - utf8_len c) r
  end.
Lemma take_bytes_app u w : take_bytes (byte_len u) (u ++ w) = u.
Proof.
  induction u as [|c u IH]; [destruct w; reflexivity|]. pose proof (utf8_len_pos c).
  change (byte_len (c :: u)) with (utf8_len c + byte_len u). destruct (utf8_len c + byte_len u) as [|n] eqn:E; [lia|].
  cbn [take_bytes app]. rewrite <- E. replace (utf8_len c + byte_len u - utf8_len c) with (byte_len u) by lia. rewrite IH. reflexivity.
Qed.

Section Work.
  Variable g : grammar.
  Variable input : str.
  Variable start : term.
  Let pg := pg_new_unchecked g.
  Let Hok : pg_ok pg := proj1 (pg_new_unchecked_ok g).
  Let Heq : pg_prods pg = flat_prods g := proj2 (pg_new_unchecked_ok g).
  Notation prods := (pg_prods pg).

  Lemma dkids_kids_match e ks : dkids pg e ks -> kids_match g e (map (erase_node pg) ks).
  Proof.
    induction 1 as [|s r ks Hk IH|n pid rhs kids r ks Hp Hv Hk IH]; cbn [map erase_node]; constructor; try assumption.
    - cbn. unfold lhs_of. rewrite Hp. reflexivity.
    - exact (erase_derives g pg Heq _ Hv).
  Qed.

  Lemma dkids_seq_generates e ks : dkids pg e ks -> seq_generates g e (yields ks).
  Proof.
    intro H. apply dkids_kids_match in H. destruct (kids_match_rewrites _ _ _ H) as (ss & H1 & H2).
    { intros t _ Ht n Hn. apply derives_rewrites; assumption. }
    exists ss. split; [assumption|]. rewrite H2. symmetry. exact (yields_erase g ks).
  Qed.

  Lemma ireach_partial it : ireach pg input start it -> exists u l pre rest,
    nth_error prods (i_pid it) = Some (l, pre ++ rest) /\ dkids pg pre (i_kids it) /\ predicted g start l u /\
    byte_len u = i_start it /\ exists w, input = u ++ yields (i_kids it) ++ w.
  Proof.
    induction 1 as [pid rhs Hp|it l n rest pid rhs Hr IH Hv Hp|it l t rest k Hr IH Hv Hk Hpos].
    - exists [], start, [], rhs. split; [exact Hp|]. split; [constructor|]. split; [constructor|]. split; [reflexivity|].
      exists input. reflexivity.
    - destruct IH as (u & l' & pre & rest' & H1 & H2 & H3 & H4 & w & H5). destruct Hv as (pre' & H1' & H2').
      rewrite H1 in H1'. injection H1' as -> E.
      assert (pre = pre' /\ rest' = Nonterminal n :: rest) as [<- ->].
      { apply dkids_length in H2, H2'. assert (Hl : length pre = length pre') by congruence. clear - E Hl. revert pre' E Hl.
        induction pre as [|x pre IH]; intros [|x' pre'] E Hl; cbn in *; try discriminate; [auto|].
        injection E as -> E. injection Hl as Hl. destruct (IH _ E Hl) as [-> ->]. auto. }
      exists (u ++ yields (i_kids it)), (Nonterminal n), [], rhs. split; [exact Hp|]. split; [constructor|].
      split; [|split; [unfold i_end; cbn; rewrite byte_len_app, H4; reflexivity|exists w; cbn; rewrite <- app_assoc; exact H5]].
      destruct (nth_prods g pg Heq _ _ _ H1) as (p & Hin & Hl & Hr').
      eapply (predicted_in g start l u p pre n rest); [exact H3|exact Hin|exact Hl|exact Hr'|].
      apply dkids_seq_generates. exact H2.
    - destruct IH as (u & l' & pre & rest' & H1 & H2 & H3 & H4 & w & H5). destruct Hv as (pre' & H1' & H2').
      rewrite H1 in H1'. injection H1' as -> E.
      assert (pre = pre' /\ rest' = t :: rest) as [<- ->].
      { apply dkids_length in H2, H2'. assert (Hl : length pre = length pre') by congruence. clear - E Hl. revert pre' E Hl.
        induction pre as [|x pre IH]; intros [|x' pre'] E Hl; cbn in *; try discriminate; [auto|].
        injection E as -> E. injection Hl as Hl. destruct (IH _ E Hl) as [-> ->]. auto. }
      exists u, l, (pre ++ [t]), rest. cbn [i_snoc i_pid i_kids i_start]. rewrite <- app_assoc. split; [exact H1|].
      split; [apply dkids_app; assumption|]. split; [assumption|]. split; [assumption|].
      destruct Hpos as (a & b & E1 & E2). exists b. unfold i_end in E2. rewrite <- H4, <- byte_len_app in E2.
      assert (Ha : a = u ++ yields (i_kids it) /\ yield_node k ++ b = w).
      { apply app_byte_len_inj; [|assumption]. rewrite <- E1, <- app_assoc. exact H5. }
      destruct Ha as [-> <-]. rewrite E1, yields_app. rewrite <- !app_assoc. f_equal. f_equal. unfold yields. cbn. rewrite app_nil_r. reflexivity.
  Qed.

  (** What an item stands for. *)
  Definition work_of (it : item) : (term * expression) * str * list pnode :=
    (nth (i_pid it) (flat_prods g) (Terminal [], []), take_bytes (i_start it) input, map (erase_node pg) (i_kids it)).

  Lemma work_of_eq it u l pre rest w : nth_error prods (i_pid it) = Some (l, pre ++ rest) ->
    byte_len u = i_start it -> input = u ++ yields (i_kids it) ++ w ->
    work_of it = ((l, pre ++ rest), u, map (erase_node pg) (i_kids it)).
  Proof.
    intros H1 H2 H3. unfold work_of. rewrite Heq in H1. rewrite (nth_error_nth _ _ _ H1), <- H2, H3, take_bytes_app. reflexivity.
  Qed.

  Lemma work_partial it : ireach pg input start it -> partial_parse g start input (work_of it).
  Proof.
    intro H. destruct (ireach_partial it H) as (u & l & pre & rest & H1 & H2 & H3 & H4 & w & H5).
    rewrite (work_of_eq it u l pre rest w H1 H4 H5). cbn [partial_parse]. split; [rewrite <- Heq; eapply nth_error_In; exact H1|].
    split; [assumption|]. exists pre, rest, w. split; [reflexivity|]. split; [apply dkids_kids_match; assumption|].
    rewrite H5. f_equal. f_equal. symmetry. exact (yields_erase g (i_kids it)).
  Qed.

  Lemma work_inj a b : NoDup (flat_prods g) -> ireach pg input start a -> ireach pg input start b -> work_of a = work_of b -> a = b.
  Proof.
    intros Hnd Ha Hb E.
    destruct (ireach_partial a Ha) as (u & l & pre & rest & H1 & H2 & H3 & H4 & w & H5).
    destruct (ireach_partial b Hb) as (u' & l' & pre' & rest' & H1' & H2' & H3' & H4' & w' & H5').
    rewrite (work_of_eq a u l pre rest w H1 H4 H5), (work_of_eq b u' l' pre' rest' w' H1' H4' H5') in E.
    injection E as E1 E2 E3 E4. subst l' u'.
    assert (Ep : i_pid a = i_pid b).
    { rewrite Heq in H1, H1'. rewrite <- E2 in H1'. exact (nth_error_NoDup _ _ _ _ Hnd H1 H1'). }
    assert (Ek : i_kids a = i_kids b).
    { clear - H2 H2' E4 Hnd Heq. revert pre' H2' E4. generalize (i_kids b). intro ksb. revert ksb.
      induction H2 as [|s r ks Hk IH|n pid rhs kids r ks Hp Hv Hk IH]; intros ksb pre' H2' E; inversion H2'; subst; cbn [map] in E; try discriminate.
      - reflexivity.
      - injection E as -> E. f_equal. eapply IH; eassumption.
      - injection E as E0 E1 E2. f_equal; [|eapply IH; eassumption]. f_equal.
        apply (erase_inj g pg Heq Hnd); [assumption..|]. rewrite !erase_Node. f_equal; assumption. }
    destruct a as [pa sa ka], b as [pb sb kb]. cbn in *. congruence.
  Qed.

  Lemma partial_closed st gh x : Inv pg input start st gh (length gh) -> partial_parse g start input x -> In x (map work_of gh).
  Proof.
    destruct x as [[[l rhs] u] ks]. intros HI (Hin & Hpr & pre & rest & w & -> & Hk & Hw).
    rewrite <- Heq in Hin. apply In_nth_error in Hin. destruct Hin as [pid Hpid].
    destruct (kids_match_dkids g pre ks Hk) as (dks & Hdk & <-). fold pg in Hdk.
    assert (Hy : flat_map yield_node (map (erase_node pg) dks) = yields dks) by exact (yields_erase g dks).
    fold pg in Hw. rewrite Hy in Hw.
    assert (H0 : In (mkItem pid (byte_len u) []) gh).
    { eapply (closed_predicted g input start st gh HI l u Hpr); [exists (yields dks ++ w); exact Hw|exact Hpid]. }
    assert (H1 : In (mkItem pid (byte_len u) dks) gh).
    { eapply (closed_prefix g input start st gh HI pid l pre rest dks); [exact Hpid|exact Hdk|exact H0|].
      exists u, w. split; [exact Hw|reflexivity]. }
    apply in_map_iff. exists (mkItem pid (byte_len u) dks). split; [|assumption].
    exact (work_of_eq (mkItem pid (byte_len u) dks) u l pre rest w Hpid eq_refl Hw).
  Qed.
End Work.

Lemma NoDup_map_inj {A B} (f : A -> B) l : (forall a b, In a l -> In b l -> f a = f b -> a = b) -> NoDup l -> NoDup (map f l).
Proof.
  intros Hf Hn. induction Hn as [|x l Hx Hn IH]; cbn; constructor.
  - intro Hin. apply in_map_iff in Hin. destruct Hin as (y & E & Hy). apply Hf in E; [subst; contradiction|right; assumption|left; reflexivity].
  - apply IH. intros a b Ha Hb. apply Hf; right; assumption.
Qed.

(** At any time the traversals are different partial parses; at exhaustion they are all of them. *)
Lemma work_so_far g start input it ts it1 : NoDup (flat_prods g) -> opens g start input it -> produces it ts it1 ->
  exists F, NoDup F /\ (forall x, In x F -> partial_parse g start input x) /\
    length (tt_arena (s_tree (it_state it1))) = length F.
Proof.
  intros Hnd Ho Hp. destruct (run_summary _ _ _ _ _ _ Ho Hp) as (st0 & gh & d & ids & Hpar & HI & _).
  pose proof (inv_t _ _ _ _ _ _ HI) as HT. exists (map (work_of g input) gh). split; [|split].
  - apply NoDup_map_inj; [|exact (ti_nodup _ _ _ _ _ HT)]. intros a b Ha Hb.
    apply (work_inj g input start); [assumption|exact (ti_reach _ _ _ _ _ HT a Ha)|exact (ti_reach _ _ _ _ _ HT b Hb)].
  - intros x Hx. apply in_map_iff in Hx. destruct Hx as (a & <- & Ha). apply work_partial. exact (ti_reach _ _ _ _ _ HT a Ha).
  - rewrite map_length. exact (ti_len _ _ _ _ _ HT).
Qed.

Lemma work_exact g start input it ts it1 f it2 : NoDup (flat_prods g) -> opens g start input it -> produces it ts it1 ->
  iter_next f it1 = Ok (None, it2) ->
  exists F, NoDup F /\ (forall x, In x F <-> partial_parse g start input x) /\
    length (tt_arena (s_tree (it_state it2))) = length F.
Proof.
  intros Hnd Ho Hp He. destruct (run_summary _ _ _ _ _ _ Ho Hp) as (st0 & gh & d & ids & Hpar & HI & _).
  destruct (pg_new_unchecked_ok g) as [Hok _]. destruct it1 as [p st]; cbn [it_parser it_state] in *. subst p.
  destruct (iter_next_spec _ Hok input start (mkGP st0 (pg_new_unchecked g)) eq_refl f st gh d HI)
    as [(E & _)|[(st' & new & E & Hq & HI' & Hno)|(st' & new & id & x & E & _)]]; rewrite E in He; try discriminate.
  injection He as <-. cbn [it_state].
  pose proof (inv_t _ _ _ _ _ _ HI') as HT. exists (map (work_of g input) (gh ++ new)). split; [|split].
  - apply NoDup_map_inj; [|exact (ti_nodup _ _ _ _ _ HT)]. intros a b Ha Hb.
    apply (work_inj g input start); [assumption|exact (ti_reach _ _ _ _ _ HT a Ha)|exact (ti_reach _ _ _ _ _ HT b Hb)].
  - intro x. split.
    + intro Hx. apply in_map_iff in Hx. destruct Hx as (a & <- & Ha). apply work_partial. exact (ti_reach _ _ _ _ _ HT a Ha).
    + exact (partial_closed g input start st' (gh ++ new) x HI').
  - rewrite map_length. exact (ti_len _ _ _ _ _ HT).
Qed.

Lemma seq_generates_same g g' e v : (forall l r, In (l, r) (flat_prods g) <-> In (l, r) (flat_prods g')) ->
  seq_generates g e v -> seq_generates g' e v.
Proof.
  intros H (ss & Hr & ->). exists ss. split; [|reflexivity]. revert Hr. generalize (map Terminal ss). intros f Hr.
  induction Hr as [f|f1 f2 f3 Hs _ IH]; [constructor|]. econstructor; [|exact IH].
  destruct Hs as [a n b p rhs Hp Hl Hin].
  assert (Hf : In (Nonterminal n, rhs) (flat_prods g')) by (apply H; apply flat_prods_In; eauto).
  apply flat_prods_In in Hf. destruct Hf as (p' & Hp' & Hl' & Hin'). econstructor; eassumption.
Qed.
Lemma predicted_same g g' start l u : (forall l r, In (l, r) (flat_prods g) <-> In (l, r) (flat_prods g')) ->
  predicted g start l u -> predicted g' start l u.
Proof.
  intros H. induction 1 as [|l u p x m y v Hpr IH Hp Hl Hr Hv]; [constructor|].
  assert (Hf : In (l, x ++ Nonterminal m :: y) (flat_prods g')) by (apply H; apply flat_prods_In; eauto).
  apply flat_prods_In in Hf. destruct Hf as (p' & Hp' & Hl' & Hin').
  econstructor; [exact IH|exact Hp'|exact Hl'|exact Hin'|]. eapply seq_generates_same; eassumption.
Qed.

(** The order of the productions does not change the amount of work. *)
Lemma work_order g g' start input it it' ts ts' it1 it1' f f' it2 it2' :
  NoDup (flat_prods g) -> Permutation g g' ->
  opens g start input it -> produces it ts it1 -> iter_next f it1 = Ok (None, it2) ->
  opens g' start input it' -> produces it' ts' it1' -> iter_next f' it1' = Ok (None, it2') ->
  length (tt_arena (s_tree (it_state it2))) = length (tt_arena (s_tree (it_state it2'))).
Proof.
  intros Hnd HP Ho Hp He Ho' Hp' He'. pose proof (Permutation_flat _ _ HP) as HPf.
  destruct (work_exact _ _ _ _ _ _ _ _ Hnd Ho Hp He) as (F & N & HF & ->).
  destruct (work_exact _ _ _ _ _ _ _ _ (Permutation_NoDup HPf Hnd) Ho' Hp' He') as (F' & N' & HF' & ->).
  assert (Hs : forall l r, In (l, r) (flat_prods g) <-> In (l, r) (flat_prods g')).
  { intros l r. split; apply Permutation_in; [assumption|apply Permutation_sym; assumption]. }
  assert (Hkm : forall h h', (forall l r, In (l, r) (flat_prods h) <-> In (l, r) (flat_prods h')) ->
            forall e ks, kids_match h e ks -> kids_match h' e ks).
  { intros h h' Hh e ks. induction 1 as [|s r ks Hk IH|n t r ks Hr Ht Hk IH]; constructor; try assumption.
    revert Ht. apply derives_same_alts. intros l r0. apply Hh. }
  assert (Himp : forall h h', (forall l r, In (l, r) (flat_prods h) <-> In (l, r) (flat_prods h')) ->
            forall x, partial_parse h start input x -> partial_parse h' start input x).
  { intros h h' Hh [[[l rhs] u] ks] (H1 & H2 & pre & rest & w & -> & H3 & H4). split; [apply Hh; assumption|].
    split; [eapply predicted_same; eassumption|]. exists pre, rest, w. split; [reflexivity|]. split; [|assumption].
    eapply Hkm; eassumption. }
  apply Nat.le_antisymm; apply NoDup_incl_length; try assumption; intros x Hx.
  - apply HF'. apply HF in Hx. eapply Himp; eassumption.
  - apply HF. apply HF' in Hx. eapply Himp; [|eassumption]. intros l r. symmetry. apply Hs.
Qed.
