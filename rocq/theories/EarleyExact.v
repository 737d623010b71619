(** Exactly when the enumeration ends, goes on for ever, or gets stuck. *)
From Verif Require Export EarleyTerm.
From Coq Require Import Relation_Operators.

(** Number of inner nodes. *)
Fixpoint tsize {L} (t : tree L) : nat :=
  match t with Node _ ks => S (list_sum (map nsize ks)) end
with nsize {L} (n : node L) : nat := match n with Leaf _ => 0 | Sub t => tsize t end.

Lemma tsize_Node {L} (pid : L) ks : tsize (Node pid ks) = S (list_sum (map nsize ks)).
Proof. reflexivity. Qed.
Lemma tsize_mid {L} (pid : L) a t b :
  tsize (Node pid (a ++ Sub t :: b)) = S (list_sum (map nsize a) + (tsize t + list_sum (map nsize b))).
Proof. rewrite tsize_Node, map_app, list_sum_app. reflexivity. Qed.
Lemma tsize_sub {L} (pid : L) ks t : In (Sub t) ks -> tsize t < tsize (Node pid ks).
Proof. intro H. apply in_split in H. destruct H as (a & b & ->). rewrite tsize_mid. lia. Qed.

Lemma tsize_erase pg t : tsize (erase pg t) = tsize t.
Proof.
  induction t as [pid kids IH] using tree_ind'. rewrite erase_Node, !tsize_Node. f_equal.
  induction kids as [|k kids IHk]; [reflexivity|]. cbn [map]. 
  change (nsize (erase_node pg k) + list_sum (map nsize (map (erase_node pg) kids)) =
          nsize k + list_sum (map nsize kids)).
  rewrite IHk by (intros; apply IH; right; assumption). f_equal.
  destruct k as [s|t]; [reflexivity|]. apply IH. left; reflexivity.
Qed.

Section Exact.
  Variable g : grammar.
  Variable input : str.
  Variable start : term.
  Let pg := pg_new_unchecked g.
  Let Hok : pg_ok pg := proj1 (pg_new_unchecked_ok g).
  Let Heq : pg_prods pg = flat_prods g := proj2 (pg_new_unchecked_ok g).
  Notation prods := (pg_prods pg).
  Notation dvalid := (dvalid pg).
  Notation dkids := (dkids pg).
  Notation Inv := (Inv pg input start).

  Lemma kids_match_dkids e ks : kids_match g e ks -> exists dks, dkids e dks /\ map (erase_node pg) dks = ks.
  Proof.
    induction 1 as [|s r ks Hk (dks & H1 & H2)|n t r ks Hroot Ht Hk (dks & H1 & H2)].
    - exists []. split; [constructor|reflexivity].
    - exists (Leaf s :: dks). split; [constructor; assumption|]. rewrite <- H2. reflexivity.
    - destruct (derives_erase g pg Heq t Ht) as (dt & Hv & He). exists (Sub dt :: dks).
      split; [|rewrite <- H2, <- He; reflexivity].
      inversion Hv as [pid l rhs kids Hpid Hdk E]; subst dt. econstructor; [|exact Hv|exact H1].
      rewrite Hpid. f_equal. f_equal. rewrite <- Hroot, <- He. cbn. unfold lhs_of. rewrite Hpid. reflexivity.
  Qed.

  Lemma seq_generates_dkids e v : seq_generates g e v -> exists dks, dkids e dks /\ yields dks = v.
  Proof.
    intros (ss & H & ->). destruct (rewrites_kids _ _ _ H ss eq_refl) as (ks & Hk & Hy).
    destruct (kids_match_dkids _ _ Hk) as (dks & H1 & <-). exists dks. split; [assumption|].
    rewrite <- Hy. symmetry. apply yields_erase.
  Qed.

  Lemma generates_dvalid n v : generates g n v ->
    exists t, dvalid t /\ lhs_of pg (root t) = Nonterminal n /\ yield t = v.
  Proof.
    intro H. apply generates_parses in H. destruct H as (t & Hd & Hr & Hy).
    destruct (derives_erase g pg Heq t Hd) as (dt & Hv & He). exists dt. split; [assumption|].
    split; [|rewrite <- Hy, <- He, yield_erase; reflexivity]. rewrite <- Hr, <- He. destruct dt; reflexivity.
  Qed.

  Lemma in_prods p e : In p g -> In e (p_rhs p) -> exists pid, nth_error prods pid = Some (p_lhs p, e).
  Proof.
    intros Hp He. apply In_nth_error. rewrite Heq. apply flat_prods_In. eauto.
  Qed.

  (** ** When the queue is empty, everything predicted has been built *)
  Section Closed.
    Variable st : pstate.
    Variable gh : list item.
    Hypothesis HI : Inv st gh (length gh).

    Lemma closed_adv st' gh' d' : adv pg input start st gh (length gh) st' gh' d' -> gh' = gh.
    Proof.
      intro H. inversion H as [|? ? ? rest found st1 new ? ? ? it Hq]; subst; [reflexivity|].
      pose proof (qi_queue _ _ _ (inv_q _ _ _ _ _ _ HI)) as E. rewrite Hq, Nat.sub_diag in E. discriminate.
    Qed.

    Lemma closed_tree t pos : dvalid t -> In (mkItem (root t) pos []) gh -> at_pos input pos (yield t) ->
      In (mkItem (root t) pos (match t with Node _ ks => ks end)) gh.
    Proof.
      intros Hv Hin Hat.
      destruct (reach_tree pg Hok input start t Hv st gh (length gh) pos HI Hin Hat) as (st' & gh' & d' & Ha & _ & H).
      apply closed_adv in Ha. subst gh'. exact H.
    Qed.

    Lemma closed_prefix pid l x y ks pos : nth_error prods pid = Some (l, x ++ y) -> dkids x ks ->
      In (mkItem pid pos []) gh -> at_pos input pos (yields ks) -> In (mkItem pid pos ks) gh.
    Proof.
      intros Hp Hk Hin Hat.
      destruct (reach_prefix pg Hok input start pid l pos ks) with (k1 := @nil dnode) (e1 := @nil term) (e2 := x ++ y)
        (st := st) (gh := gh) (d := length gh) as (st' & gh' & d' & Ha & _ & H); auto.
      - intros t _ Hv. apply (reach_tree pg Hok input start t Hv).
      - constructor.
      - eauto.
      - simpl. rewrite Nat.add_0_r. exact Hat.
      - apply closed_adv in Ha. subst gh'. exact H.
    Qed.

    Lemma closed_predicted l u : predicted g start l u -> (exists w, input = u ++ w) ->
      forall pid rhs, nth_error prods pid = Some (l, rhs) -> In (mkItem pid (byte_len u) []) gh.
    Proof.
      induction 1 as [|l u p x m y v Hpr IH Hp Hl Hr Hv]; intros [w Hw] pid rhs Hpid.
      - simpl. eapply (inv_start _ _ _ _ _ _ HI); exact Hpid.
      - destruct (in_prods _ _ Hp Hr) as [pid0 Hpid0]. rewrite Hl in Hpid0.
        assert (Hin : In (mkItem pid0 (byte_len u) []) gh).
        { eapply IH; [|exact Hpid0]. exists (v ++ w). rewrite app_assoc. exact Hw. }
        destruct (seq_generates_dkids _ _ Hv) as (ks & Hk & Hy).
        assert (Hin2 : In (mkItem pid0 (byte_len u) ks) gh).
        { eapply closed_prefix; [exact Hpid0|exact Hk|exact Hin|]. exists u, w. rewrite Hy, app_assoc. auto. }
        apply In_nth_error in Hin2. destruct Hin2 as [i Hi]. pose proof (nth_error_lt _ _ _ Hi) as Hlt.
        replace (byte_len (u ++ v)) with (i_end (mkItem pid0 (byte_len u) ks))
          by (unfold i_end; cbn [i_start i_kids]; rewrite Hy, byte_len_app; reflexivity).
        eapply (inv_pred _ _ _ _ _ _ HI i _ l m y); [exact Hlt|exact Hi| |exact Hpid].
        exists x. split; [exact Hpid0|exact Hk].
    Qed.
  End Closed.

  (** ** Growing trees along a cycle *)
  Lemma unit_grow a b t : unit_step g a b -> dvalid t -> lhs_of pg (root t) = Nonterminal b ->
    exists t', dvalid t' /\ lhs_of pg (root t') = Nonterminal a /\ yield t' = yield t /\ tsize t < tsize t'.
  Proof.
    intros (p & x & y & Hp & Hl & Hr & Hx & Hy) Hv Hb.
    destruct (in_prods _ _ Hp Hr) as [pid Hpid]. rewrite Hl in Hpid.
    destruct Hx as (sx & Hx1 & Hx2), Hy as (sy & Hy1 & Hy2).
    destruct (seq_generates_dkids x []) as (kx & Kx & Yx); [exists sx; auto|].
    destruct (seq_generates_dkids y []) as (ky & Ky & Yy); [exists sy; auto|].
    exists (Node pid (kx ++ Sub t :: ky)). split; [|split; [|split]].
    - econstructor; [exact Hpid|]. apply dkids_app; [assumption|].
      inversion Hv as [cpid l rhs kids Hc Hdk E]; subst t. econstructor; [|exact Hv|exact Ky].
      cbn in Hb. unfold lhs_of in Hb. rewrite Hc in Hb. cbn in Hb. rewrite Hc. rewrite Hb. reflexivity.
    - cbn. unfold lhs_of. rewrite Hpid. reflexivity.
    - change (yields (kx ++ Sub t :: ky) = yield t). rewrite yields_app, Yx.
      change (yields (Sub t :: ky)) with (yield t ++ yields ky). rewrite Yy, app_nil_r. reflexivity.
    - apply tsize_sub. apply in_or_app. right; left; reflexivity.
  Qed.

  Lemma trans_grow a b : clos_trans str (unit_step g) a b ->
    forall t, dvalid t -> lhs_of pg (root t) = Nonterminal b ->
    exists t', dvalid t' /\ lhs_of pg (root t') = Nonterminal a /\ yield t' = yield t /\ tsize t < tsize t'.
  Proof.
    induction 1 as [a b H|a b c H1 IH1 H2 IH2]; intros t Hv Ht.
    - eapply unit_grow; eassumption.
    - destruct (IH2 t Hv Ht) as (t1 & V1 & L1 & Y1 & S1). destruct (IH1 t1 V1 L1) as (t2 & V2 & L2 & Y2 & S2).
      exists t2. repeat split; [assumption..|congruence|lia].
  Qed.

  Lemma cycle_grow a v : self_deriving g a -> generates g a v -> forall n,
    exists t, dvalid t /\ lhs_of pg (root t) = Nonterminal a /\ yield t = v /\ n <= tsize t.
  Proof.
    intros Hc Hg n. induction n as [|n (t & V & L & Y & S)].
    - destruct (generates_dvalid _ _ Hg) as (t & V & L & Y). exists t. repeat split; try assumption. lia.
    - destruct (trans_grow _ _ Hc t V L) as (t' & V' & L' & Y' & S'). exists t'. repeat split; [assumption..|congruence|lia].
  Qed.

  Lemma list_sum_le x l : In x l -> x <= list_sum l.
  Proof.
    induction l as [|y l IH]; [intros []|]. change (list_sum (y :: l)) with (y + list_sum l).
    intros [->|H]; [lia|]. apply IH in H. lia.
  Qed.

  Lemma live_cycle_not_closed st gh : live_cycle g start input -> ~ Inv st gh (length gh).
  Proof.
    intros (a & u & v & w & Hin & Hpr & Hg & Hc) HI.
    destruct (cycle_grow a v Hc Hg (S (list_sum (map (fun it => tsize (i_tree it)) gh)))) as (t & V & L & Y & S).
    assert (H0 : In (mkItem (root t) (byte_len u) []) gh).
    { inversion V as [pid l rhs kids Hp Hk E]; subst t. cbn in L |- *. unfold lhs_of in L. rewrite Hp in L. cbn in L. subst l.
      eapply (closed_predicted _ _ HI); [exact Hpr|exists (v ++ w); exact Hin|exact Hp]. }
    assert (H1 : In (mkItem (root t) (byte_len u) (match t with Node _ ks => ks end)) gh).
    { apply (closed_tree _ _ HI t (byte_len u) V H0). exists u, w. rewrite Y. auto. }
    apply (in_map (fun it => tsize (i_tree it))) in H1. apply list_sum_le in H1.
    unfold i_tree in H1 at 1. cbn [i_pid i_kids] in H1. destruct t as [pid ks]. cbn [root] in H1. lia.
  Qed.

  (** ** Trees without cycles are finitely many *)
  Fixpoint xkids (f : list dtree) (e : expression) : list (list dnode) :=
    match e with
    | [] => [[]]
    | Terminal s :: r => map (cons (Leaf s)) (xkids f r)
    | Nonterminal n :: r =>
        flat_map (fun t => map (cons (Sub t)) (xkids f r))
          (filter (fun t => term_eqb (lhs_of pg (root t)) (Nonterminal n)) f)
    end.
  Fixpoint xenum (h : nat) : list dtree :=
    match h with
    | 0 => []
    | S h => flat_map (fun pid => map (Node pid) (xkids (xenum h) (rhs_of g pid))) (seq 0 (length prods))
    end.

  Lemma xkids_complete f e ks : dkids e ks -> (forall c, In (Sub c) ks -> In c f) -> In ks (xkids f e).
  Proof.
    induction 1 as [|s r ks Hk IHk|n pid' rhs' kids' r ks Hpid' Hv Hk IHk]; cbn; intro Hc.
    - left; reflexivity.
    - apply in_map. apply IHk. intros; apply Hc; right; assumption.
    - apply in_flat_map. exists (Node pid' kids'). split.
      + apply filter_In. split; [apply Hc; left; reflexivity|]. cbn. unfold lhs_of. rewrite Hpid'. apply term_eqb_refl.
      + apply in_map. apply IHk. intros; apply Hc; right; assumption.
  Qed.

  Lemma xkids_sound f : (forall t, In t f -> dvalid t) -> forall e ks, In ks (xkids f e) -> dkids e ks.
  Proof.
    intro Hf. induction e as [|[s|n] e IH]; cbn; intros ks H.
    - destruct H as [<-|[]]. constructor.
    - apply in_map_iff in H. destruct H as (ks' & <- & H). constructor. auto.
    - apply in_flat_map in H. destruct H as (t & Ht & H). apply in_map_iff in H. destruct H as (ks' & <- & H).
      apply filter_In in Ht. destruct Ht as [Ht El]. apply term_eqb_eq in El. apply Hf in Ht.
      inversion Ht as [pid l rhs kids Hp Hk E]; subst t. cbn in El. unfold lhs_of in El. rewrite Hp in El. cbn in El. subst l.
      econstructor; [exact Hp|exact Ht|auto].
  Qed.

  Lemma xenum_sound h : forall t, In t (xenum h) -> dvalid t.
  Proof.
    induction h as [|h IH]; intros t H; [destruct H|]. cbn [xenum] in H.
    apply in_flat_map in H. destruct H as (pid & Hs & H). apply in_map_iff in H. destruct H as (ks & <- & H).
    apply (xkids_sound _ IH) in H. unfold rhs_of in H. fold pg in H.
    apply in_seq in Hs. destruct (nth_error prods pid) as [[l e]|] eqn:E; [econstructor; eassumption|].
    apply nth_error_None in E. lia.
  Qed.

  Lemma xenum_complete h : forall t, dvalid t -> hle h t -> In t (xenum h).
  Proof.
    induction h as [|h IH]; intros [pid kids] Hv Hh; [destruct Hh|].
    inversion Hv as [? l rhs ? Hpid Hk]; subst pid0 kids0. cbn [xenum]. apply in_flat_map. exists pid.
    split; [apply in_seq; apply nth_error_lt in Hpid; lia|]. apply in_map.
    unfold rhs_of. fold pg. rewrite Hpid.
    apply xkids_complete; [assumption|]. intros c Hc. apply IH; [|apply Hh; assumption].
    eapply dkids_Sub; eassumption.
  Qed.

  Definition acyclic_tree (t : dtree) : Prop :=
    forall s a, subtree s t -> lhs_of pg (root s) = Nonterminal a -> ~ self_deriving g a.

  Lemma acyclic_sub pid ks c : acyclic_tree (Node pid ks) -> In (Sub c) ks -> acyclic_tree c.
  Proof. intros H Hc s a Ho. apply H. econstructor; eassumption. Qed.

  Let K := length prods.

  Lemma acyclic_height h : forall t n V, dvalid t -> lhs_of pg (root t) = Nonterminal n -> acyclic_tree t ->
    NoDup V -> (forall v, In v V -> clos_trans str (unit_step g) v n /\ In (Nonterminal v) (map fst prods)) ->
    byte_len (yield t) * (K + 1) + (K + 1 - length V) <= h -> hle h t.
  Proof.
    induction h as [|h IH]; intros [pid ks] n V Hv Hn Hac HV HinV Hh.
    all: assert (HK : length V <= K).
    1,3: apply Nat.le_trans with (length (map fst prods)); [|rewrite map_length; apply Nat.le_refl];
         rewrite <- (map_length Nonterminal V); apply NoDup_incl_length;
         [apply FinFun.Injective_map_NoDup; [intros a b E; congruence|assumption]
         |intros x Hx; apply in_map_iff in Hx; destruct Hx as (v & <- & Hv'); apply HinV; assumption].
    - exfalso. lia.
    - inversion Hv as [? l rhs ? Hpid Hk]; subst pid0 kids. simpl in Hn. unfold lhs_of in Hn. rewrite Hpid in Hn.
      cbn in Hn. subst l. cbn [hle]. intros c Hc.
      pose proof (dkids_Sub _ _ _ _ Hk Hc) as Hvc. pose proof (acyclic_sub _ _ _ Hac Hc) as Hacc.
      apply in_split in Hc. destruct Hc as (k1 & k2 & ->).
      apply dkids_split in Hk. destruct Hk as (e1 & e2 & -> & Hk1 & Hk2).
      inversion Hk2 as [| |m cpid crhs ckids r ks' Hcp _ Hk3 E1 E2]; subst c e2 ks'.
      assert (Hy : yield (Node pid (k1 ++ Sub (Node cpid ckids) :: k2)) =
                   yields k1 ++ yield (Node cpid ckids) ++ yields k2).
      { cbn [yield]. rewrite flat_map_app. reflexivity. }
      rewrite Hy, !byte_len_app in Hh.
      destruct (Nat.eq_dec (byte_len (yields k1) + byte_len (yields k2)) 0) as [E0|Ene].
      + assert (E1 : yields k1 = []) by (apply byte_len_0; lia).
        assert (E2 : yields k2 = []) by (apply byte_len_0; lia).
        assert (Hstep : unit_step g n m).
        { destruct (nth_prods g pg Heq _ _ _ Hpid) as (p & Hp & Hl & Hr).
          exists p, e1, r. repeat (split; [assumption|]).
          split; [exact (dkids_nullable g _ _ Hk1 E1)|exact (dkids_nullable g _ _ Hk3 E2)]. }
        apply (IH _ m (n :: V)); try assumption.
        * change (lhs_of (pg_new_unchecked g) cpid = Nonterminal m). unfold lhs_of. rewrite Hcp. reflexivity.
        * constructor; [|assumption]. intro Hin.
          apply (Hac (Node pid (k1 ++ Sub (Node cpid ckids) :: k2)) n); [constructor| |apply HinV; assumption].
          simpl. unfold lhs_of. rewrite Hpid. reflexivity.
        * intros v [<-|Hin].
          -- split; [apply t_step; assumption|]. apply nth_error_In in Hpid. apply (in_map fst) in Hpid. exact Hpid.
          -- destruct (HinV v Hin) as [H1 H2]. split; [|assumption]. eapply t_trans; [exact H1|apply t_step; assumption].
        * rewrite E1, E2 in Hh. cbn [byte_len length] in *. lia.
      + apply (IH _ m []); try assumption.
        * change (lhs_of (pg_new_unchecked g) cpid = Nonterminal m). unfold lhs_of. rewrite Hcp. reflexivity.
        * constructor.
        * intros v [].
        * simpl length. nia.
  Qed.

  (** All full items, when no parse contains a cycle. *)
  Let Hmax := byte_len input * (K + 1) + (K + 1).
  Definition all_full : list item :=
    map (fun t => mkItem (root t) 0 (match t with Node _ ks => ks end))
      (filter (fun t => term_eqb (lhs_of pg (root t)) start && str_eqb (yield t) input) (xenum (S Hmax))).

  Lemma occurs_erase t : forall s, subtree s t -> subtree (erase pg s) (erase pg t).
  Proof.
    induction 1 as [t|s l ks t Hin Ho IH]; [constructor|]. rewrite erase_Node. econstructor; [|exact IH].
    apply in_map_iff. exists (Sub t). split; [reflexivity|assumption].
  Qed.

  Lemma all_full_spec x : ~ cycle_in_parse g start input -> full pg input start x -> In x all_full.
  Proof.
    intros Hnc Hf. pose proof (full_dvalid _ _ _ _ Hf) as (Hv & Hl & Hy).
    assert (Hac : acyclic_tree (i_tree x)).
    { intros s a Ho Hs Hc. apply Hnc. exists (erase pg (i_tree x)), (erase pg s), a. split; [|split; [|split; [|assumption]]].
      - split; [exact (erase_derives g pg Heq _ Hv)|]. split; [exact Hl|]. rewrite yield_erase. exact Hy.
      - apply occurs_erase. assumption.
      - destruct s; exact Hs. }
    destruct Hf as (_ & H0 & _). destruct x as [pid s0 ks]. unfold i_tree in *. cbn [i_pid i_start i_kids root] in *. subst s0.
    apply in_map_iff. exists (Node pid ks). split; [reflexivity|]. apply filter_In. split.
    - apply xenum_complete; [assumption|]. cbn [hle]. intros c Hc.
      inversion Hv as [? l rhs ? Hpid Hk]; subst pid0 kids.
      pose proof (dkids_Sub _ _ _ _ Hk Hc) as Hvc. pose proof (acyclic_sub _ _ _ Hac Hc) as Hacc.
      apply in_split in Hc. destruct Hc as (k1 & k2 & ->).
      apply dkids_split in Hk. destruct Hk as (e1 & e2 & -> & Hk1 & Hk2).
      inversion Hk2 as [| |m cpid crhs ckids r ks' Hcp _ Hk3 E1 E2]; subst c e2 ks'.
      apply (acyclic_height _ _ m []); try assumption.
      + change (lhs_of (pg_new_unchecked g) cpid = Nonterminal m). unfold lhs_of. rewrite Hcp. reflexivity.
      + constructor.
      + intros v [].
      + unfold Hmax. simpl length.
        change (yields (k1 ++ Sub (Node cpid ckids) :: k2) = input) in Hy.
        apply (f_equal byte_len) in Hy. rewrite yields_app in Hy.
        change (yields (Sub (Node cpid ckids) :: k2)) with (yield (Node cpid ckids) ++ yields k2) in Hy.
        rewrite !byte_len_app in Hy. nia.
    - apply andb_true_iff. split; [apply term_eqb_eq; exact Hl|apply str_eqb_eq; exact Hy].
  Qed.

  Lemma all_full_full x : In x all_full -> full pg input start x.
  Proof.
    intro H. apply in_map_iff in H. destruct H as (t & <- & H). apply filter_In in H. destruct H as [H1 H2].
    apply xenum_sound in H1. apply andb_true_iff in H2. destruct H2 as [H2 H3].
    apply term_eqb_eq in H2. apply str_eqb_eq in H3.
    inversion H1 as [pid l rhs kids Hp Hk E]; subst t. cbn in H2. unfold lhs_of in H2. rewrite Hp in H2. cbn in H2. subst l.
    split; [exists rhs; rewrite app_nil_r; split; [exact Hp|exact Hk]|]. split; [reflexivity|exact H3].
  Qed.

  Lemma reach_full l : (forall x, In x l -> full pg input start x) -> forall st gh d, Inv st gh d ->
    exists st' gh' d', adv pg input start st gh d st' gh' d' /\ Inv st' gh' d' /\
      forall x, In x l -> exists i, i < d' /\ nth_error gh' i = Some x.
  Proof.
    induction l as [|x l IH]; intros Hl st gh d HI.
    - exists st, gh, d. split; [constructor|]. split; [assumption|]. intros x [].
    - destruct (IH (fun y Hy => Hl y (or_intror Hy)) st gh d HI) as (st1 & gh1 & d1 & Ha1 & HI1 & Hall).
      pose proof (Hl x (or_introl eq_refl)) as Hf. pose proof (full_dvalid _ _ _ _ Hf) as (Hv & _ & Hy).
      destruct Hf as ((pre & Hp & Hk) & H0 & _). rewrite app_nil_r in Hp.
      destruct (reach_tree pg Hok input start (i_tree x) Hv st1 gh1 d1 0 HI1) as (st2 & gh2 & d2 & Ha2 & HI2 & Hin2).
      { cbn. eapply (inv_start _ _ _ _ _ _ HI1). exact Hp. }
      { rewrite Hy. exists [], []. rewrite app_nil_r. auto. }
      destruct (adv_fair_In pg Hok input start _ _ _ _ HI2 Hin2) as (st3 & gh3 & d3 & i & Ha3 & HI3 & Hi & Hni).
      exists st3, gh3, d3.
      split; [eapply adv_trans; [exact Ha1|]; eapply adv_trans; eassumption|]. split; [assumption|].
      assert (Ha13 : adv pg input start st1 gh1 d1 st3 gh3 d3) by (eapply adv_trans; eassumption).
      intros y [<-|Hy']. 
      + exists i. split; [assumption|]. rewrite Hni. destruct x as [pid s0 ks]. cbn in *. congruence.
      + destruct (Hall y Hy') as (j & Hj & Hnj). exists j. pose proof (adv_ext _ _ _ _ _ _ _ _ _ Ha13) as [_ Hd].
        split; [lia|]. eapply adv_nth; eassumption.
  Qed.

  (** ** Growing a parse *)
  Lemma occurs_big s s' n : dvalid s' -> lhs_of pg (root s') = lhs_of pg (root s) -> yield s' = yield s ->
    n <= tsize s' -> forall t, subtree s t -> dvalid t ->
    exists t', dvalid t' /\ lhs_of pg (root t') = lhs_of pg (root t) /\ yield t' = yield t /\ n <= tsize t'.
  Proof.
    intros Hv' Hl' Hy' Hs'. induction 1 as [s|s pid ks t Hin Ho IH]; intro Hv.
    - exists s'. auto.
    - inversion Hv as [? l rhs ? Hpid Hk]; subst pid0 kids.
      destruct (IH Hl' Hy' (dkids_Sub _ _ _ _ Hk Hin)) as (t' & V & L & Y & S).
      apply in_split in Hin. destruct Hin as (k1 & k2 & ->).
      apply dkids_split in Hk. destruct Hk as (e1 & e2 & -> & Hk1 & Hk2).
      exists (Node pid (k1 ++ Sub t' :: k2)). split; [|split; [reflexivity|split]].
      + econstructor; [exact Hpid|]. apply dkids_app; [assumption|].
        inversion Hk2 as [| |m cpid crhs ckids r ks' Hcp _ Hk3 E1 E2]; subst t e2 ks'.
        inversion V as [pid' l' rhs' kids' Hp' Hk' E']; subst t'. econstructor; [|exact V|exact Hk3].
        fold pg in Hcp. cbn in L. unfold lhs_of in L. rewrite Hp', Hcp in L. cbn in L. rewrite Hp', L. reflexivity.
      + change (yields (k1 ++ Sub t' :: k2) = yields (k1 ++ Sub t :: k2)). rewrite !yields_app. f_equal.
        change (yield t' ++ yields k2 = yield t ++ yields k2). rewrite Y. reflexivity.
      + rewrite !tsize_mid. lia.
  Qed.

  Lemma erase_occurs t : forall s, subtree s (erase pg t) -> exists ds, subtree ds t /\ erase pg ds = s.
  Proof.
    induction t as [pid kids IH] using tree_ind'. intros s Ho. rewrite erase_Node in Ho.
    inversion Ho as [|? l ks c Hin Ho' E1 E2]; subst.
    - exists (Node pid kids). split; [constructor|reflexivity].
    - apply in_map_iff in Hin. destruct Hin as ([?|c'] & E & Hin); [discriminate|]. injection E as <-.
      destruct (IH c' Hin s Ho') as (ds & H1 & H2). exists ds. split; [econstructor; eassumption|assumption].
  Qed.

  Lemma big_parses n : cycle_in_parse g start input -> exists t, parses g start input t /\ n <= tsize t.
  Proof.
    intros (t & s & a & (Hd & Hr & Hy) & Ho & Hs & Hc).
    destruct (derives_erase g pg Heq t Hd) as (dt & Hv & He).
    rewrite <- He in Ho. apply erase_occurs in Ho. destruct Ho as (ds & Ho & Hes).
    assert (Hvs : dvalid ds).
    { clear - Ho Hv. induction Ho as [|s l ks t Hin Ho IH]; [assumption|]. apply IH.
      inversion Hv; subst. eapply dkids_Sub; eassumption. }
    assert (Hls : lhs_of pg (root ds) = Nonterminal a) by (rewrite <- Hs, <- Hes; destruct ds; reflexivity).
    assert (Hg : generates g a (yield ds)) by (apply dvalid_generates; assumption).
    assert (Hgrow : forall k, exists t', dvalid t' /\ lhs_of pg (root t') = lhs_of pg (root dt) /\ yield t' = yield dt /\ k <= tsize t').
    { intro k. destruct (cycle_grow a (yield ds) Hc Hg (S (k + tsize ds))) as (s2 & V2 & L2 & Y2 & S2).
      destruct (occurs_big ds s2 k) with (t := dt) as (t' & H1 & H2 & H3 & H4); auto; try congruence; try lia.
      exists t'. auto. }
    destruct (Hgrow n) as (t' & H1 & H2 & H3 & H4). exists (erase pg t'). split; [|rewrite tsize_erase; assumption].
    split; [exact (erase_derives g pg Heq _ H1)|]. split.
    - rewrite <- Hr, <- He. destruct t', dt. exact H2.
    - rewrite yield_erase, H3, <- Hy, <- He, yield_erase. reflexivity.
  Qed.
End Exact.

(** The enumeration ends exactly when no live cycle exists. *)
Lemma not_ends_live g start input it ts it' :
  live_cycle g start input -> opens g start input it -> produces it ts it' -> ~ exhausted it'.
Proof.
  intros Hl Ho Hp (f & it2 & Hn). destruct (run_summary _ _ _ _ _ _ Ho Hp) as (st0 & gh & d & ids & Hpar & HI & _).
  destruct (pg_new_unchecked_ok g) as [Hok _]. destruct it' as [p st]; simpl in Hpar, HI. subst p.
  destruct (iter_next_spec _ Hok input start (mkGP st0 (pg_new_unchecked g)) eq_refl f st gh d HI)
    as [(E & _)|[(st' & new & E & Hq & HI' & _)|(st' & new & id & x & E & _)]]; rewrite E in Hn; try discriminate.
  exact (live_cycle_not_closed _ _ _ _ _ Hl HI').
Qed.

Lemma ends_iff g start input it : opens g start input it ->
  ((exists ts it', produces it ts it' /\ exhausted it') <-> ~ live_cycle g start input).
Proof.
  intro Ho. split.
  - intros (ts & it' & Hp & He) Hl. exact (not_ends_live _ _ _ _ _ _ Hl Ho Hp He).
  - intro Hn. exact (enumeration_ends_live _ _ _ _ Hn Ho).
Qed.

(** A cycle inside a parse: every call of [next] returns a tree. *)
Lemma endless g start input it ts it1 :
  cycle_in_parse g start input -> opens g start input it -> produces it ts it1 ->
  exists fuel t it2, iter_next fuel it1 = Ok (Some t, it2).
Proof.
  intros Hc Ho Hp. destruct (big_parses g input start (S (list_sum (map tsize ts))) Hc) as (t & Ht & Hs).
  assert (Hni : ~ In t ts).
  { intro Hin. apply (in_map tsize) in Hin. apply list_sum_le in Hin. lia. }
  destruct (completeness _ _ _ _ _ Ho Ht) as (ts2 & it2 & Hp2 & Hin).
  destruct (produces_linear _ _ _ Hp _ _ Hp2) as [(r & -> & Hr)|(r & -> & Hr)].
  - apply in_app_or in Hin. destruct Hin as [Hin|Hin]; [contradiction|].
    inversion Hr; subst; [destruct Hin|]. eauto.
  - exfalso. apply Hni. apply in_or_app; left; assumption.
Qed.

(** A live cycle, but not inside a parse: all parses are produced, then [next] never returns. *)
Lemma stuck g start input it :
  live_cycle g start input -> ~ cycle_in_parse g start input -> opens g start input it ->
  exists ts it1, produces it ts it1 /\ (forall t, In t ts <-> parses g start input t) /\ diverges it1.
Proof.
  intros Hl Hnc Ho. destruct (opens_Inv _ _ _ _ Ho) as (st0 & Hpar & gh & HI).
  set (pg := pg_new_unchecked g) in *. destruct (pg_new_unchecked_ok g) as [Hok Heq]. fold pg in Hok, Heq.
  destruct (reach_full g input start (all_full g input start) (all_full_full g input start) (it_state it) gh 0 HI)
    as (st' & gh' & d' & Ha & HI' & Hall).
  destruct (adv_produces_state pg input start (mkGP st0 pg) eq_refl _ _ _ _ _ _ Ha HI)
    as (ts & st1 & gh1 & d1 & Hprod & HI1 & Ha1 & Hno & _).
  destruct it as [p st]; simpl in Hpar, Hprod. subst p. exists ts, (mkI (mkGP st0 pg) st1). split; [exact Hprod|].
  assert (Hdiv : diverges (mkI (mkGP st0 pg) st1)).
  { intro fuel.
    destruct (iter_next_spec pg Hok input start (mkGP st0 pg) eq_refl fuel st1 gh1 d1 HI1)
      as [(E & _)|[(st2 & new & E & Hq & HI2 & _)|(st2 & new & id & x & E & HI2 & Hle & Hx & Hf & _)]]; [exact E|exfalso..].
    - apply (not_ends_live _ _ _ _ _ _ Hl Ho Hprod). exists fuel. eauto.
    - destruct (Hall x (all_full_spec g input start x Hnc Hf)) as (i & Hi & Hni).
      pose proof (adv_ext _ _ _ _ _ _ _ _ _ Ha1) as [[new1 ->] Hd].
      destruct (Nat.lt_ge_cases i d1) as [Hlt|Hge].
      + pose proof (Inv_le _ _ _ _ _ _ HI1) as Hle1.
        apply (nth_error_ext_lt gh1) in Hni; [|lia]. apply (nth_error_ext _ new) in Hni.
        pose proof (ti_nodup _ _ _ _ _ (inv_t _ _ _ _ _ _ HI2)) as Hnd.
        pose proof (nth_error_NoDup _ _ _ _ Hnd Hni Hx). lia.
      + apply (Hno i x); [lia|exact Hni|exact Hf]. }
  split; [|exact Hdiv]. intro t. split; [apply (soundness _ _ _ _ _ _ _ Ho Hprod)|].
  intro Ht. destruct (completeness _ _ _ _ _ Ho Ht) as (ts2 & it2 & Hp2 & Hin).
  destruct (produces_linear _ _ _ Hprod _ _ Hp2) as [(r & -> & Hr)|(r & -> & Hr)].
  - inversion Hr as [|? t0 it3 ? ? f Hn]; subst; [rewrite app_nil_r in Hin; assumption|].
    exfalso. rewrite (Hdiv f) in Hn. discriminate.
  - apply in_or_app; left; assumption.
Qed.

(** A cycle inside a parse is live. *)
Lemma occurs_predicted g start s t : subtree s t -> derives g t -> forall u w input,
  predicted g start (root t) u -> input = u ++ yield t ++ w ->
  derives g s /\ exists u' w', predicted g start (root s) u' /\ input = u' ++ yield s ++ w'.
Proof.
  induction 1 as [t|s l ks t Hin Ho IH]; intros Hd u w input Hpr E.
  - split; [assumption|]. eauto.
  - inversion Hd as [p rhs kids Hp Hr Hk E1]; subst l kids. apply in_split in Hin. destruct Hin as (k1 & k2 & ->).
    assert (Hsplit : exists e1 e2, rhs = e1 ++ e2 /\ kids_match g e1 k1 /\ kids_match g e2 (Sub t :: k2)).
    { clear - Hk. revert rhs Hk. induction k1 as [|k k1 IH]; intros rhs Hk.
      - exists [], rhs. repeat split; [constructor|assumption].
      - inversion Hk as [|a r ks H|n c r ks H1 H2 H]; subst; destruct (IH _ H) as (e1 & e2 & -> & A & B).
        + exists (Terminal a :: e1), e2. repeat split; [constructor|]; assumption.
        + exists (Nonterminal n :: e1), e2. repeat split; [constructor|]; assumption. }
    destruct Hsplit as (e1 & e2 & -> & Hk1 & Hk2).
    inversion Hk2 as [| |n c r ks Hroot Ht Hk3 E2 E3]; subst c e2 ks.
    apply (IH Ht (u ++ yields k1) (yields k2 ++ w)).
    + rewrite Hroot. eapply predicted_in; [exact Hpr|exact Hp|reflexivity|exact Hr|].
      destruct (kids_match_rewrites g _ _ Hk1) as (ss & H1 & H2);
        [intros c _ Hd' m Hm; apply derives_rewrites; assumption|].
      exists ss. split; [assumption|]. symmetry; exact H2.
    + rewrite E. change (yield (Node (p_lhs p) (k1 ++ Sub t :: k2))) with (yields (k1 ++ Sub t :: k2)).
      unfold yields. rewrite flat_map_app. cbn [flat_map yield_node]. rewrite <- !app_assoc. reflexivity.
Qed.

Lemma cycle_in_parse_live g start input : cycle_in_parse g start input -> live_cycle g start input.
Proof.
  intros (t & s & a & (Hd & Hr & Hy) & Ho & Hs & Hc).
  destruct (occurs_predicted g start s t Ho Hd [] [] input) as (Hds & u & w & Hpr & E).
  - rewrite Hr. constructor.
  - rewrite Hy. cbn. rewrite app_nil_r. reflexivity.
  - exists a, u, (yield s), w. split; [exact E|]. rewrite <- Hs. split; [exact Hpr|].
    split; [|exact Hc]. apply generates_parses. exists s. split; [exact Hds|]. split; [exact Hs|reflexivity].
Qed.
