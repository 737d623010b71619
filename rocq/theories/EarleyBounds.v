(** How many traversals the parser builds: a quadratic bound for uniquely matching grammars, an
    exponential lower bound in general, and the order of the completion vectors. *)
From Verif Require Export EarleyExact.
From Coq Require Import Relation_Operators.
From Coq Require String.
Import String.StringSyntax.

(** ** Uniquely matching grammars *)

(** No string is matched in two ways by the beginning of an alternative. *)
Definition uniquely_matching (g : grammar) : Prop :=
  NoDup (flat_prods g) /\
  forall p x y ks ks', In p g -> In (x ++ y) (p_rhs p) ->
    kids_match g x ks -> kids_match g x ks' -> yields ks = yields ks' -> ks = ks'.

(** Number of positions in alternatives, counting the one before the first term. *)
Definition grammar_size (g : grammar) : nat :=
  list_sum (map (fun pe => S (length (snd pe))) (flat_prods g)).

Definition traversal_bound (g : grammar) (input : str) : nat :=
  grammar_size g * ((byte_len input + 1) * (byte_len input + 1)).

Section Quadratic.
  Variable g : grammar.
  Variable input : str.
  Variable start : term.
  Let pg := pg_new_unchecked g.
  Let Hok : pg_ok pg := proj1 (pg_new_unchecked_ok g).
  Let Heq : pg_prods pg = flat_prods g := proj2 (pg_new_unchecked_ok g).
  Notation prods := (pg_prods pg).
  Hypothesis Hu : uniquely_matching g.

  Lemma erase_node_kids_inj ks : forall e ks' e', dkids pg e ks -> dkids pg e' ks' ->
    map (erase_node pg) ks = map (erase_node pg) ks' -> ks = ks'.
  Proof.
    induction ks as [|k ks IH]; intros e [|k' ks'] e' Hk Hk' E; cbn in E; try discriminate; [reflexivity|].
    injection E as E1 E2. f_equal.
    - destruct k as [s|t], k' as [s'|t']; cbn in E1; try discriminate; [congruence|].
      injection E1 as E1. f_equal. apply (erase_inj g pg Heq (proj1 Hu)); try assumption.
      + apply (dkids_Sub _ _ _ _ Hk). left; reflexivity.
      + apply (dkids_Sub _ _ _ _ Hk'). left; reflexivity.
    - inversion Hk; inversion Hk'; subst; eapply IH; eassumption.
  Qed.

  (** The cell of an item: production, position in the alternative, start and end. *)
  Definition cell (it : item) : nat * nat * (nat * nat) :=
    (i_pid it, length (i_kids it), (i_start it, i_end it)).

  Lemma cell_inj st gh d a b : Inv pg input start st gh d -> In a gh -> In b gh -> cell a = cell b -> a = b.
  Proof.
    intros HI Ha Hb E. pose proof (inv_t _ _ _ _ _ _ HI) as HT.
    assert (HX : forall x, In x gh -> (exists l un, iview pg x l un) /\ at_pos input (i_start x) (yields (i_kids x))).
    { intros x Hx. apply In_nth_error in Hx. destruct Hx as [i Hi].
      destruct (TInv_arena _ _ _ _ _ _ _ HT Hi) as (t & _ & R).
      destruct (tr_view _ _ _ _ _ _ _ R) as (l & Hv & _). split; [eauto|exact (tr_pos _ _ _ _ _ _ _ R)]. }
    destruct (HX a Ha) as [(l & un & pre & Hp & Hk) (u & w & E1 & P1)].
    destruct (HX b Hb) as [(l' & un' & pre' & Hp' & Hk') (u' & w' & E2 & P2)].
    destruct a as [pid s ks], b as [pid' s' ks']. unfold cell in E. unfold i_end in *. cbn [i_pid i_kids i_start] in *.
    injection E as <- El <- Ee. rewrite Hp in Hp'. injection Hp' as <- Er.
    assert (pre = pre').
    { pose proof (dkids_length _ _ _ Hk) as L1. pose proof (dkids_length _ _ _ Hk') as L2.
      assert (L : length pre = length pre') by congruence. clear - Er L. revert pre' Er L.
      induction pre as [|t pre IH]; intros [|t' pre'] Er L; try discriminate; [reflexivity|].
      injection Er as -> Er. injection L as L. f_equal. apply IH; assumption. }
    subst pre'.
    assert (Hy : yields ks = yields ks').
    { rewrite E1 in E2. assert (Eu : byte_len u = byte_len u') by congruence.
      apply app_byte_len_inj in E2; [|exact Eu]. destruct E2 as [_ E2].
      apply app_byte_len_inj in E2; [|lia]. apply E2. }
    f_equal. destruct (nth_prods g pg Heq _ _ _ Hp) as (p & H1 & H2 & H3).
    apply (erase_node_kids_inj _ pre _ pre Hk Hk').
    apply (proj2 Hu p pre un _ _ H1 H3).
    - apply (dkids_kids_match g). exact Hk.
    - apply (dkids_kids_match g). exact Hk'.
    - unfold pg. rewrite !(yields_erase g). exact Hy.
  Qed.

  Definition cells : list (nat * nat * (nat * nat)) :=
    flat_map (fun pid => flat_map (fun k => map (pair (pid, k))
        (list_prod (seq 0 (byte_len input + 1)) (seq 0 (byte_len input + 1))))
      (seq 0 (S (length (rhs_of g pid))))) (seq 0 (length prods)).

  Lemma cells_length : length cells = traversal_bound g input.
  Proof.
    unfold cells, traversal_bound, grammar_size. rewrite <- Heq.
    set (q := (byte_len input + 1) * (byte_len input + 1)).
    assert (Hin : forall (pid : nat) (n : list nat), length (flat_map (fun k : nat => map (pair (pid, k))
               (list_prod (seq 0 (byte_len input + 1)) (seq 0 (byte_len input + 1)))) n) = length n * q).
    { intros pid n. induction n as [|k n IH]; [reflexivity|]. cbn [flat_map length]. rewrite app_length, IH, map_length, prod_length, !seq_length. reflexivity. }
    assert (Hg : forall ps off, (forall k pe, nth_error ps k = Some pe -> nth_error prods (off + k) = Some pe) ->
      length (flat_map (fun pid => flat_map (fun k => map (pair (pid, k))
        (list_prod (seq 0 (byte_len input + 1)) (seq 0 (byte_len input + 1))))
        (seq 0 (S (length (rhs_of g pid))))) (seq off (length ps))) =
      list_sum (map (fun pe => S (length (snd pe))) ps) * q).
    { induction ps as [|[l e] ps IH]; intros off Hps; [reflexivity|].
      match goal with |- length (flat_map ?F _) = _ =>
        change (length (F off ++ flat_map F (seq (S off) (length ps))) =
                list_sum (map (fun pe : term * expression => S (length (snd pe))) ((l, e) :: ps)) * q) end.
      rewrite app_length, Hin, seq_length, IH.
      - unfold rhs_of. fold pg. specialize (Hps 0 (l, e) eq_refl). rewrite Nat.add_0_r in Hps. rewrite Hps.
        change (list_sum (map (fun pe => S (length (snd pe))) ((l, e) :: ps)))
          with (S (length e) + list_sum (map (fun pe : term * expression => S (length (snd pe))) ps)).
        rewrite Nat.mul_add_distr_r. reflexivity.
      - intros k pe Hk. rewrite Nat.add_succ_comm. apply Hps. exact Hk. }
    apply Hg. intros k pe Hk. exact Hk.
  Qed.

  Lemma quadratic_items st gh d : Inv pg input start st gh d -> length gh <= traversal_bound g input.
  Proof.
    intro HI. rewrite <- cells_length, <- (map_length cell gh). apply NoDup_incl_length.
    - pose proof (ti_nodup _ _ _ _ _ (inv_t _ _ _ _ _ _ HI)) as Hnd.
      assert (Hinj : forall a b, In a gh -> In b gh -> cell a = cell b -> a = b)
        by (intros; eapply cell_inj; eassumption).
      clear HI. induction Hnd as [|x l Hx Hnd IH]; [constructor|]. cbn [map]. constructor.
      + intro Hin. apply in_map_iff in Hin. destruct Hin as (y & E & Hy). apply Hinj in E; [|right; assumption|left; reflexivity].
        subst y. contradiction.
      + apply IH. intros a b Ha Hb. apply Hinj; right; assumption.
    - intros c Hc. apply in_map_iff in Hc. destruct Hc as (x & <- & Hx).
      apply In_nth_error in Hx. destruct Hx as [i Hi].
      destruct (TInv_arena _ _ _ _ _ _ _ (inv_t _ _ _ _ _ _ HI) Hi) as (t & _ & R).
      destruct (tr_view _ _ _ _ _ _ _ R) as (l & (pre & Hp & Hk) & _). pose proof (tr_pos _ _ _ _ _ _ _ R) as Hpos.
      pose proof (at_pos_bound _ _ _ Hpos) as Hb. unfold cell, cells.
      apply in_flat_map. exists (i_pid x). split; [apply in_seq; apply nth_error_lt in Hp; fold pg; lia|].
      apply in_flat_map. exists (length (i_kids x)).
      split; [apply in_seq; unfold rhs_of; fold pg; rewrite Hp, app_length, (dkids_length _ _ _ Hk); lia|].
      apply in_map. apply in_prod; apply in_seq; unfold i_end; lia.
  Qed.
End Quadratic.

Lemma quadratic g start input it ts it1 : uniquely_matching g -> opens g start input it -> produces it ts it1 ->
  length (tt_arena (s_tree (it_state it1))) <= traversal_bound g input /\
  exists r, iter_next (S (traversal_bound g input)) it1 = Ok r.
Proof.
  intros Hu Ho Hp. destruct (run_summary _ _ _ _ _ _ Ho Hp) as (st0 & gh & d & ids & Hpar & HI & _).
  destruct (pg_new_unchecked_ok g) as [Hok _]. destruct it1 as [p st]; simpl in Hpar, HI |- *. subst p. split.
  - rewrite (ti_len _ _ _ _ _ (inv_t _ _ _ _ _ _ HI)). eapply quadratic_items; eassumption.
  - destruct (iter_next_spec _ Hok input start (mkGP st0 (pg_new_unchecked g)) eq_refl (S (traversal_bound g input)) st gh d HI)
      as [(E & st' & new & HI' & _)|[(st' & new & E & _)|(st' & new & id & x & E & _)]]; [exfalso|eauto|eauto].
    pose proof (Inv_le _ _ _ _ _ _ HI') as H1. pose proof (quadratic_items g input start Hu _ _ _ HI') as H2. lia.
Qed.

(** ** An exponential lower bound *)

(** <t> ::= <t> <a> | <t> <b> | ''     <a> ::= 'x'     <b> ::= 'x' *)
Definition fork_grammar : grammar :=
  [mkProd (Nonterminal (lit "t")) [[Nonterminal (lit "t"); Nonterminal (lit "a")];
                                   [Nonterminal (lit "t"); Nonterminal (lit "b")]; [Terminal (lit "")]];
   mkProd (Nonterminal (lit "a")) [[Terminal (lit "x")]];
   mkProd (Nonterminal (lit "b")) [[Terminal (lit "x")]]].

Definition xs (n : nat) : str := repeat 120%N n.

Fixpoint fork_tree (v : list bool) : dtree :=
  match v with
  | [] => Node 2 [Leaf (lit "")]
  | b :: v => Node (if b then 1 else 0) [Sub (fork_tree v); Sub (Node (if b then 4 else 3) [Leaf (lit "x")])]
  end.
Definition fork_item (v : list bool) : item :=
  mkItem (root (fork_tree v)) 0 (match fork_tree v with Node _ ks => ks end).

Fixpoint vectors (n : nat) : list (list bool) :=
  match n with 0 => [[]] | S n => map (cons true) (vectors n) ++ map (cons false) (vectors n) end.

Lemma vectors_length n : length (vectors n) = 2 ^ n.
Proof. induction n; simpl; [reflexivity|]. rewrite app_length, !map_length. lia. Qed.
Lemma vectors_NoDup n : NoDup (vectors n).
Proof.
  induction n as [|n IH]; [repeat constructor; intros []|]. cbn [vectors].
  assert (H : forall b, NoDup (map (cons b) (vectors n)))
    by (intro b; apply FinFun.Injective_map_NoDup; [intros x y E; congruence|assumption]).
  assert (HN : forall l l' : list (list bool), NoDup l -> NoDup l' -> (forall x, In x l -> ~ In x l') -> NoDup (l ++ l')).
  { intros l l' H1 H2 H3. induction H1 as [|x l Hx H1 IH1]; [assumption|]. cbn. constructor.
    - rewrite in_app_iff. intros [Hi|Hi]; [contradiction|]. apply (H3 x); [left; reflexivity|assumption].
    - apply IH1. intros y Hy. apply H3. right; assumption. }
  apply HN; [apply H..|]. intros x H1 H2. apply in_map_iff in H1, H2.
  destruct H1 as (y & <- & _), H2 as (z & E & _). discriminate.
Qed.
Lemma vectors_In n v : In v (vectors n) -> length v = n.
Proof.
  revert v; induction n as [|n IH]; cbn [vectors]; intros v H.
  - destruct H as [<-|[]]. reflexivity.
  - apply in_app_or in H. destruct H as [H|H]; apply in_map_iff in H; destruct H as (y & <- & H); cbn; f_equal; auto.
Qed.

Notation fpg := (pg_new_unchecked fork_grammar).

Lemma fork_tree_valid v : dvalid fpg (fork_tree v) /\
  exists pid kids rhs, fork_tree v = Node pid kids /\
    nth_error (pg_prods fpg) pid = Some (Nonterminal (lit "t"), rhs) /\ dkids fpg rhs kids.
Proof.
  induction v as [|b v [IH (pid & kids & rhs & E & Hp & Hk)]]; cbn [fork_tree].
  - assert (Hk : dkids fpg [Terminal (lit "")] [Leaf (lit "")]) by (constructor; constructor).
    split; [econstructor; [reflexivity|exact Hk]|]. eexists _, _, _. split; [reflexivity|]. split; [reflexivity|exact Hk].
  - assert (Hk' : dkids fpg [Nonterminal (lit "t"); Nonterminal (if b then lit "b" else lit "a")]
                    [Sub (fork_tree v); Sub (Node (if b then 4 else 3) [Leaf (lit "x")])]).
    { rewrite E in *. econstructor; [exact Hp|exact IH|].
      destruct b; (eapply (dk_nt _ _ _ [Terminal (lit "x")]); [reflexivity| |constructor];
        econstructor; [reflexivity|constructor; constructor]). }
    destruct b; (split; [econstructor; [reflexivity|exact Hk']|]); eexists _, _, _; (split; [reflexivity|]);
      (split; [reflexivity|exact Hk']).
Qed.

Lemma fork_yield v : yield (fork_tree v) = xs (length v).
Proof.
  induction v as [|b v IH]; [reflexivity|]. cbn [fork_tree].
  change (yield (fork_tree v) ++ [120%N] = xs (S (length v))). rewrite IH. unfold xs. cbn [repeat].
  rewrite <- repeat_cons. reflexivity.
Qed.

Lemma fork_tree_inj a : forall b, fork_tree a = fork_tree b -> a = b.
Proof.
  induction a as [|x a IH]; intros [|y b] E; cbn in E; try discriminate; try (destruct x; discriminate);
    try (destruct y; discriminate); [reflexivity|].
  injection E as E1 E2 _. f_equal; [destruct x, y; congruence|]. apply IH; assumption.
Qed.
Lemma fork_item_inj a b : fork_item a = fork_item b -> a = b.
Proof.
  intro E. apply fork_tree_inj. unfold fork_item in E. injection E as E1 E2.
  destruct (fork_tree a), (fork_tree b). cbn in *. congruence.
Qed.

(** With an empty queue, all the trees for every prefix have been built. *)
Lemma fork_items st gh n rest : Inv fpg (xs n ++ rest) (Nonterminal (lit "t")) st gh (length gh) -> 2 ^ n <= length gh.
Proof.
  intro HI. rewrite <- vectors_length, <- (map_length fork_item). apply NoDup_incl_length.
  - apply FinFun.Injective_map_NoDup; [intros a b; apply fork_item_inj|apply vectors_NoDup].
  - intros x Hx. apply in_map_iff in Hx. destruct Hx as (v & <- & Hv). apply vectors_In in Hv.
    destruct (fork_tree_valid v) as [Hval (pid & kids & rhs & E & Hp & _)].
    apply (closed_tree fork_grammar _ _ _ _ HI (fork_tree v) 0 Hval).
    + rewrite E. cbn [root]. eapply (inv_start _ _ _ _ _ _ HI). exact Hp.
    + exists [], rest. rewrite fork_yield, Hv. split; reflexivity.
Qed.

(** Each unit of fuel is one iteration of the loop; an empty queue means all were processed. *)
Lemma earley_none_bound pg (Hok : pg_ok pg) input start f : forall st gh d st', Inv pg input start st gh d ->
  earley f pg st = Ok (None, st') ->
  exists gh', Inv pg input start st' gh' (length gh') /\ S (length gh') <= d + f.
Proof.
  induction f as [|f IH]; intros st gh d st' HI E; cbn [earley] in E; [discriminate|].
  destruct (q_queue (s_queue st)) as [|id rest] eqn:Eq.
  - injection E as <-. pose proof (queue_nil _ _ _ _ _ _ HI Eq) as ->. exists gh. split; [assumption|lia].
  - destruct (process_inv pg Hok input start st gh d id rest HI Eq)
      as (-> & it & Hit & found & st1 & new1 & E1 & HI1 & Hf).
    rewrite E1, rbind_Ok in E. destruct Hf as [[-> _]|[-> _]]; [discriminate|].
    destruct (IH st1 _ (S d) st' HI1 E) as (gh' & H1 & H2). exists gh'. split; [assumption|lia].
Qed.


Lemma exponential_rejection n it f o it' :
  opens fork_grammar (Nonterminal (lit "t")) (xs n ++ lit "y") it -> iter_next f it = Ok (o, it') ->
  o = None /\ 2 ^ n < f /\ 2 ^ n <= length (tt_arena (s_tree (it_state it'))).
Proof.
  intros Ho Hn. assert (o = None).
  { destruct o as [t|]; [exfalso|reflexivity].
    assert (Hs : parses fork_grammar (Nonterminal (lit "t")) (xs n ++ lit "y") t).
    { apply (soundness _ _ _ _ [t] _ _ Ho (produces_next _ _ _ _ _ _ Hn (produces_nil _))). left; reflexivity. }
    destruct Hs as (Hd & _ & Hy).
    assert (Hx : forall t, derives fork_grammar t -> forall c, In c (yield t) -> c = 120%N).
    { clear. intro t. induction t as [l kids IH] using tree_ind'. intros Hd c Hc.
      inversion Hd as [p rhs ks Hp Hr Hk E]; subst.
      assert (Hrhs : forall s, In (Terminal s) rhs -> forall c, In c s -> c = 120%N).
      { intros s Hs c0 Hc0.
        assert (Hb : forallb (fun p => forallb (fun e => forallb (fun t =>
          match t with Terminal s => forallb (N.eqb 120) s | _ => true end) e) (p_rhs p)) fork_grammar = true)
          by reflexivity.
        rewrite forallb_forall in Hb. specialize (Hb p Hp). rewrite forallb_forall in Hb. specialize (Hb rhs Hr).
        rewrite forallb_forall in Hb. specialize (Hb _ Hs). cbn in Hb. rewrite forallb_forall in Hb.
        specialize (Hb _ Hc0). apply N.eqb_eq in Hb. congruence. }
      clear Hd Hr Hp. change (In c (yields kids)) in Hc.
      induction Hk as [|s r ks Hk IHk|m t r ks Hroot Ht Hk IHk]; [destruct Hc|..];
        unfold yields in Hc; cbn [flat_map yield_node] in Hc; apply in_app_or in Hc; destruct Hc as [Hc|Hc].
      - eapply Hrhs; [left; reflexivity|exact Hc].
      - apply IHk; [intros; eapply IH; [right|..]; eassumption|exact Hc|intros; eapply Hrhs; [right|]; eassumption].
      - eapply IH; [left; reflexivity|exact Ht|exact Hc].
      - apply IHk; [intros; eapply IH; [right|..]; eassumption|exact Hc|intros; eapply Hrhs; [right|]; eassumption]. }
    assert (Hc : 121%N = 120%N); [|discriminate].
    apply (Hx t Hd). rewrite Hy. apply in_or_app; right. left; reflexivity. }
  subst o. split; [reflexivity|].
  destruct (opens_Inv _ _ _ _ Ho) as (st0 & Hpar & gh & HI).
  destruct (pg_new_unchecked_ok fork_grammar) as [Hok _]. destruct it as [p st]; simpl in Hpar, HI. subst p.
  unfold iter_next in Hn. cbn [it_parser it_state gp_pg] in Hn.
  destruct (earley f fpg st) as [[[id|] st']| |] eqn:E; cbn [rbind] in Hn; try discriminate.
  - destruct (parse_tree _ _ _ id); discriminate.
  - injection Hn as <-. cbn [it_state].
    destruct (earley_none_bound fpg Hok _ _ f st gh 0 st' HI E) as (gh' & HI' & Hle).
    pose proof (fork_items _ _ _ _ HI') as H2. rewrite (ti_len _ _ _ _ _ (inv_t _ _ _ _ _ _ HI')). lia.
Qed.

(** ** The completion vectors *)

(** What the documentation of [slice::binary_search] promises on a sorted slice. *)
Inductive bsearch_result : Type := Found (i : nat) | Insert (i : nat).
Definition bsearch_contract (v : list nat) (x : nat) (r : bsearch_result) : Prop :=
  match r with
  | Found i => nth_error v i = Some x
  | Insert i => ~ In x v /\ i <= length v /\
      (forall j y, nth_error v j = Some y -> (j < i -> y <= x) /\ (i <= j -> x <= y))
  end.
Definition apply_bsearch (v : list nat) (x : nat) (r : bsearch_result) : list nat :=
  match r with Found _ => v | Insert i => firstn i v ++ x :: skipn i v end.

Lemma sorted_vec_insert_contract v x r : StronglySorted lt v -> bsearch_contract v x r ->
  sorted_vec_insert v x = apply_bsearch v x r.
Proof.
  intros Hs Hr. destruct r as [i|i]; cbn [apply_bsearch bsearch_contract] in *.
  - apply nth_error_In in Hr. induction Hs as [|z v Hs IH Hz]; [destruct Hr|]. simpl.
    destruct (Nat.eqb_spec x z) as [->|Hne]; [reflexivity|]. destruct Hr as [->|Hr]; [congruence|].
    rewrite Forall_forall in Hz. pose proof (Hz x Hr) as Hlt. simpl in Hlt.
    destruct (Nat.ltb_spec x z); [lia|]. f_equal. auto.
  - destruct Hr as (Hni & Hi & Hr). revert i Hi Hr.
    induction Hs as [|z v Hs IH Hz]; intros i Hi Hr.
    + destruct i; reflexivity.
    + simpl. destruct (Nat.eqb_spec x z) as [->|Hne]; [exfalso; apply Hni; left; reflexivity|].
      destruct (Nat.ltb_spec x z) as [Hlt|Hge].
      * destruct i as [|i]; [reflexivity|]. pose proof (proj1 (Hr 0 z eq_refl)). lia.
      * destruct i as [|i]; [pose proof (proj2 (Hr 0 z eq_refl)); lia|]. simpl. f_equal. apply IH.
        -- intro H. apply Hni. right; assumption.
        -- simpl in Hi. lia.
        -- intros j y Hj. specialize (Hr (S j) y Hj). split; intro; apply Hr; lia.
Qed.

Lemma vectors_sorted g start input it ts it1 k : opens g start input it -> produces it ts it1 ->
  StronglySorted lt (cm_lookup (cm_incomplete (s_comp (it_state it1))) k) /\
  StronglySorted lt (cm_lookup (cm_complete (s_comp (it_state it1))) k).
Proof.
  intros Ho Hp. destruct (run_summary _ _ _ _ _ _ Ho Hp) as (st0 & gh & d & ids & Hpar & HI & _).
  exact (inv_sorted _ _ _ _ _ _ HI k).
Qed.

(** Within the loop, the id inserted is larger than all those present. *)
Lemma sorted_vec_insert_last v x : (forall y, In y v -> y < x) -> sorted_vec_insert v x = v ++ [x].
Proof.
  induction v as [|z v IH]; simpl; intro H; [reflexivity|].
  pose proof (H z (or_introl eq_refl)). destruct (Nat.eqb_spec x z); [lia|]. destruct (Nat.ltb_spec x z); [lia|].
  f_equal. apply IH. intros; apply H; right; assumption.
Qed.

(** The run does end: the grammar has no cycle. *)
Lemma fork_not_nullable n : n = lit "a" \/ n = lit "b" -> ~ nullable fork_grammar [Nonterminal n].
Proof.
  intros Hn (ss & H & Hc). destruct (rewrites_kids _ _ _ H ss eq_refl) as (ks & Hk & Hy).
  rewrite Hc in Hy. inversion Hk as [| |n' t r ks' Hroot Ht Hk' E1 E2]; subst.
  inversion Ht as [p rhs kids Hp Hr Hkk E]; subst. cbn [root] in Hroot.
  unfold yields in Hy. cbn [flat_map yield_node yield] in Hy. apply app_eq_nil in Hy. destruct Hy as [Hy _].
  destruct Hp as [<-|[<-|[<-|[]]]]; cbn [p_lhs p_rhs] in Hroot, Hr.
  - injection Hroot as <-. destruct Hn as [Hn|Hn]; discriminate.
  - destruct Hr as [<-|[]]. inversion Hkk; subst. discriminate.
  - destruct Hr as [<-|[]]. inversion Hkk; subst. discriminate.
Qed.


Lemma fork_acyclic : ~ cyclic fork_grammar.
Proof.
  assert (Hstep : forall x y, unit_step fork_grammar x y -> x = lit "t" /\ (y = lit "a" \/ y = lit "b")).
  { intros x y (p & u & v & Hp & Hl & Hr & Hu & Hv). destruct Hp as [<-|[<-|[<-|[]]]]; cbn [p_lhs p_rhs] in Hl, Hr.
    - injection Hl as <-. split; [reflexivity|].
      destruct Hr as [E|[E|[E|[]]]]; destruct u as [|u0 [|u1 u]]; cbn [app] in E; try discriminate.
      + injection E as <- <-. exfalso. eapply fork_not_nullable; [left; reflexivity|exact Hv].
      + injection E as _ <- _. auto.
      + injection E as _ _ E. destruct u; discriminate.
      + injection E as <- <-. exfalso. eapply fork_not_nullable; [right; reflexivity|exact Hv].
      + injection E as _ <- _. auto.
      + injection E as _ _ E. destruct u; discriminate.
    - destruct Hr as [E|[]]. destruct u as [|u0 [|u1 u]]; discriminate.
    - destruct Hr as [E|[]]. destruct u as [|u0 [|u1 u]]; discriminate. }
  intros (x & H).
  assert (Hall : forall x y, clos_trans str (unit_step fork_grammar) x y -> x = lit "t" /\ (y = lit "a" \/ y = lit "b")).
  { induction 1 as [? ? H0|? ? ? _ [-> _] _ [Hy Hz]]; [apply Hstep; assumption|]. split; [reflexivity|assumption]. }
  apply Hall in H. destruct H as [-> [E|E]]; discriminate.
Qed.

Lemma fork_returns n it : opens fork_grammar (Nonterminal (lit "t")) (xs n ++ lit "y") it ->
  exists f it', iter_next f it = Ok (None, it').
Proof.
  intro Ho. destruct (every_next_returns _ _ _ _ [] it fork_acyclic Ho (produces_nil it)) as (f & [o it'] & E).
  exists f, it'. destruct (exponential_rejection _ _ _ _ _ Ho E) as [-> _]. exact E.
Qed.
