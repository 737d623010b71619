(** The last steps to C84. *)
From Verif Require Export AmbiguityProofs Facts_Linear.
From Coq Require Import Lia Relation_Operators.
From Coq Require String.
Import String.StringSyntax.

Lemma C84_quadratic_proof : forall g start input it ts it1,
  unambiguous g start -> fruitful g start -> NoDup (flat_prods g) -> opens g start input it -> produces it ts it1 ->
  length ts <= 1 /\ length (tt_arena (s_tree (it_state it1))) <= quadratic_bound g input /\
  exists r, iter_next (S (quadratic_bound g input)) it1 = Ok r.
Proof.
  intros g start input it ts it1 Hu Hf Hnd Ho Hp. split.
  - apply one_of_same; [eapply no_duplicates; eassumption|]. intros x y Hx Hy. eapply Hu; eapply soundness; eassumption.
  - apply (bounded_work g start input _ it ts it1 Hnd); [|exact Ho|exact Hp]. intros l H1 H2. eapply unambiguous_partial; eassumption.
Qed.

(** ** The grammar of the README is such a grammar *)

Lemma dna_unambiguous : unambiguous dna_grammar (N_ "dna").
Proof.
  intros input t t' H H'. apply C83_dna_trees_proof in H, H'. destruct H as (c & w & -> & _ & ->). destruct H' as (c' & w' & E & _ & ->).
  injection E as -> ->. reflexivity.
Qed.

Lemma dna_fruitful : fruitful dna_grammar (N_ "dna").
Proof.
  assert (H : forall l, reachable dna_grammar (N_ "dna") l -> l = N_ "dna" \/ l = N_ "base").
  { induction 1 as [|l e n Hl IH He Hn]; [left; reflexivity|]. destruct IH as [->| ->]; cbn in He.
    - destruct He as [<-|[<-|[]]]; [destruct Hn as [Hn|[]]; right; symmetry; exact Hn|].
      destruct Hn as [Hn|[Hn|[]]]; [right|left]; symmetry; exact Hn.
    - destruct He as [<-|[<-|[<-|[<-|[]]]]]; destruct Hn as [Hn|[]]; discriminate. }
  assert (Hb : derives dna_grammar (Node (N_ "base") [Leaf (lit "A")])) by (apply dna_base_derives; left; reflexivity).
  intros n Hn. destruct (H _ Hn) as [E|E]; injection E as ->; exists (lit "A"); apply generates_parses.
  - exists (dna_tree 65%N []). apply C83_dna_trees_proof. exists 65%N, []. repeat split. constructor; [left; reflexivity|constructor].
  - eexists. split; [exact Hb|]. split; reflexivity.
Qed.

(** ** Nonterminals without strings *)

(** <s> ::= <t> <u>, <u> ::= 'z' <u>, and [fork_grammar]: no string at all. *)
Definition blind_grammar : grammar := mkProd (N_ "s") [[N_ "t"; N_ "u"]] :: mkProd (N_ "u") [[T_ "z"; N_ "u"]] :: fork_grammar.

Lemma blind_u t : derives blind_grammar t -> root t <> N_ "u".
Proof.
  induction t as [l kids IH] using tree_ind'. intros Hd Hr. inversion Hd as [p rhs ks Hp Hrhs Hk E1]; subst. cbn [root] in Hr.
  destruct Hp as [<-|[<-|[<-|[<-|[<-|[]]]]]]; try discriminate Hr. destruct Hrhs as [<-|[]].
  inversion Hk as [|s r k1 Hk1|]; subst. inversion Hk1 as [| |n c r k2 Hroot Hc Hk2]; subst.
  apply (IH c); [right; left; reflexivity|exact Hc|exact Hroot].
Qed.

Lemma blind_none input t : ~ parses blind_grammar (N_ "s") input t.
Proof.
  intros (Hd & Hr & _). inversion Hd as [p rhs ks Hp Hrhs Hk E1]; subst. cbn [root] in Hr.
  destruct Hp as [<-|[<-|[<-|[<-|[<-|[]]]]]]; try discriminate Hr. destruct Hrhs as [<-|[]].
  inversion Hk as [| |n c r k1 Hroot Hc Hk1]; subst. inversion Hk1 as [| |n2 c2 r2 k2 Hroot2 Hc2 Hk2]; subst.
  exact (blind_u c2 Hc2 Hroot2).
Qed.

Lemma blind_nullable x : In x [lit "a"; lit "b"; lit "u"] -> ~ nullable blind_grammar [Nonterminal x].
Proof.
  intros Hx (ss & Hs & Hn). destruct (rewrites_kids _ _ _ Hs ss eq_refl) as (ks & Hk & Hy). rewrite Hn in Hy.
  inversion Hk as [| |n c r k1 Hroot Hc Hk1]; subst. inversion Hk1; subst. inversion Hc as [p rhs k Hp Hrhs Hk2 E1]; subst. cbn [root] in Hroot.
  destruct Hx as [<-|[<-|[<-|[]]]].
  - destruct Hp as [<-|[<-|[<-|[<-|[<-|[]]]]]]; try discriminate Hroot. destruct Hrhs as [<-|[]]. inversion Hk2; subst. discriminate Hy.
  - destruct Hp as [<-|[<-|[<-|[<-|[<-|[]]]]]]; try discriminate Hroot. destruct Hrhs as [<-|[]]. inversion Hk2; subst. discriminate Hy.
  - apply (blind_u _ Hc). exact Hroot.
Qed.

Lemma blind_acyclic : ~ cyclic blind_grammar.
Proof.
  assert (Hz : forall r, ~ nullable blind_grammar (T_ "z" :: r)).
  { intros r (ss & Hs & Hn). destruct (rewrites_kids _ _ _ Hs ss eq_refl) as (ks & Hk & Hy). rewrite Hn in Hy. inversion Hk; subst. discriminate Hy. }
  assert (Hstep : forall x y, unit_step blind_grammar x y -> (x = lit "s" /\ y = lit "u") \/ (x = lit "t" /\ (y = lit "a" \/ y = lit "b"))).
  { intros x y (p & u & v & Hp & Hl & Hr & Hu & Hv). destruct Hp as [<-|[<-|[<-|[<-|[<-|[]]]]]]; cbn [p_lhs p_rhs] in Hl, Hr.
    - left. injection Hl as <-. split; [reflexivity|]. destruct Hr as [E|[]]. destruct u as [|u0 [|u1 u]]; cbn [app] in E.
      + injection E as <- <-. exfalso. apply (blind_nullable (lit "u")); [right; right; left; reflexivity|exact Hv].
      + injection E as _ <- _. reflexivity.
      + injection E as _ _ E. destruct u; discriminate.
    - exfalso. destruct Hr as [E|[]]. destruct u as [|u0 u]; cbn [app] in E; [discriminate|]. injection E as <- E. exact (Hz u Hu).
    - right. injection Hl as <-. split; [reflexivity|].
      destruct Hr as [E|[E|[E|[]]]]; destruct u as [|u0 [|u1 u]]; cbn [app] in E; try discriminate.
      + injection E as <- <-. exfalso. apply (blind_nullable (lit "a")); [left; reflexivity|exact Hv].
      + injection E as _ <- _. auto.
      + injection E as _ _ E. destruct u; discriminate.
      + injection E as <- <-. exfalso. apply (blind_nullable (lit "b")); [right; left; reflexivity|exact Hv].
      + injection E as _ <- _. auto.
      + injection E as _ _ E. destruct u; discriminate.
    - exfalso. destruct Hr as [E|[]]. destruct u as [|u0 [|u1 u]]; discriminate.
    - exfalso. destruct Hr as [E|[]]. destruct u as [|u0 [|u1 u]]; discriminate. }
  intros (x & H).
  assert (Hall : forall x y, clos_trans str (unit_step blind_grammar) x y -> (x = lit "s" /\ y = lit "u") \/ (x = lit "t" /\ (y = lit "a" \/ y = lit "b"))).
  { induction 1 as [? ? H0|? y ? _ IH1 _ IH2]; [apply Hstep; assumption|]. destruct IH1 as [[_ ->]|[_ [->| ->]]]; destruct IH2 as [[E _]|[E _]]; discriminate. }
  apply Hall in H. destruct H as [[-> E]|[-> [E|E]]]; discriminate.
Qed.

(** The trees of <t>, one for each vector, with the labels of the productions. *)
Fixpoint fork_kids (v : list bool) : list pnode :=
  match v with
  | [] => [Leaf []]
  | b :: v => [Sub (Node (N_ "t") (fork_kids v)); Sub (Node (if b then N_ "b" else N_ "a") [Leaf (lit "x")])]
  end.
Definition fork_rhs (v : list bool) : expression :=
  match v with [] => [T_ ""] | b :: _ => [N_ "t"; if b then N_ "b" else N_ "a"] end.

Definition fork_rule : production := mkProd (N_ "t") [[N_ "t"; N_ "a"]; [N_ "t"; N_ "b"]; [T_ ""]].
Lemma fork_rule_in : In fork_rule blind_grammar.
Proof. right. right. left. reflexivity. Qed.
Lemma fork_rhs_in v : In (fork_rhs v) (p_rhs fork_rule).
Proof. destruct v as [|[] v]; cbn; auto. Qed.

Lemma blind_kids v : kids_match blind_grammar (fork_rhs v) (fork_kids v).
Proof.
  induction v as [|b v IH]; [repeat constructor|]. cbn [fork_rhs fork_kids]. apply km_nt; [reflexivity| |].
  - apply (derives_node blind_grammar fork_rule (fork_rhs v)); [exact fork_rule_in|apply fork_rhs_in|exact IH].
  - assert (H : derives blind_grammar (Node (if b then N_ "b" else N_ "a") [Leaf (lit "x")])).
    { destruct b.
      - apply (derives_node blind_grammar (mkProd (N_ "b") [[T_ "x"]]) [T_ "x"]); [cbn; auto 6|left; reflexivity|repeat constructor].
      - apply (derives_node blind_grammar (mkProd (N_ "a") [[T_ "x"]]) [T_ "x"]); [cbn; auto 6|left; reflexivity|repeat constructor]. }
    destruct b; (apply km_nt; [reflexivity|exact H|constructor]).
Qed.

Lemma blind_yields v : flat_map yield_node (fork_kids v) = xs (length v).
Proof.
  induction v as [|b v IH]; [reflexivity|]. cbn [fork_kids].
  change (flat_map yield_node (fork_kids v) ++ [120%N] = xs (S (length v))). rewrite IH. unfold xs. cbn [repeat].
  rewrite <- repeat_cons. reflexivity.
Qed.

Lemma fork_kids_inj a : forall b, fork_kids a = fork_kids b -> a = b.
Proof.
  induction a as [|x a IH]; intros [|y b] E; cbn in E; try discriminate; [reflexivity|].
  injection E as E1 E2. f_equal; [destruct x, y; try reflexivity; discriminate|]. apply IH; assumption.
Qed.

Lemma blind_partial n v : length v = n -> partial_parse blind_grammar (N_ "s") (xs n) (N_ "t", fork_rhs v, [], fork_kids v).
Proof.
  intro Hv. split; [|split].
  - apply (in_flat blind_grammar fork_rule (fork_rhs v)); [exact fork_rule_in|apply fork_rhs_in].
  - apply (predicted_in blind_grammar (N_ "s") (N_ "s") [] (mkProd (N_ "s") [[N_ "t"; N_ "u"]]) [] (lit "t") [N_ "u"] []).
    + constructor.
    + left. reflexivity.
    + reflexivity.
    + left. reflexivity.
    + exists []. split; [constructor|reflexivity].
  - exists (fork_rhs v), [], []. rewrite !app_nil_r. split; [reflexivity|]. split; [apply blind_kids|]. rewrite blind_yields, Hv. reflexivity.
Qed.

Lemma blind_nodup : NoDup (flat_prods blind_grammar).
Proof. cbn. repeat constructor; cbn; intuition discriminate. Qed.

Lemma blind_work n it f o it' : opens blind_grammar (N_ "s") (xs n) it -> iter_next f it = Ok (o, it') ->
  o = None /\ 2 ^ n <= length (tt_arena (s_tree (it_state it'))).
Proof.
  intros Ho En. assert (o = None) as ->.
  { destruct o as [t|]; [exfalso|reflexivity]. apply (blind_none (xs n) t).
    apply (soundness _ _ _ _ [t] _ _ Ho (produces_next _ _ _ _ _ _ En (produces_nil _))). left. reflexivity. }
  split; [reflexivity|].
  destruct (work_exact _ _ _ it [] it f it' blind_nodup Ho (produces_nil it) En) as (F & Hnd & HF & ->).
  set (w := fun v => (N_ "t", fork_rhs v, @nil char, fork_kids v)). rewrite <- vectors_length, <- (map_length w). apply NoDup_incl_length.
  - apply FinFun.Injective_map_NoDup; [|apply vectors_NoDup]. intros a b E. injection E as _ E. apply fork_kids_inj, E.
  - intros x Hx. apply in_map_iff in Hx. destruct Hx as (v & <- & Hv). apply HF. apply blind_partial, vectors_In, Hv.
Qed.

Lemma C84_fruitful_needed_proof : exists g start, unambiguous g start /\ ~ cyclic g /\ NoDup (flat_prods g) /\ forall n,
  let input := repeat 120%N n in
  (exists it, opens g start input it) /\
  forall it, opens g start input it ->
    (exists f it', iter_next f it = Ok (None, it')) /\
    forall f o it', iter_next f it = Ok (o, it') -> o = None /\ 2 ^ n <= length (tt_arena (s_tree (it_state it'))).
Proof.
  exists blind_grammar, (N_ "s"). split; [intros input t t' H; destruct (blind_none _ _ H)|]. split; [exact blind_acyclic|]. split; [exact blind_nodup|].
  intros n input. split.
  - destruct (opens_deprecated_ok blind_grammar input (N_ "s")) as [_ H]. destruct H as [_ [it H]]; [discriminate|].
    exists it. apply opens_deprecated_with. exact H.
  - intros it Ho. split; [|intros f o it' E; exact (blind_work n it f o it' Ho E)].
    destruct (every_next_returns _ _ _ _ [] it blind_acyclic Ho (produces_nil it)) as (f & [o it'] & E).
    exists f, it'. destruct (blind_work _ _ _ _ _ Ho E) as [-> _]. exact E.
Qed.

Lemma C84_square_attained_proof : exists g start, unambiguous g start /\ fruitful g start /\ NoDup (flat_prods g) /\ forall n,
  let input := repeat 65%N (S n) in
  exists it ts it1 f it2, opens g start input it /\ produces it ts it1 /\ iter_next f it1 = Ok (None, it2) /\
    S n * n <= 2 * length (tt_arena (s_tree (it_state it2))).
Proof.
  exists dna_grammar, (N_ "dna"). split; [exact dna_unambiguous|]. split; [exact dna_fruitful|]. split; [exact dna_nodup|].
  intros n input. assert (Hl : Forall dna_letter input) by (apply Forall_forall; intros c Hc; apply repeat_spec in Hc; subst; left; reflexivity).
  destruct (opens_deprecated_ok dna_grammar input (N_ "dna")) as [_ H]. destruct H as [_ [it H]]; [discriminate|].
  pose proof (opens_deprecated_with _ _ _ _ H) as Ho. destruct (C83_dna_run_proof 65%N (repeat 65%N n) it Hl Ho) as (it1 & f & it2 & Hp & E).
  exists it, [dna_tree 65%N (repeat 65%N n)], it1, f, it2. split; [exact Ho|]. split; [exact Hp|]. split; [exact E|].
  pose proof (C83_dna_work_proof input it _ it1 f it2 Hl Ho Hp E) as W. unfold input in W. rewrite repeat_length in W.
  replace (S n - 1) with n in W by lia. exact W.
Qed.
