(** Proofs of the property theorems about the repository's property tests (C76). *)
From Verif Require Import EarleyMain EarleyTerm ParseGrammarProofs GenProofs StrategyProofs StrategyExact Facts_Generation Facts_Text TextMain NormalizeProofs GrammarSpec ParseExamples TreeProofs EarleyInv TextExamples PropTests PropTestProofs.
From Coq Require Import Lia Permutation.
From Coq Require String.
Import String.StringSyntax.

(** ** Collecting an iterator *)

Lemma collects_det it ts ts' : collects it ts -> collects it ts' -> ts = ts'.
Proof.
  intros (it1 & Hp & He) (it2 & Hp' & He'). destruct (produces_linear _ _ _ Hp _ _ Hp') as [(r & -> & Hr)|(r & -> & Hr)];
    (destruct r as [|t r]; [rewrite app_nil_r; reflexivity|]).
  - destruct (exhausted_no_more _ _ _ _ He Hr).
  - destruct (exhausted_no_more _ _ _ _ He' Hr).
Qed.
Lemma acyclic_collects g start w it : ~ cyclic g -> opens g start w it -> exists ts, collects it ts.
Proof. intros Hc Ho. destruct (enumeration_ends _ _ _ _ Hc Ho) as (ts & it' & H). exists ts, it'. exact H. Qed.

(** ** Order of productions, repeated use *)

Lemma C76_order_proof : forall G (ops : gen_ops G) g gr gr', fst (multiple_productions_grammar ops g) = gr -> Permutation gr gr' ->
  forall ho ho' w start, exists p p' it it' ts ts',
    build_parser ho gr = ROk p /\ build_parser ho' gr' = ROk p' /\
    parse_input_starting_with p w start = Ok it /\ parse_input_starting_with p' w start = Ok it' /\
    collects it ts /\ collects it' ts' /\ Permutation ts ts' /\ length ts = length ts'.
Proof.
  intros G ops g gr gr' <- HP ho ho' w start.
  assert (Hl : layered (fst (multiple_productions_grammar ops g))) by (apply layered_grammar_spec; lia).
  pose proof (layered_permutation _ _ HP Hl) as Hl'.
  destruct (layered_builds ho _ Hl) as [p Hb]. destruct (layered_builds ho' _ Hl') as [p' Hb'].
  destruct (opens_parser_ok _ _ _ w start Hb) as [[it Hi] _]. destruct (opens_parser_ok _ _ _ w start Hb') as [[it' Hi'] _].
  pose proof (opens_with _ _ _ _ _ _ Hb Hi) as Ho. pose proof (opens_with _ _ _ _ _ _ Hb' Hi') as Ho'.
  destruct (acyclic_collects _ _ _ _ (layered_acyclic _ Hl) Ho) as [ts Ht].
  destruct (acyclic_collects _ _ _ _ (layered_acyclic _ Hl') Ho') as [ts' Ht'].
  assert (HPt : Permutation ts ts').
  { destruct Ht as (f & H1 & H2), Ht' as (f' & H1' & H2'). eapply permutation_invariance; [exact HP|exact Ho|exact H1|exact H2|exact Ho'|exact H1'|exact H2']. }
  exists p, p', it, it', ts, ts'. repeat (split; [assumption|]). apply Permutation_length. exact HPt.
Qed.

Lemma C76_reusable_proof : forall G (ops : gen_ops G) g gr, fst (simple_valid_grammar ops g) = gr -> forall ho,
  (exists fuel, terminates fuel gr = Ok true) /\
  (forall R (rng : rng_ops R) f fuel r x r', generate_random rng f gr fuel r <> Ok (RErr x, r')) /\
  exists p, build_parser ho gr = ROk p /\
    forall w, exists it ts, parse_input p w = Ok it /\ collects it ts /\
      forall it' ts', parse_input p w = Ok it' -> collects it' ts' -> ts' = ts.
Proof.
  intros G ops g gr <- ho.
  assert (Hl : layered (fst (simple_valid_grammar ops g))) by (apply layered_grammar_spec; lia).
  revert Hl. generalize (fst (simple_valid_grammar ops g)). intros gr Hl.
  destruct gr as [|q rest] eqn:Eg; [destruct Hl as [Hne _]; contradiction|]. rewrite <- Eg in *.
  assert (Hq : In q gr) by (rewrite Eg; left; reflexivity).
  destruct (proj2 Hl q Hq) as (k & El & _).
  assert (Hpr : productive gr (Nonterminal (nt_name k))).
  { apply layered_productive; [exact Hl|]. exists q. auto. }
  assert (Hst : starting_term gr = Some (Nonterminal (nt_name k))) by (rewrite Eg; unfold starting_term; cbn; rewrite El; reflexivity).
  split; [|split].
  - destruct (terminates_ends (S (length gr)) gr) as [b E]; [lia|]. exists (S (length gr)). rewrite E. do 2 f_equal.
    apply (terminates_spec _ _ _ E). rewrite Hst. exact Hpr.
  - intros R rng f fuel r x r'. unfold generate_random.
    refine (proj1 (strategies_no_error gr (nt_name k) q _ Eg El _ Hpr R rng fuel x) _ r r').
    intros p Hp. destruct (proj2 Hl p Hp) as (k' & _ & Hr & He). split; [exact Hr|]. intro E. rewrite E in He.
    destruct (He [] (or_introl eq_refl)) as [H _]. contradiction.
  - destruct (layered_builds ho _ Hl) as [p Hb]. exists p. split; [exact Hb|]. intro w.
    destruct (opens_parser_ok _ _ _ w (Nonterminal (nt_name k)) Hb) as [_ [it Hi]].
    pose proof (opens_default _ _ _ _ _ _ Hb Hst Hi) as Ho. destruct (acyclic_collects _ _ _ _ (layered_acyclic _ Hl) Ho) as [ts Ht].
    exists it, ts. split; [exact Hi|]. split; [exact Ht|]. intros it' ts' Hi' Ht'. rewrite Hi in Hi'. injection Hi' as <-.
    exact (collects_det _ _ _ Ht' Ht).
Qed.

(** ** Undefined nonterminals *)

Lemma occurs_spec p s : occurs p s = true <-> exists a b, s = a ++ p ++ b.
Proof.
  induction s as [|c s IH]; cbn [occurs].
  - rewrite orb_false_r, starts_with_spec. split; intros H.
    + destruct H as [r E]. exists [], r. exact E.
    + destruct H as (a & b & E). symmetry in E. apply app_eq_nil in E. destruct E as [-> E]. exists b. symmetry. exact E.
  - rewrite orb_true_iff, starts_with_spec, IH. split.
    + intros [[r E]|(a & b & ->)]; [exists [], r; exact E|]. exists (c :: a), b. reflexivity.
    + intros (a & b & E). destruct a as [|x a]; [left; exists b; exact E|]. injection E as -> ->. right. exists a, b. reflexivity.
Qed.

Lemma test_defined_spec g n : In n (test_defined g) <-> has_lhs g n.
Proof.
  unfold test_defined. rewrite in_flat_map. split; intros (p & Hp & H).
  - exists p. split; [exact Hp|]. destruct (p_lhs p) as [s|m]; cbn in H; [contradiction|]. destruct H as [->|[]]. reflexivity.
  - exists p. split; [exact Hp|]. rewrite H. left. reflexivity.
Qed.
Lemma test_referenced_spec g n : In n (test_referenced g) <-> refers g n.
Proof.
  unfold test_referenced. rewrite in_flat_map. split.
  - intros (p & Hp & H). apply in_flat_map in H. destruct H as (e & He & H). apply in_flat_map in H. destruct H as (t & Ht & H).
    destruct t as [s|m]; cbn in H; [contradiction|]. destruct H as [->|[]]. exists p, e. auto.
  - intros (p & e & Hp & He & H). exists p. split; [exact Hp|]. apply in_flat_map. exists e. split; [exact He|].
    apply in_flat_map. exists (Nonterminal n). split; [exact H|]. left. reflexivity.
Qed.
Lemma test_undefined_spec g n : In n (test_undefined g) <-> refers g n /\ ~ has_lhs g n.
Proof.
  unfold test_undefined. rewrite filter_In, test_referenced_spec, negb_true_iff. rewrite <- test_defined_spec.
  split; intros [H1 H2]; (split; [exact H1|]).
  - intro H. rewrite <- not_true_iff_false in H2. apply H2. apply existsb_exists. exists n. split; [exact H|]. apply str_eqb_eq. reflexivity.
  - apply not_true_iff_false. intro H. apply existsb_exists in H. destruct H as (x & Hx & E). apply str_eqb_eq in E. subst x. contradiction.
Qed.

Lemma C76_catches_proof : forall ho g, g <> [] -> (forall p, In p g -> p_rhs p <> []) -> prop_catches g (build_parser ho g) = true.
Proof.
  intros ho g Hne Hr. unfold prop_catches. destruct (build_parser ho g) as [p|e] eqn:E.
  - destruct (test_undefined g) as [|n l] eqn:Eu; [reflexivity|]. exfalso.
    assert (Hn : In n (test_undefined g)) by (rewrite Eu; left; reflexivity). apply test_undefined_spec in Hn. destruct Hn as [H1 H2].
    destruct (proj1 (proj1 (build_parser_spec ho g)) (ex_intro _ p E)) as [_ H]. destruct (H n H1) as (q & e & Hq & El & _).
    apply H2. exists q. auto.
  - destruct (proj2 (build_parser_spec ho g) e E) as [[-> _]|(_ & x & -> & H1 & H2)]; [contradiction|].
    assert (Hx : In x (test_undefined g)).
    { apply test_undefined_spec. split; [exact H1|]. intros (q & Hq & El). destruct (p_rhs q) as [|e es] eqn:Er; [exact (Hr q Hq Er)|].
      apply H2. exists q, e. split; [exact Hq|]. split; [exact El|]. rewrite Er. left. reflexivity. }
    apply andb_true_intro. split; [destruct (test_undefined g); [destruct Hx|reflexivity]|].
    apply existsb_exists. exists x. split; [exact Hx|]. apply orb_true_intro. left. apply occurs_spec.
    exists (lit "Undefined nonterminals: "), []. rewrite app_nil_r. reflexivity.
Qed.

Lemma C76_check_proof : forall g r, prop_catches g r = true <->
  match r with
  | ROk _ => forall n, refers g n -> has_lhs g n
  | RErr (ValidationError msg) => exists n a b, refers g n /\ ~ has_lhs g n /\ msg = a ++ n ++ b
  | RErr _ => False
  end.
Proof.
  intros g r. unfold prop_catches. destruct r as [p|[m|m|m]]; [|split; [discriminate|contradiction]..|].
  - destruct (test_undefined g) as [|n l] eqn:E.
    + split; [|reflexivity]. intros _ n Hn. destruct (in_dec str_eq_dec n (test_defined g)) as [H|H]; [apply test_defined_spec; exact H|]. exfalso.
      assert (Hx : In n (test_undefined g)); [|rewrite E in Hx; exact Hx]. apply test_undefined_spec. split; [exact Hn|]. rewrite <- test_defined_spec. exact H.
    + split; [discriminate|]. intro H. exfalso. assert (Hx : In n (test_undefined g)) by (rewrite E; left; reflexivity).
      apply test_undefined_spec in Hx. destruct Hx as [H1 H2]. auto.
  - rewrite andb_true_iff, existsb_exists. split.
    + intros [_ (n & Hn & Ho)]. apply test_undefined_spec in Hn. destruct Hn as [H1 H2]. exists n. apply orb_prop in Ho.
      destruct Ho as [Ho|Ho]; apply occurs_spec in Ho; destruct Ho as (a & b & ->); [|exists a, b; auto].
      exists (a ++ lit "<"), (lit ">" ++ b). split; [exact H1|]. split; [exact H2|]. rewrite <- !app_assoc. reflexivity.
    + intros (n & a & b & H1 & H2 & ->). assert (Hn : In n (test_undefined g)) by (apply test_undefined_spec; auto).
      split; [destruct (test_undefined g); [destruct Hn|reflexivity]|]. exists n. split; [exact Hn|]. apply orb_true_intro. right. apply occurs_spec. eauto.
Qed.

Section Undefined.
  Context {G : Type} (ops : gen_ops G).

  Lemma undefined_grammar_spec g gr : fst (undefined_grammar ops g) = gr ->
    gr <> [] /\ (forall p, In p gr -> p_rhs p <> [] /\ exists i, p_lhs p = Nonterminal (nt_name i)) /\
    exists j, refers gr (undefined_name j).
  Proof.
    intros <-. unfold undefined_grammar. destruct (any_usize ops g) as [d g1]. destruct (any_usize ops g1) as [u g2].
    set (dc := d mod 4 + 1). set (nu := u mod 3 + 1). set (F := fun idx g => _).
    assert (HF : forall i g', i < dc -> p_lhs (fst (F i g')) = Nonterminal (nt_name i) /\ p_rhs (fst (F i g')) <> []).
    { intros i g' Hi. unfold F. destruct (any_usize ops g') as [a g3]. set (E := fun alt_idx g => _).
      pose proof (each_length E (a mod 2 + 1) 0 g3) as HL. destruct (each E 0 (a mod 2 + 1) g3) as [es g4]. cbn [fst p_lhs p_rhs] in *.
      split; [f_equal; apply names_nth'; exact Hi|]. intros ->. cbn in HL. lia. }
    split; [intro E0; apply (each_nil F) in E0; unfold dc in E0; lia|]. split.
    - intros p Hp. destruct (each_In F _ _ _ _ Hp) as (i & g' & Hi & ->). destruct (HF i g') as [H1 H2]; [lia|]. split; [exact H2|]. eauto.
    - assert (H0 : exists j e, In e (p_rhs (fst (F 0 g2))) /\ In (Nonterminal (undefined_name j)) e).
      { unfold F at 1. destruct (any_usize ops g2) as [a g3]. rewrite Nat.add_1_r. cbn [each].
        destruct (any_usize ops g3) as [t g4]. rewrite Nat.add_1_r. cbn [each Nat.eqb andb].
        unfold undefined_term at 1. destruct (any_usize ops g4) as [k g5].
        assert (Hk : nth_error (map nt_name (seq 0 dc) ++ map undefined_name (seq 0 nu)) (dc + k mod nu) = Some (undefined_name (k mod nu))).
        { assert (Hlt : k mod nu < nu) by (apply Nat.mod_upper_bound; unfold nu; lia).
          rewrite nth_error_app2 by (rewrite map_length, seq_length; lia).
          rewrite map_length, seq_length. replace (dc + k mod nu - dc) with (k mod nu) by lia. rewrite nth_error_map.
          rewrite (nth_error_nth' _ 0) by (rewrite seq_length; exact Hlt). rewrite seq_nth by exact Hlt. reflexivity. }
        rewrite Hk. exists (k mod nu). destruct (each _ 1 (t mod 2) g5) as [ts g6]. destruct (each _ 1 (a mod 2) g6) as [es g7].
        cbn [fst p_rhs]. eexists. split; [left; reflexivity|left; reflexivity]. }
      destruct H0 as (j & e & He & Hj). exists j, (fst (F 0 g2)), e. split; [|auto].
      assert (Ed : dc = S (d mod 4)) by (unfold dc; lia). pose proof (each_first F (d mod 4) 0 g2) as Hf. rewrite <- Ed in Hf. exact Hf.
  Qed.

  Lemma C76_undefined_proof : forall ho g gr, fst (undefined_grammar ops g) = gr ->
    (exists msg, build_parser ho gr = RErr (ValidationError msg)) /\ prop_catches gr (build_parser ho gr) = true.
  Proof.
    intros ho g gr H. destruct (undefined_grammar_spec g gr H) as (Hne & Hp & j & Hj). split.
    - destruct (build_parser ho gr) as [p|e] eqn:E.
      + destruct (proj1 (proj1 (build_parser_spec ho gr)) (ex_intro _ p E)) as [_ Hx]. destruct (Hx _ Hj) as (q & e & Hq & El & _).
        destruct (Hp q Hq) as (_ & i & Ei). rewrite El in Ei. discriminate.
      + destruct (proj2 (build_parser_spec ho gr) e E) as [[_ ->]|(_ & x & -> & _)]; eauto.
    - apply C76_catches_proof; [exact Hne|]. intros p Hq. exact (proj1 (Hp p Hq)).
  Qed.
End Undefined.

(** ** Empty rules *)

Definition nested_base : grammar :=
  [mkProd (Nonterminal (lit "start")) [[Nonterminal (lit "a"); Nonterminal (lit "empty")]];
   mkProd (Nonterminal (lit "a")) [[Terminal (lit "a"); Nonterminal (lit "empty")]]].

Definition has_tree (r : res (option ptree * piter)) : bool := match r with Ok (Some _, _) => true | _ => false end.
Lemma has_tree_spec r : has_tree r = true -> exists t it, r = Ok (Some t, it).
Proof. destruct r as [[[t|] it]| |]; try discriminate. eauto. Qed.

Definition first_next (fuel : nat) (g : grammar) (w : str) : res (option ptree * piter) :=
  let* it := grammar_parse_input g w in iter_next fuel it.
Lemma first_next_spec fuel g w r : first_next fuel g w = Ok r -> exists it, grammar_parse_input g w = Ok it /\ iter_next fuel it = Ok r.
Proof. unfold first_next. destruct (grammar_parse_input g w) as [it| |]; cbn; try discriminate. eauto. Qed.

Lemma C76_empty_proof : forall G (ops : gen_ops G) g gr, fst (nested_empty_grammar ops g) = gr -> forall ho,
  exists p it fuel t it', build_parser ho gr = ROk p /\ parse_input p (lit "a") = Ok it /\ iter_next fuel it = Ok (Some t, it').
Proof.
  intros G ops g gr <- ho. unfold nested_empty_grammar. destruct (any_usize ops g) as [i g1]. destruct (any_usize ops g1) as [k g2].
  cbn [fst]. set (gr := [_; _; _]).
  assert (Hc : has_tree (first_next 200 gr (lit "a")) = true).
  { pose proof (Nat.mod_upper_bound k 2) as Hk. subst gr.
    destruct (k mod 2) as [|[|k']]; [| |lia]; destruct (Nat.eqb (i mod 2) 0); vm_compute; reflexivity. }
  assert (Hv : validate id_order gr = ROk tt).
  { clear Hc. pose proof (Nat.mod_upper_bound k 2) as Hk. subst gr.
    destruct (k mod 2) as [|[|k']]; [| |lia]; destruct (Nat.eqb (i mod 2) 0); vm_compute; reflexivity. }
  destruct (proj1 (validate_build_agree id_order ho gr (fun p Hp => ltac:(subst gr; destruct Hp as [<-|[<-|[<-|[]]]]; discriminate))) Hv) as [p Hb].
  apply has_tree_spec in Hc. destruct Hc as (t & it' & Hc). apply first_next_spec in Hc. destruct Hc as (it & Hi & Ht).
  exists p, it, 200, t, it'. split; [exact Hb|]. split; [|exact Ht].
  rewrite (proj1 (api_parity ho gr p (lit "a") (Nonterminal []) Hb)). exact Hi.
Qed.

(** ** Sentences and their parses *)

Lemma acyclic_if_ranked g (rank : str -> nat) :
  (forall p e a n, In p g -> p_lhs p = Nonterminal a -> In e (p_rhs p) -> In (Nonterminal n) e ->
     (exists s, In (Terminal s) e /\ s <> []) \/ rank n < rank a) -> ~ cyclic g.
Proof.
  intros Hg (a & H).
  assert (Hs : forall x y, unit_step g x y -> rank y < rank x).
  { intros x y (p & u & v & Hp & El & Hin & Hu & Hv).
    destruct (Hg p _ x y Hp El Hin) as [(s & Hs & Hne)|Hr]; [apply in_or_app; right; left; reflexivity| |exact Hr].
    exfalso. apply Hne. rewrite in_app_iff in Hs. destruct Hs as [Hs|[Hs|Hs]]; [|discriminate|].
    - exact (nullable_no_terminal _ _ _ Hu Hs).
    - exact (nullable_no_terminal _ _ _ Hv Hs). }
  assert (Ht : forall x y, Relation_Operators.clos_trans str (unit_step g) x y -> rank y < rank x).
  { induction 1 as [x y H1|x y z _ H1 _ H2]; [exact (Hs _ _ H1)|lia]. }
  specialize (Ht a a H). lia.
Qed.

Lemma terminating_acyclic g : In g terminating_grammars -> ~ cyclic g.
Proof.
  intro H. apply (acyclic_if_ranked g (fun n => if str_eqb n (lit "list") then 1 else 0)). intros p e a n Hp El He Hn.
  destruct H as [<-|[<-|[<-|[]]]]; cbn [In] in Hp;
    repeat (destruct Hp as [<-|Hp]); try contradiction; cbn [p_lhs p_rhs] in *; injection El as <-;
    repeat (destruct He as [<-|He]); try contradiction; cbn [In] in Hn;
    repeat (destruct Hn as [Hn|Hn]); try discriminate; try contradiction; injection Hn as <-;
    try (right; vm_compute; lia); left;
    first [exists (lit "a"); split; [cbn [In]; tauto|discriminate] | exists (lit ","); split; [cbn [In]; tauto|discriminate]].
Qed.
Lemma terminating_valid g : In g terminating_grammars -> g <> [] /\ (forall p, In p g -> p_rhs p <> []) /\ validate id_order g = ROk tt.
Proof.
  intros [<-|[<-|[<-|[]]]]; (split; [discriminate|]); (split; [|vm_compute; reflexivity]);
    intros p Hp; cbn [In] in Hp; repeat (destruct Hp as [<-|Hp]); try contradiction; discriminate.
Qed.

Lemma collect_terminals_yield t : collect_terminals t = yield t.
Proof.
  revert t. fix IH 1. intros [l kids]. cbn [collect_terminals yield].
  assert (H : forall acc, fold_left (fun s k => s ++ match k with Leaf x => x | Sub t' => collect_terminals t' end) kids acc = acc ++ flat_map yield_node kids).
  { induction kids as [|k kids IHk]; intro acc; cbn [fold_left flat_map]; [rewrite app_nil_r; reflexivity|].
    rewrite IHk, <- app_assoc. do 2 f_equal. destruct k as [s|t']; [reflexivity|]. apply IH. }
  rewrite H. reflexivity.
Qed.

Lemma terminating_read : Forall2 (fun text g => grammar_from_str ascii_alpha text = Ok (ROk g)) terminating_texts terminating_grammars.
Proof. repeat constructor; vm_compute; reflexivity. Qed.

Lemma C76_sentences_proof : forall ho g, In g terminating_grammars -> exists p, build_parser ho g = ROk p /\
  (forall w, exists it ts, parse_input p w = Ok it /\ grammar_parse_input g w = Ok it /\ collects it ts /\
     forall t, In t ts -> collect_terminals t = w) /\
  (forall R (rng : rng_ops R) f fuel r w r', generate_random rng f g fuel r = Ok (ROk w, r') -> byte_len w <= 50 ->
     forall it ts, parse_input p (truncated w) = Ok it -> collects it ts -> ts <> []).
Proof.
  intros ho g Hg. destruct (terminating_valid g Hg) as (Hne & Hr & Hv). destruct (proj1 (validate_build_agree id_order ho g Hr) Hv) as [p Hb].
  exists p. split; [exact Hb|]. destruct (default_start _ _ _ Hb) as (pr & rest & Eg & Es).
  assert (Hst : starting_term g = Some (p_lhs pr)) by (rewrite Eg; reflexivity). split.
  - intro w. destruct (opens_parser_ok _ _ _ w (p_lhs pr) Hb) as [_ [it Hi]]. pose proof (opens_default _ _ _ _ _ _ Hb Hst Hi) as Ho.
    destruct (acyclic_collects _ _ _ _ (terminating_acyclic g Hg) Ho) as [ts Ht]. exists it, ts. split; [exact Hi|].
    split; [rewrite <- (proj1 (api_parity ho g p w (p_lhs pr) Hb)); exact Hi|]. split; [exact Ht|].
    intros t Hin. destruct Ht as (it' & Hp & _). rewrite collect_terminals_yield. exact (proj2 (proj2 (soundness _ _ _ _ _ _ _ Ho Hp Hin))).
  - intros R rng f fuel r w r' Hw Hlen it ts Hi Ht ->.
    assert (Etr : truncated w = w) by (unfold truncated; destruct (Nat.ltb_spec 50 (byte_len w)); [lia|reflexivity]). rewrite Etr in Hi.
    destruct (C17_generate_then_parse_proof R (random_walk rng) _ ho g p fuel r w r' (lawful_random_walk rng) Hb Hw) as (it1 & f1 & t & it2 & Hi1 & Hn).
    rewrite Hi in Hi1. injection Hi1 as <-. destruct Ht as (it' & Hp & He). inversion Hp; subst.
    apply (exhausted_no_more it' t [] it2 He). econstructor; [exact Hn|constructor].
Qed.

Definition no_tree (r : res (option ptree * piter)) : bool := match r with Ok (None, _) => true | _ => false end.
Lemma no_tree_spec r : no_tree r = true -> exists it, r = Ok (None, it).
Proof. destruct r as [[[t|] it]| |]; try discriminate. eauto. Qed.

Lemma C76_truncated_refuted_proof : exists g script w, In g terminating_grammars /\
  generate_random script_rng (fun _ _ => true) g 1000 script = Ok (ROk w, []) /\
  byte_len w = 52 /\ truncated w = firstn 50 w /\
  forall ho p it ts, build_parser ho g = ROk p -> parse_input p (truncated w) = Ok it -> collects it ts -> ts = [].
Proof.
  exists (nth 1 terminating_grammars []), (repeat 1 25 ++ [0]), (repeat 97%N 26 ++ repeat 98%N 26).
  split; [right; left; reflexivity|]. split; [vm_compute; reflexivity|]. split; [reflexivity|]. split; [reflexivity|].
  intros ho p it ts Hb Hi Ht. rewrite (proj1 (api_parity ho _ p _ (Nonterminal []) Hb)) in Hi.
  assert (Hc : no_tree (first_next 4000 (nth 1 terminating_grammars []) (truncated (repeat 97%N 26 ++ repeat 98%N 26))) = true)
    by (vm_compute; reflexivity).
  apply no_tree_spec in Hc. destruct Hc as [it1 Hc]. apply first_next_spec in Hc. destruct Hc as (it0 & Hi0 & Hn).
  rewrite Hi in Hi0. injection Hi0 as <-.
  symmetry. apply (collects_det it); [|exact Ht]. exists it. split; [constructor|]. exists 4000, it1. exact Hn.
Qed.

(** ** Mermaid texts *)

Lemma split_newline_app x r : ~ In 10%N x -> split_newline (x ++ 10%N :: r) = x :: split_newline r.
Proof.
  induction x as [|c x IH]; intro H; [reflexivity|]. cbn [app split_newline]. destruct (N.eqb_spec c 10%N) as [->|_]; [contradiction H; left; reflexivity|].
  rewrite IH by (intro Hi; apply H; right; exact Hi). reflexivity.
Qed.
Lemma split_newline_lines ls : (forall l, In l ls -> ~ In 10%N l) -> split_newline (concat (map (fun l => l ++ [10%N]) ls)) = ls ++ [[]].
Proof.
  induction ls as [|l ls IH]; intro H; [reflexivity|]. cbn [map concat]. rewrite <- app_assoc. cbn [app].
  rewrite split_newline_app by (apply H; left; reflexivity). rewrite IH by (intros x Hx; apply H; right; exact Hx). reflexivity.
Qed.
Lemma drop_last ls : drop_last_empty (ls ++ [[]]) = ls.
Proof.
  induction ls as [|l ls IH]; [reflexivity|]. cbn [app drop_last_empty]. rewrite IH. destruct l; [|reflexivity].
  destruct ls; reflexivity.
Qed.
Lemma chomp_other x c : c <> 13%N -> chomp_cr (x ++ [c]) = x ++ [c].
Proof. intro H. unfold chomp_cr. rewrite rev_unit. apply N.eqb_neq in H. rewrite H. reflexivity. Qed.

Lemma split_two_app a b x r : ~ In a x -> split_two a b (x ++ a :: b :: r) = x :: split_two a b r.
Proof.
  induction x as [|c x IH]; intro H; cbn [app].
  - cbn [split_two]. rewrite !N.eqb_refl. reflexivity.
  - assert (Hc : N.eqb c a = false) by (apply N.eqb_neq; intros ->; apply H; left; reflexivity).
    specialize (IH (fun Hi => H (or_intror Hi))).
    destruct (x ++ a :: b :: r) as [|y z] eqn:E; [destruct x; discriminate|].
    change (split_two a b (c :: y :: z)) with (if N.eqb c a && N.eqb y b then [] :: split_two a b z
      else match split_two a b (y :: z) with l :: ls => (c :: l) :: ls | [] => [[c]] end).
    rewrite Hc, IH. reflexivity.
Qed.
Lemma split_two_none a b x : ~ In a x -> split_two a b x = [x].
Proof.
  induction x as [|c x IH]; intro H; [reflexivity|].
  assert (Hc : N.eqb c a = false) by (apply N.eqb_neq; intros ->; apply H; left; reflexivity).
  specialize (IH (fun Hi => H (or_intror Hi))). destruct x as [|y z]; [reflexivity|].
  change (split_two a b (c :: y :: z)) with (if N.eqb c a && N.eqb y b then [] :: split_two a b z
    else match split_two a b (y :: z) with l :: ls => (c :: l) :: ls | [] => [[c]] end).
  rewrite Hc, IH. reflexivity.
Qed.

Lemma digits_no c d : is_digit c = false -> Forall (fun x => is_digit x = true) d -> ~ In c d.
Proof. intros Hc Hd Hi. rewrite Forall_forall in Hd. specialize (Hd c Hi). congruence. Qed.
Lemma escape_no_raw c s : In c raw_specials -> ~ In c (escape_mermaid_label s).
Proof.
  intros Hc Hi. assert (Hs : mermaid_special c).
  { apply special_dec. cbn [In raw_specials] in Hc. repeat destruct Hc as [<-|Hc]; try reflexivity. destruct Hc. }
  destruct (escape_safe s c Hi Hs) as [->| ->]; cbn [In raw_specials] in Hc; repeat destruct Hc as [Hc|Hc]; try discriminate; destruct Hc.
Qed.

Definition good_segment (segment : str) : bool :=
  match split_two 34%N 93%N segment with
  | [] => true
  | label :: _ => str_eqb label segment || forallb (fun bad => negb (str_contains bad label)) raw_specials
  end.
Lemma good_label s r : good_segment (escape_mermaid_label s ++ 34%N :: 93%N :: r) = true.
Proof.
  unfold good_segment. rewrite split_two_app by (apply escape_no_raw; cbn; tauto). apply orb_true_intro. right.
  apply forallb_forall. intros c Hc. apply negb_true_iff, not_true_iff_false. intro H. apply contains_spec in H. exact (escape_no_raw c s Hc H).
Qed.
Lemma good_plain s : ~ In 34%N s -> good_segment s = true.
Proof. intro H. unfold good_segment. rewrite split_two_none by exact H. rewrite (proj2 (str_eqb_eq s s) eq_refl). reflexivity. Qed.

(** A line without its newline. *)
Definition edge_text (e : (nat * str) * (nat * str)) : str :=
  dec (fst (fst e)) ++ lit "[""" ++ escape_mermaid_label (snd (fst e)) ++ lit """] --> " ++
  dec (fst (snd e)) ++ lit "[""" ++ escape_mermaid_label (snd (snd e)) ++ lit """]".

Lemma segments_good es : forall pre, ~ In 91%N pre -> (forall d, Forall (fun c => is_digit c = true) d -> good_segment (pre ++ d) = true) ->
  forallb good_segment (split_two 91%N 34%N (pre ++ concat (map (fun e => edge_text e ++ [10%N]) es))) = true.
Proof.
  induction es as [|[[n a] [m b]] es IH]; intros pre H91 Hg.
  - cbn [map concat]. rewrite app_nil_r. rewrite split_two_none by exact H91. cbn [forallb].
    specialize (Hg [] (Forall_nil _)). rewrite app_nil_r in Hg. rewrite Hg. reflexivity.
  - cbn [map concat]. unfold edge_text at 1. cbn [fst snd].
    assert (E : pre ++ ((dec n ++ lit "[""" ++ escape_mermaid_label a ++ lit """] --> " ++ dec m ++ lit "[""" ++
                   escape_mermaid_label b ++ lit """]") ++ [10%N]) ++ concat (map (fun e => edge_text e ++ [10%N]) es) =
                (pre ++ dec n) ++ 91%N :: 34%N :: (escape_mermaid_label a ++ 34%N :: 93%N :: lit " --> " ++ dec m) ++
                91%N :: 34%N :: (escape_mermaid_label b ++ 34%N :: 93%N :: [10%N]) ++ concat (map (fun e => edge_text e ++ [10%N]) es)).
    { change (lit "[""") with [91%N; 34%N]. change (lit """] --> ") with (34%N :: 93%N :: lit " --> "). change (lit """]") with [34%N; 93%N].
      repeat (rewrite <- !app_assoc; cbn [app]). reflexivity. }
    rewrite E. rewrite split_two_app.
    2:{ intro Hi. apply in_app_or in Hi. destruct Hi as [Hi|Hi]; [contradiction|]. exact (digits_no 91%N _ eq_refl (dec_digits n) Hi). }
    rewrite split_two_app.
    2:{ intro Hi. apply in_app_or in Hi. destruct Hi as [Hi|Hi]; [revert Hi; apply escape_no_raw; cbn; tauto|].
        destruct Hi as [Hi|[Hi|Hi]]; try discriminate. apply in_app_or in Hi. destruct Hi as [Hi|Hi].
        - cbn in Hi. repeat destruct Hi as [Hi|Hi]; try discriminate. destruct Hi.
        - exact (digits_no 91%N _ eq_refl (dec_digits m) Hi). }
    cbn [forallb]. rewrite Hg by apply dec_digits. rewrite good_label. cbn [andb].
    apply IH.
    + intro Hi. apply in_app_or in Hi. destruct Hi as [Hi|Hi]; [revert Hi; apply escape_no_raw; cbn; tauto|].
      cbn in Hi. repeat destruct Hi as [Hi|Hi]; try discriminate. destruct Hi.
    + intros d _. rewrite <- app_assoc. apply good_label.
Qed.

Lemma count_app c a b : count_char c (a ++ b) = count_char c a + count_char c b.
Proof. unfold count_char. rewrite filter_app, app_length. reflexivity. Qed.
Lemma count_none c a : ~ In c a -> count_char c a = 0.
Proof.
  unfold count_char. induction a as [|x a IH]; intro H; [reflexivity|]. cbn [filter].
  destruct (N.eqb_spec c x) as [->|_]; [contradiction H; left; reflexivity|]. apply IH. intro Hi. apply H. right. exact Hi.
Qed.

Lemma edge_text_line e : ~ In 10%N (edge_text e) /\ chomp_cr (edge_text e) = edge_text e /\
  occurs (lit "-->") (edge_text e) = true /\ count_char 34%N (edge_text e) = 4.
Proof.
  destruct e as [[n a] [m b]]. unfold edge_text. cbn [fst snd]. split; [|split; [|split]].
  - intro Hi. repeat (apply in_app_or in Hi; destruct Hi as [Hi|Hi]);
      try (exact (digits_no 10%N _ eq_refl (dec_digits _) Hi)); try (revert Hi; apply escape_no_raw; cbn; tauto);
      cbn in Hi; repeat destruct Hi as [Hi|Hi]; try discriminate; destruct Hi.
  - rewrite !app_assoc. change (lit """]") with ([34%N] ++ [93%N]). rewrite app_assoc. apply chomp_other. discriminate.
  - apply occurs_spec. exists (dec n ++ lit "[""" ++ escape_mermaid_label a ++ lit """] "), (lit " " ++ dec m ++ lit "[""" ++ escape_mermaid_label b ++ lit """]").
    rewrite <- !app_assoc. reflexivity.
  - rewrite !count_app, !(count_none 34%N (dec _)), !(count_none 34%N (escape_mermaid_label _)).
    + reflexivity.
    + apply escape_no_raw. cbn. tauto.
    + apply escape_no_raw. cbn. tauto.
    + exact (digits_no 34%N _ eq_refl (dec_digits _)).
    + exact (digits_no 34%N _ eq_refl (dec_digits _)).
Qed.

Lemma tree_edges_size t : count_parse_tree_edges t + 1 = tree_size t.
Proof.
  revert t. fix IH 1. intros [l kids]. cbn [count_parse_tree_edges tree_size].
  assert (H : forall acc, fold_left (fun n k => match k with Leaf _ => n | Sub t' => n + count_parse_tree_edges t' end) kids acc + length kids =
              acc + list_sum (map (fun k => match k with Leaf _ => 1 | Sub t => tree_size t end) kids)).
  { induction kids as [|k kids IHk]; intro acc; cbn [fold_left map list_sum length]; [reflexivity|].
    specialize (IHk (match k with Leaf _ => acc | Sub t' => acc + count_parse_tree_edges t' end)).
    destruct k as [s|t']; [unfold list_sum in *; cbn [fold_right] in *; lia|].
    pose proof (IH t') as Ht. unfold list_sum in *; cbn [fold_right] in *; lia. }
  specialize (H (length kids)). lia.
Qed.

Lemma all_nonterminal_fmt t : forall c r, mermaid_fmt t c = Ok r -> all_nonterminal t.
Proof.
  induction t as [l kids IH] using tree_ind'. intros c r E. rewrite mermaid_fmt_eq in E. destruct l as [s|s]; [discriminate|].
  cbn [mermaid_lhs rbind] in E. destruct (mermaid_kids c (escape_mermaid_label s) kids c) as [bc| |] eqn:Ek; try discriminate. clear E r.
  constructor. revert Ek. generalize (escape_mermaid_label s) as lab. generalize c at 2 as c'. revert bc.
  induction kids as [|k kids IHk]; intros bc c' lab Ek t Ht; [destruct Ht|].
  rewrite mermaid_kids_cons in Ek. cbn beta zeta in Ek.
  assert (Hk : forall bc c', mermaid_kids c lab kids c' = Ok bc -> In (Sub t) kids -> all_nonterminal t).
  { intros bc1 c1 E1 H1. apply (IHk (fun x Hx => IH x (or_intror Hx)) bc1 c1 lab E1 t H1). }
  destruct k as [x|[l' kids']].
  - cbn [rbind] in Ek. destruct (mermaid_kids c lab kids (c' + 1)) as [bc1| |] eqn:E1; try discriminate.
    destruct Ht as [Ht|Ht]; [discriminate|]. exact (Hk _ _ E1 Ht).
  - destruct (mermaid_lhs l') as [rl| |]; cbn [rbind] in Ek; try discriminate.
    destruct (mermaid_fmt (Node l' kids') (c' + 1)) as [[o1 c2]| |] eqn:Ef; cbn [rbind] in Ek; try discriminate.
    destruct (mermaid_kids c lab kids c2) as [bc1| |] eqn:E1; try discriminate.
    destruct Ht as [Ht|Ht]; [|exact (Hk _ _ E1 Ht)]. injection Ht as <-. exact (IH _ (or_introl eq_refl) _ _ Ef).
Qed.

Lemma C76_mermaid_proof : forall t m, display_mermaid t = Ok m ->
  edge_lines_balanced m = true /\ count_parse_tree_edges t = count_mermaid_edges m /\ labels_no_raw_specials m = true.
Proof.
  intros t m Hm. assert (Hn : all_nonterminal t).
  { unfold display_mermaid in Hm. destruct (mermaid_fmt t 0) as [r| |] eqn:E; try discriminate. exact (all_nonterminal_fmt t 0 r E). }
  destruct (display_mermaid_spec t Hn) as (es & He & Hd).
  assert (Em : m = lit "flowchart TD" ++ [10%N] ++ concat (map edge_line es)) by congruence. clear Hm Hd.
  assert (E : concat (map edge_line es) = concat (map (fun e => edge_text e ++ [10%N]) es)).
  { f_equal. apply map_ext. intro e. unfold edge_line, mermaid_line, edge_text, newline. rewrite <- !app_assoc. reflexivity. }
  set (body := concat (map (fun e => edge_text e ++ [10%N]) es)) in *.
  assert (Hl : str_lines (lit "flowchart TD" ++ [10%N] ++ body) = lit "flowchart TD" :: map edge_text es).
  { unfold str_lines. assert (Eb : lit "flowchart TD" ++ [10%N] ++ body = concat (map (fun l => l ++ [10%N]) (lit "flowchart TD" :: map edge_text es))).
    { cbn [map concat]. rewrite map_map. rewrite <- app_assoc. reflexivity. }
    rewrite Eb, split_newline_lines, drop_last.
    - cbn [map]. f_equal. rewrite map_map. apply map_ext_in. intros e _. apply edge_text_line.
    - intros l [<-|Hin].
      + cbn. intuition discriminate.
      + apply in_map_iff in Hin. destruct Hin as (e & <- & _). apply edge_text_line. }
  rewrite Em, E. split; [|split].
  - unfold edge_lines_balanced. rewrite Hl. cbn [forallb].
    apply andb_true_intro. split; [reflexivity|]. apply forallb_forall. intros l Hin. apply in_map_iff in Hin. destruct Hin as (e & <- & _).
    destruct (edge_text_line e) as (_ & _ & _ & Hc). rewrite Hc. apply orb_true_r.
  - unfold count_mermaid_edges. rewrite Hl. cbn [filter]. 
    assert (Hf : filter (occurs (lit "-->")) (map edge_text es) = map edge_text es).
    { clear. induction es as [|e es IH]; [reflexivity|]. cbn [map filter]. rewrite IH. destruct (edge_text_line e) as (_ & _ & -> & _). reflexivity. }
    change (occurs (lit "-->") (lit "flowchart TD")) with false. cbn iota. rewrite Hf, map_length.
    pose proof (tree_edges_size t). pose proof (f_equal (@length nat) (proj1 (proj1 edges_numbers _ _ _ He))) as Hlen.
    rewrite map_length, seq_length in Hlen. lia.
  - unfold labels_no_raw_specials. change (lit "flowchart TD" ++ [10%N] ++ body) with ((lit "flowchart TD" ++ [10%N]) ++ body).
    apply (segments_good es).
    + cbn. intuition discriminate.
    + intros d Hd'. apply good_plain. intro Hi. apply in_app_or in Hi. destruct Hi as [Hi|Hi].
      * cbn in Hi. intuition discriminate.
      * exact (digits_no 34%N _ eq_refl Hd' Hi).
Qed.

(** ** The single node test *)

Definition root_grammar (s : str) : grammar := [mkProd (Nonterminal (lit "root")) [[Terminal s]]].

Lemma content_plain G (ops : gen_ops G) g : ~ In 39%N (fst (mermaid_label_content ops g)).
Proof.
  unfold mermaid_label_content. destruct (any_string ops g) as [s g1]. cbn [fst]. intro H. apply in_map_iff in H. destruct H as (c & E & _).
  destruct (N.eqb_spec c 39%N); [discriminate|contradiction].
Qed.

Lemma single_node_read al s : alphabetic_ok al -> ~ In 39%N s -> grammar_from_str al (grammar_single_node s) = Ok (ROk (root_grammar s)).
Proof.
  intros Hal Hs.
  assert (Hw : writable_grammar (root_grammar s)).
  { split; [discriminate|]. intros p [<-|[]]. split; [eexists; reflexivity|]. split; [cbn; intuition discriminate|]. split; [discriminate|].
    intros e [<-|[]]. split; [discriminate|]. intros t [<-|[]]. cbn. tauto. }
  destruct (says_grammar al _ Hw) as (pg & toks & H1 & H2 & H3).
  apply (grammar_from_str_exact al Hal). exists Bnf, pg. split; [|exact (normalize_plain _ pg H1)].
  exists [], (grammar_single_node s), toks. split; [reflexivity|]. split; [constructor|]. split; [intros ->; inversion H1|]. split; [exact H2|].
  assert (E : grammar_single_node s = join [10%N] (map display_production (root_grammar s))).
  { assert (Ec : str_contains squote s = false) by (apply not_true_iff_false; intro Hc; apply contains_spec in Hc; exact (Hs Hc)).
    unfold grammar_single_node, root_grammar, display_production, display_expression, display_term. cbn [map join p_lhs p_rhs].
    rewrite Ec. reflexivity. }
  rewrite E. apply says_spells_nil. exact H3.
Qed.

Lemma single_node_parses s t : parses (root_grammar s) (Nonterminal (lit "root")) s t <-> t = Node (Nonterminal (lit "root")) [Leaf s].
Proof.
  split.
  - intros (Hd & _ & _). inversion Hd as [p rhs kids Hp Hr Hk]; subst. destruct Hp as [<-|[]]. destruct Hr as [<-|[]].
    inversion Hk as [|x r ks Hk' |]; subst. inversion Hk'; subst. reflexivity.
  - intros ->. split; [|split; [reflexivity|cbn; apply app_nil_r]].
    apply (derives_node _ (mkProd (Nonterminal (lit "root")) [[Terminal s]]) [Terminal s]); [left; reflexivity|left; reflexivity|].
    repeat constructor.
Qed.

Lemma C76_single_node_proof : forall G (ops : gen_ops G) g s, fst (mermaid_label_content ops g) = s -> forall alphabetic ho, alphabetic_ok alphabetic ->
  exists p it, grammar_from_str alphabetic (grammar_single_node s) = Ok (ROk (root_grammar s)) /\
    build_parser ho (root_grammar s) = ROk p /\ parse_input p s = Ok it /\
    collects it [Node (Nonterminal (lit "root")) [Leaf s]].
Proof.
  intros G ops g s <- al ho Hal. pose proof (content_plain G ops g) as Hs. set (s := fst (mermaid_label_content ops g)) in *. clearbody s.
  assert (Hb : exists p, build_parser ho (root_grammar s) = ROk p).
  { apply build_parser_spec. split; [discriminate|]. intros x (p & e & [<-|[]] & [<-|[]] & [H|[]]). discriminate. }
  destruct Hb as [p Hb]. destruct (opens_parser_ok _ _ _ s (Nonterminal (lit "root")) Hb) as [_ [it Hi]].
  pose proof (opens_default _ _ _ _ _ _ Hb eq_refl Hi) as Ho. exists p, it.
  split; [exact (single_node_read al s Hal Hs)|]. split; [exact Hb|]. split; [exact Hi|].
  assert (Hc : ~ cyclic (root_grammar s)).
  { apply acyclic_if_guarded. intros q e n [<-|[]] [<-|[]] [H|[]]. discriminate. }
  destruct (acyclic_collects _ _ _ _ Hc Ho) as (ts & it' & Hp & He).
  assert (Hin : forall t, In t ts <-> t = Node (Nonterminal (lit "root")) [Leaf s]).
  { intro t. rewrite <- single_node_parses. split; [exact (soundness _ _ _ _ _ _ _ Ho Hp)|exact (exhaustive _ _ _ _ _ _ _ Ho Hp He)]. }
  assert (Hnf : NoDup (flat_prods (root_grammar s))) by (cbn; constructor; [intros []|constructor]).
  pose proof (no_duplicates _ _ _ _ _ _ Hnf Ho Hp) as Hnd.
  assert (Et : ts = [Node (Nonterminal (lit "root")) [Leaf s]]).
  { destruct ts as [|t ts]; [destruct (proj2 (Hin _) eq_refl)|]. rewrite (proj1 (Hin t) (or_introl eq_refl)) in *. f_equal.
    destruct ts as [|t2 ts]; [reflexivity|]. inversion Hnd as [|? ? Hn _]; subst. contradiction Hn. left.
    apply Hin. right. left. reflexivity. }
  exists it'. rewrite <- Et. split; assumption.
Qed.

(** ** Unescaping *)

Lemma unescape_escape s : forall fuel, length (flat_map escape_char s) < fuel -> unescape fuel (flat_map escape_char s) = s.
Proof.
  induction s as [|c s IH]; intros fuel Hf; (destruct fuel as [|fuel]; [lia|]); [reflexivity|]. cbn [flat_map] in *.
  unfold escape_char at 1. unfold escape_char at 1 in Hf. destruct (existsb (N.eqb c) mermaid_escape_chars) eqn:E.
  - assert (Hl : length (flat_map escape_char s) < fuel) by (rewrite !app_length in Hf; cbn in Hf; unfold str, char in *; lia).
    apply special_dec in E. unfold mermaid_special in E. clear Hf. specialize (IH fuel Hl). revert IH. generalize (flat_map escape_char s). intros r IH.
    cbn [In] in E. repeat destruct E as [<-|E]; try (destruct E); cbn; rewrite IH; reflexivity.
  - cbn [app] in *. cbn [unescape]. destruct (N.eqb_spec c 35%N) as [->|_]; [discriminate|]. f_equal. apply IH. cbn in Hf. lia.
Qed.
Lemma C76_unescape_proof : forall s, unescape_mermaid_entity_codes (escape_mermaid_label s) = s.
Proof. intro s. unfold unescape_mermaid_entity_codes. rewrite escape_eq. apply unescape_escape. lia. Qed.

Lemma split_two_step a b : a <> b -> forall n s, List.length s <= n -> exists l ls, split_two a b s = l :: ls /\
  (forall x y, l <> x ++ [a; b] ++ y) /\ ((ls = [] /\ s = l) \/ (ls <> [] /\ exists r, s = l ++ [a; b] ++ r /\ split_two a b r = ls /\ List.length r < List.length s)).
Proof.
  intros Hab. induction n as [|n IH]; intros [|c s] Hn; try (cbn in Hn; lia).
  1,2: exists [], []; split; [reflexivity|split; [intros [|? ?] ? H; discriminate|left; auto]].
  destruct s as [|d s].
  { exists [c], []. split; [reflexivity|]. split; [|left; auto]. intros [|x [|y xs]] z H; discriminate. }
  destruct (N.eqb c a && N.eqb d b) eqn:E.
  - apply andb_prop in E. destruct E as [E1 E2]. apply N.eqb_eq in E1, E2. subst c d.
    exists [], (split_two a b s). cbn [split_two]. rewrite !N.eqb_refl. cbn [andb]. split; [reflexivity|].
    split; [intros [|? ?] ? H; discriminate|]. right. destruct (IH s) as (l & ls & H & _); [cbn in Hn; lia|]. split; [rewrite H; discriminate|].
    exists s. split; [reflexivity|]. split; [reflexivity|]. cbn. lia.
  - destruct (IH (d :: s)) as (l & ls & H & Hl & Hr); [cbn in Hn |- *; lia|].
    exists (c :: l), ls. change (split_two a b (c :: d :: s)) with (if N.eqb c a && N.eqb d b then [] :: split_two a b s
      else match split_two a b (d :: s) with l :: ls => (c :: l) :: ls | [] => [[c]] end). rewrite E, H.
    split; [reflexivity|]. split.
    + intros [|x xs] y Hx; injection Hx as -> Hx; [|exact (Hl _ _ Hx)].
      assert (d = b) as ->; [|rewrite !N.eqb_refl in E; discriminate]. subst l.
      destruct Hr as [[_ Hr]|[_ (r & Hr & _)]]; injection Hr; auto.
    + destruct Hr as [[-> Hr]|[Hne (r & Hr & Hs & Hlen)]]; [left; split; [reflexivity|congruence]|right; split; [exact Hne|]].
      exists r. split; [rewrite Hr; reflexivity|]. split; [exact Hs|cbn in *; lia].
Qed.

Lemma split_two_exact : forall a b s, a <> b ->
  join [a; b] (split_two a b s) = s /\ forall l x y, In l (split_two a b s) -> l <> x ++ [a; b] ++ y.
Proof.
  intros a b s Hab. remember (List.length s) as n eqn:En. assert (Hn : List.length s <= n) by lia. clear En. revert s Hn.
  induction n as [|n IH]; intros s Hn.
  - destruct s; [|cbn in Hn; lia]. split; [reflexivity|]. intros l [|? ?] y [<-|[]] H; discriminate.
  - destruct (split_two_step a b Hab (S n) s Hn) as (l & ls & E & Hl & Hr). rewrite E.
    destruct Hr as [[-> ->]|[Hne (r & -> & Hs & Hlen)]].
    + split; [reflexivity|]. intros l' x y [<-|[]]. apply Hl.
    + destruct (IH r) as [I1 I2]; [lia|]. rewrite Hs in I1, I2. split.
      * destruct ls; [contradiction Hne; reflexivity|]. change (join [a; b] (l :: s :: ls)) with (l ++ [a; b] ++ join [a; b] (s :: ls)). rewrite I1. reflexivity.
      * intros l' x y [<-|Hin]; [apply Hl|apply I2; exact Hin].
Qed.

(** The first occurrence of two different characters is unique. *)
Lemma first_two (a b : char) (l r l' r' : str) : l ++ [a; b] ++ r = l' ++ [a; b] ++ r' -> (forall x y, l <> x ++ [a; b] ++ y) -> (forall x y, l' <> x ++ [a; b] ++ y) ->
  a <> b -> l = l'.
Proof.
  revert l'. induction l as [|c l IH]; intros [|d l'] H H1 H2 Hab; [reflexivity|exfalso..|].
  - cbn in H. injection H as <- H. destruct l' as [|d l']; cbn in H; [injection H as H _; congruence|]. injection H as <- H. exact (H2 [] l' eq_refl).
  - cbn in H. injection H as -> H. destruct l as [|c l]; cbn in H; [injection H as H _; congruence|]. injection H as -> H. exact (H1 [] l eq_refl).
  - cbn in H. injection H as -> H. f_equal. apply IH; auto.
    + intros x y ->. exact (H1 (d :: x) y eq_refl).
    + intros x y ->. exact (H2 (d :: x) y eq_refl).
Qed.

Lemma C76_mermaid_checks_proof : forall m,
  (edge_lines_balanced m = true <->
    forall l a b, In l (str_lines m) -> l = a ++ lit "-->" ++ b -> count_occ N.eq_dec l 34%N = 4) /\
  (labels_no_raw_specials m = true <->
    forall segment label rest, In segment (split_two 91%N 34%N m) -> segment = label ++ [34; 93]%N ++ rest ->
      (forall x y, label <> x ++ [34; 93]%N ++ y) -> forall c, In c label -> ~ In c (lit """[]\<>&" ++ [10; 13]%N)).
Proof.
  intro m. split.
  - unfold edge_lines_balanced. rewrite forallb_forall.
    assert (Hc : forall l, count_occ N.eq_dec l 34%N = count_char 34%N l).
    { unfold count_char. intro l. induction l as [|c l IH]; [reflexivity|]. cbn [count_occ filter]. destruct (N.eq_dec c 34) as [->|Hn]; [cbn [N.eqb]; cbn; rewrite IH; reflexivity|].
      destruct (N.eqb_spec 34 c); [congruence|exact IH]. }
    split.
    + intros H l a b Hl E. specialize (H l Hl). rewrite Hc. apply Nat.eqb_eq. destruct (occurs (lit "-->") l) eqn:Eo; [exact H|].
      assert (occurs (lit "-->") l = true) by (apply occurs_spec; eauto). congruence.
    + intros H l Hl. destruct (occurs (lit "-->") l) eqn:Eo; [|reflexivity]. apply occurs_spec in Eo. destruct Eo as (a & b & E).
      apply orb_true_intro. right. apply Nat.eqb_eq. rewrite <- Hc. eapply H; eassumption.
  - unfold labels_no_raw_specials. rewrite forallb_forall.
    assert (Hs : forall seg, match split_two 34%N 93%N seg with [] => true | label :: _ => str_eqb label seg || forallb (fun bad => negb (str_contains bad label)) raw_specials end = true <->
      forall label rest, seg = label ++ [34; 93]%N ++ rest -> (forall x y, label <> x ++ [34; 93]%N ++ y) -> forall c, In c label -> ~ In c (lit """[]\<>&" ++ [10; 13]%N)).
    { intro seg. destruct (split_two_step 34%N 93%N ltac:(discriminate) (List.length seg) seg (le_n _)) as (l & ls & -> & Hl & Hr).
      assert (Hf : forallb (fun bad => negb (str_contains bad l)) raw_specials = true <-> forall c, In c l -> ~ In c (lit """[]\<>&" ++ [10; 13]%N)).
      { rewrite forallb_forall. split.
        - intros H c Hc Hin. assert (In c raw_specials) as Hb by (revert Hin; vm_compute; tauto). specialize (H c Hb).
          assert (str_contains c l = true) as X; [|rewrite X in H; discriminate].
          unfold str_contains. apply existsb_exists. exists c. split; [exact Hc|]. apply N.eqb_refl.
        - intros H c Hb. apply negb_true_iff. apply not_true_iff_false. intro X. unfold str_contains in X. apply existsb_exists in X.
          destruct X as (d & Hd & E). apply N.eqb_eq in E. subst d. apply (H c Hd). revert Hb. vm_compute. tauto. }
      destruct Hr as [[-> ->]|[_ (r & -> & _ & _)]].
      - split; [|intros _; rewrite (proj2 (str_eqb_eq l l) eq_refl); reflexivity]. intros _ label rest E. exfalso. exact (Hl _ _ E).
      - match goal with |- context [str_eqb ?a ?b] => assert (str_eqb a b = false) as Hne end.
        { apply not_true_iff_false. intro X. apply str_eqb_eq in X. apply (f_equal (@List.length _)) in X. rewrite app_length in X. cbn in X. unfold str, char in *. lia. }
        rewrite Hne. cbn [orb]. rewrite Hf. split.
        + intros H label rest E Hn. rewrite <- (first_two 34%N 93%N l r label rest E Hl Hn ltac:(discriminate)). exact H.
        + intros H. exact (H l r eq_refl Hl). }
    split.
    + intros H seg label rest Hin. apply Hs. apply H. exact Hin.
    + intros H seg Hin. apply Hs. intros label rest. apply H. exact Hin.
Qed.

Lemma C76_examples :
  fst (any_grammar scripted ([1; 1; 2], [true; false], [lit "a>b"; lit "x>"; lit "it's"])) =
    [mkProd (N_ "ab") [[N_ "x"; T_ "it's"]]] /\
  fst (multiple_productions_grammar scripted ([0; 0; 0; 1; 0; 0], [true; true], [lit "x"])) =
    [mkProd (N_ "nt0") [[T_ "x"]]; mkProd (N_ "nt1") [[N_ "nt0"]; [T_ ""]]] /\
  fst (undefined_grammar scripted ([0; 0; 0; 0; 0], [], [])) = [mkProd (N_ "nt0") [[N_ "undefined0"]]] /\
  grammar_from_str ascii_alpha ([10%N] ++ lit "            <start> ::= <a> <empty>" ++ [10%N] ++ lit "            <a> ::= 'a' <empty>") =
    Ok (ROk nested_base) /\
  fst (nested_empty_grammar scripted ([1; 1], [], [])) =
    [mkProd (N_ "start") [[N_ "a"; N_ "empty"]]; mkProd (N_ "a") [[T_ "a"; N_ "empty"; N_ "empty"]]; mkProd (N_ "empty") [[T_ ""]]] /\
  Forall2 (fun text g => grammar_from_str ascii_alpha text = Ok (ROk g)) terminating_texts terminating_grammars /\
  (exists t m, derives (nth 2 terminating_grammars []) t /\ yield t = lit "1,2" /\ display_mermaid t = Ok m /\
     count_mermaid_edges m = 6 /\ count_parse_tree_edges t = 6) /\
  unescape_mermaid_entity_codes (escape_mermaid_label (lit "a ""[#34;]"" & b")) = lit "a ""[#34;]"" & b" /\
  unescape_mermaid_entity_codes (lit "#34; #x #34 #9; #3:; #3/; #;") = lit """ #x #34 " ++ [9%N] ++ lit " #3:; #3/; #;" /\
  unescape_mermaid_entity_codes (lit "#55295;#55296;#57343;#57344;#1114111;#1114112;#4294967361;") =
    [55295%N] ++ lit "#55296#57343" ++ [57344%N; 1114111%N] ++ lit "#1114112#4294967361" /\
  str_lines (lit "ab" ++ [13; 10]%N ++ lit "c" ++ [10; 10]%N) = [lit "ab"; lit "c"; []] /\
  fst (mermaid_label_content scripted ([], [], [lit "it's 'a'"])) = lit "it_s _a_".
Proof.
  do 5 (split; [vm_compute; reflexivity|]). split; [exact terminating_read|].
  split; [|repeat split; vm_compute; reflexivity].
  set (d := fun c : char => Sub (Node (N_ "digit") [Leaf [c]])).
  set (t := Node (N_ "list") [d 49%N; Leaf (lit ","); Sub (Node (N_ "list") [d 50%N])]).
  exists t. eexists. split; [|split; [reflexivity|]].
  - set (g := nth 2 terminating_grammars []).
    assert (Hd : forall c, In c [48; 49; 50]%N -> derives g (Node (N_ "digit") [Leaf [c]])).
    { intros c Hc. apply (derives_node g (mkProd (N_ "digit") [[T_ "0"]; [T_ "1"]; [T_ "2"]]) [Terminal [c]]).
      - right. left. reflexivity.
      - destruct Hc as [<-|[<-|[<-|[]]]]; cbn; tauto.
      - repeat constructor. }
    apply (derives_node g (mkProd (N_ "list") [[N_ "digit"]; [N_ "digit"; T_ ","; N_ "list"]]) [N_ "digit"; T_ ","; N_ "list"]).
    + left. reflexivity.
    + right. left. reflexivity.
    + repeat constructor; try (apply Hd; cbn; tauto).
      apply (derives_node g (mkProd (N_ "list") [[N_ "digit"]; [N_ "digit"; T_ ","; N_ "list"]]) [N_ "digit"]); try (left; reflexivity).
      repeat constructor. apply Hd. cbn. tauto.
  - split; [vm_compute; reflexivity|]. split; vm_compute; reflexivity.
Qed.

Lemma take_digits_spec d : forall s, forallb is_digit d = true -> (forall c r, s = c :: r -> is_digit c = false) -> take_digits (d ++ s) = (d, s).
Proof.
  induction d as [|c d IH]; intros s Hd Hs; cbn [app].
  - destruct s as [|c r]; [reflexivity|]. cbn [take_digits]. rewrite (Hs c r eq_refl). reflexivity.
  - cbn [forallb] in Hd. apply andb_prop in Hd. destruct Hd as [Hc Hd]. cbn [take_digits]. rewrite Hc, IH by assumption. reflexivity.
Qed.

Lemma take_digits_length s : length (fst (take_digits s)) + length (snd (take_digits s)) = length s.
Proof.
  induction s as [|c s IH]; [reflexivity|]. cbn [take_digits]. destruct (is_digit c); [|reflexivity]. destruct (take_digits s) as [d r]. cbn in *. lia.
Qed.

Lemma unescape_fuel : forall n s f f', length s <= n -> n < f -> n < f' -> unescape f s = unescape f' s.
Proof.
  induction n as [|n IH]; intros s [|f] [|f'] Hn Hf Hf'; try lia; (destruct s as [|c r]; [reflexivity|]); cbn [length] in Hn; [lia|]; cbn [unescape].
  pose proof (take_digits_length r) as Hl. assert (E : forall t, length t <= length r -> unescape f t = unescape f' t) by (intros t Ht; apply IH; unfold str, char in *; lia).
  destruct (N.eqb c 35%N); [|f_equal; apply E; lia]. destruct (take_digits r) as [d r']. cbn [fst snd] in Hl.
  assert (E1 : unescape f r' = unescape f' r') by (apply E; unfold str, char in *; lia).
  assert (E2 : forall t x, r' = x :: t -> unescape f t = unescape f' t) by (intros t x ->; apply E; cbn [length] in Hl; unfold str, char in *; lia).
  destruct d as [|x d]; [rewrite E1; reflexivity|].
  destruct r' as [|y t]; [rewrite E1; reflexivity|]. rewrite (E2 t y eq_refl), E1. reflexivity.
Qed.

Lemma unescape_step s f : length s < f -> unescape f s = unescape_mermaid_entity_codes s.
Proof. intro H. apply (unescape_fuel (length s)); lia. Qed.

Lemma decoder_steps : let u := unescape_mermaid_entity_codes in
  u [] = [] /\
  (forall c s, c <> 35%N -> u (c :: s) = c :: u s) /\
  (forall d s, forallb is_digit d = true -> (forall c r, s = c :: r -> is_digit c = false) -> (forall r, s = 59%N :: r -> d = []) ->
    u (35%N :: d ++ s) = 35%N :: d ++ u s) /\
  (forall d s, forallb is_digit d = true -> d <> [] -> let n := digits_value d in
    ((n < 55296 \/ 57344 <= n < 1114112)%N -> u (35%N :: d ++ 59%N :: s) = n :: u s) /\
    (~ (n < 55296 \/ 57344 <= n < 1114112)%N -> u (35%N :: d ++ 59%N :: s) = 35%N :: d ++ u s)) /\
  digits_value [] = 0%N /\ forall d c, digits_value (d ++ [c]) = (10 * digits_value d + (c - 48))%N.
Proof.
  intro u. split; [reflexivity|]. split; [|split; [|split; [|split; [reflexivity|]]]].
  - intros c s Hc. unfold u, unescape_mermaid_entity_codes at 1. cbn [unescape]. apply N.eqb_neq in Hc. rewrite Hc. reflexivity.
  - intros d s Hd Hs H59. unfold u, unescape_mermaid_entity_codes at 1. cbn [unescape]. rewrite N.eqb_refl, (take_digits_spec d s Hd Hs).
    rewrite unescape_step by (cbn [length]; rewrite app_length; unfold str, char; lia).
    destruct d as [|x d]; [reflexivity|]. destruct s as [|y s]; [reflexivity|]. destruct (N.eq_dec y 59) as [->|Hy]; [specialize (H59 s eq_refl); discriminate|].
    assert (Hm : forall A (P Q : A), match y with 59%N => P | _ => Q end = Q).
    { intros A P Q. clear - Hy. destruct y as [|p]; [reflexivity|]. do 6 (destruct p as [p|p|]; try reflexivity). contradiction. }
    apply Hm.
  - intros d s Hd Hne n.
    assert (E : u (35%N :: d ++ 59%N :: s) = if N.ltb n 4294967296 then match char_of_u32 n with Some ch => ch :: u s | None => 35%N :: d ++ u s end else 35%N :: d ++ u s).
    { unfold u at 1, unescape_mermaid_entity_codes. cbn [unescape]. rewrite N.eqb_refl, (take_digits_spec d (59%N :: s) Hd) by (intros c r Hcr; injection Hcr as <- _; reflexivity).
      assert (El : length s < length (35%N :: d ++ 59%N :: s)) by (cbn [length]; rewrite app_length; cbn [length]; unfold str, char; lia).
      pose proof (unescape_step s _ El) as Es. destruct d as [|x d]; [contradiction|]. cbv beta iota.
      match goal with |- context [unescape ?f s] => replace (unescape f s) with (u s) by (symmetry; exact Es) end. reflexivity. }
    rewrite E. unfold char_of_u32. split; intro Hn.
    + replace (N.ltb n 4294967296) with true by (symmetry; apply N.ltb_lt; lia).
      replace (N.ltb n 55296 || N.ltb 57343 n && N.ltb n 1114112) with true; [reflexivity|]. symmetry. apply orb_true_iff. rewrite andb_true_iff, !N.ltb_lt. lia.
    + replace (N.ltb n 55296 || N.ltb 57343 n && N.ltb n 1114112) with false; [destruct (N.ltb n 4294967296); reflexivity|].
      symmetry. apply orb_false_iff. rewrite andb_false_iff, !N.ltb_ge. lia.
  - intros d c. unfold digits_value. rewrite fold_left_app. reflexivity.
Qed.
