(** The repository's property tests hold for every value of their generators. *)
From Verif Require Import EarleyMain EarleyTerm ParseGrammarProofs GenProofs StrategyProofs StrategyExact Facts_Generation Facts_Text TextMain GrammarSpec ParseExamples PropTests.
From Coq Require Import Lia Permutation.
From Coq Require String.
Import String.StringSyntax.

Section Each.
  Context {G A : Type} (f : nat -> G -> A * G).
  Lemma each_length : forall n from g, length (fst (each f from n g)) = n.
  Proof.
    induction n as [|n IH]; intros from g; [reflexivity|]. cbn [each]. destruct (f from g) as [x g1]. specialize (IH (S from) g1).
    destruct (each f (S from) n g1) as [l g2]. cbn [fst length] in *. rewrite IH. reflexivity.
  Qed.
  Lemma each_nth : forall n from g k x, nth_error (fst (each f from n g)) k = Some x -> k < n /\ exists g', x = fst (f (from + k) g').
  Proof.
    induction n as [|n IH]; intros from g k x H; [destruct k; discriminate|]. cbn [each] in H.
    destruct (f from g) as [y g1] eqn:E. specialize (IH (S from) g1).
    destruct (each f (S from) n g1) as [l g2]. cbn [fst] in *. destruct k as [|k]; cbn [nth_error] in H.
    - injection H as <-. split; [lia|]. exists g. rewrite Nat.add_0_r, E. reflexivity.
    - destruct (IH k x H) as (Hk & g' & E'). split; [lia|]. exists g'. rewrite E'. do 2 f_equal. lia.
  Qed.
  Lemma each_In n from g x : In x (fst (each f from n g)) -> exists i g', from <= i < from + n /\ x = fst (f i g').
  Proof.
    intro H. apply In_nth_error in H. destruct H as [k H]. destruct (each_nth _ _ _ _ _ H) as (Hk & g' & E).
    exists (from + k), g'. split; [lia|exact E].
  Qed.
  Lemma each_nil n from g : fst (each f from n g) = [] -> n = 0.
  Proof. intro E. pose proof (each_length n from g) as H. rewrite E in H. symmetry. exact H. Qed.
  Lemma each_first n from g : In (fst (f from g)) (fst (each f from (S n) g)).
  Proof. cbn [each]. destruct (f from g) as [x g1]. destruct (each f (S from) n g1) as [l g2]. left. reflexivity. Qed.
End Each.

(** Destructing a [let (x, g) := e in ...] while keeping [fst e]. *)
Ltac draw H := match goal with |- context [let (_, _) := ?e in _] => destruct e eqn:H end.

(** ** Texts *)

Section RoundTrip.
  Context {G : Type} (ops : gen_ops G).

  Lemma without_In c s x : In x (without c s) <-> In x s /\ x <> c.
  Proof.
    unfold without. rewrite filter_In. split; intros [H E]; (split; [exact H|]).
    - intros ->. rewrite N.eqb_refl in E. discriminate.
    - apply N.eqb_neq in E. rewrite E. reflexivity.
  Qed.
  Lemma contains_spec c s : str_contains c s = true <-> In c s.
  Proof.
    unfold str_contains. rewrite existsb_exists. split.
    - intros (x & Hx & E). apply N.eqb_eq in E. subst. exact Hx.
    - intro H. exists c. split; [exact H|apply N.eqb_refl].
  Qed.

  Lemma any_term_writable g : writable_term (fst (any_term ops g)).
  Proof.
    unfold any_term. draw E1. draw E2. destruct b; cbn [fst writable_term].
    - intro H. apply without_In in H. tauto.
    - intros [H1 H2]. destruct (str_contains 34%N s) eqn:E34.
      + apply without_In in H1. tauto.
      + destruct (str_contains 39%N s) eqn:E39.
        * apply without_In in H2. tauto.
        * apply contains_spec in H1. congruence.
  Qed.
  Lemma any_expression_writable g : writable_expression (fst (any_expression ops g)).
  Proof.
    unfold any_expression, any_vec. destruct (any_usize ops g) as [n g1]. pose proof (each_In (fun _ => any_term ops) n 0 g1) as HI.
    destruct (each (fun _ => any_term ops) 0 n g1) as [[|t ts] g2]; cbn [fst] in *.
    - pose proof (any_term_writable g2) as Hw. destruct (any_term ops g2) as [t g3]. split; [discriminate|].
      intros x [<-|[]]. exact Hw.
    - split; [discriminate|]. intros x Hx. destruct (HI x Hx) as (i & g' & _ & ->). apply any_term_writable.
  Qed.
  Lemma any_production_writable g : writable_production (fst (any_production ops g)).
  Proof.
    unfold any_production, any_vec. destruct (any_string ops g) as [s g0]. destruct (any_usize ops g0) as [n g1].
    assert (Hn : ~ In 62%N (without 62%N s)) by (intro H; apply without_In in H; tauto).
    pose proof (each_In (fun _ => any_expression ops) n 0 g1) as HI.
    destruct (each (fun _ => any_expression ops) 0 n g1) as [[|t ts] g2]; cbn [fst] in *.
    - pose proof (any_expression_writable g2) as Hw. destruct (any_expression ops g2) as [t g3]. cbn [fst] in *.
      split; [eexists; reflexivity|]. split; [exact Hn|]. split; [discriminate|]. intros x [<-|[]]. exact Hw.
    - split; [eexists; reflexivity|]. split; [exact Hn|]. split; [discriminate|]. intros x Hx.
      destruct (HI x Hx) as (i & g' & _ & ->). apply any_expression_writable.
  Qed.
  Lemma any_grammar_writable g : writable_grammar (fst (any_grammar ops g)).
  Proof.
    unfold any_grammar, any_vec. destruct (any_usize ops g) as [n g1]. pose proof (each_In (fun _ => any_production ops) n 0 g1) as HI.
    destruct (each (fun _ => any_production ops) 0 n g1) as [[|t ts] g2]; cbn [fst] in *.
    - pose proof (any_production_writable g2) as Hw. destruct (any_production ops g2) as [t g3]. split; [discriminate|].
      intros x [<-|[]]. exact Hw.
    - split; [discriminate|]. intros x Hx. destruct (HI x Hx) as (i & g' & _ & ->). apply any_production_writable.
  Qed.

  Lemma C76_round_trips_proof : forall alphabetic g, alphabetic_ok alphabetic ->
    (let t := fst (any_term ops g) in term_from_str alphabetic (display_term t) = Ok (ROk t)) /\
    (let e := fst (any_expression ops g) in expression_from_str alphabetic (display_expression e) = Ok (ROk e)) /\
    (let p := fst (any_production ops g) in production_from_str alphabetic (display_production p) = Ok (ROk p)) /\
    (let gr := fst (any_grammar ops g) in grammar_from_str alphabetic (display_grammar gr) = Ok (ROk gr)).
  Proof.
    intros al g Hal. repeat split.
    - apply C27_term_round_trip_proof; [exact Hal|]. apply any_term_writable.
    - apply C28_expression_round_trip_proof; [exact Hal|]. apply any_expression_writable.
    - apply C29_production_round_trip_proof; [exact Hal|]. apply any_production_writable.
    - apply C30_grammar_round_trip_proof; [exact Hal|]. apply any_grammar_writable.
  Qed.
End RoundTrip.

(** Scripted sources reach every writable value. *)
Definition scripted : gen_ops (list nat * list bool * list str) :=
  mkGen _ (fun g => match g with (n :: ns, bs, ss) => (n, (ns, bs, ss)) | _ => (0, g) end)
          (fun g => match g with (ns, b :: bs, ss) => (b, (ns, bs, ss)) | _ => (false, g) end)
          (fun g => match g with (ns, bs, s :: ss) => (s, (ns, bs, ss)) | _ => ([], g) end).

(** [f] can be made to return [x] and consume just a prefix of the script. *)
Definition reaches {A} (f : list nat * list bool * list str -> A * (list nat * list bool * list str)) (x : A) : Prop :=
  exists ns bs ss, forall ns' bs' ss', f (ns ++ ns', bs ++ bs', ss ++ ss') = (x, (ns', bs', ss')).

Lemma without_id c s : ~ In c s -> without c s = s.
Proof.
  induction s as [|x s IH]; intro H; [reflexivity|]. unfold without in *. cbn [filter].
  destruct (N.eqb_spec x c) as [->|_]; [contradiction H; left; reflexivity|]. cbn [negb]. f_equal. apply IH.
  intro Hi. apply H. right. exact Hi.
Qed.

Lemma reach_term t : writable_term t -> reaches (any_term scripted) t.
Proof.
  intro H. destruct t as [s|s].
  - exists [], [false], [s]. intros. cbn. do 2 f_equal. cbn [writable_term] in H.
    destruct (str_contains 34%N s) eqn:E34.
    + apply contains_spec in E34. apply without_id. tauto.
    + destruct (str_contains 39%N s) eqn:E39; [|reflexivity]. apply without_id. intro Hi. apply contains_spec in Hi. congruence.
  - exists [], [true], [s]. intros. cbn. do 2 f_equal. apply without_id. exact H.
Qed.
Lemma reach_each {A} (f : _ -> A * _) l : (forall x, In x l -> reaches f x) -> forall from, reaches (each (fun _ => f) from (length l)) l.
Proof.
  induction l as [|x l IH]; intros H from.
  - exists [], [], []. reflexivity.
  - destruct (H x (or_introl eq_refl)) as (n1 & b1 & s1 & E1).
    destruct (IH (fun y Hy => H y (or_intror Hy)) (S from)) as (n2 & b2 & s2 & E2).
    exists (n1 ++ n2), (b1 ++ b2), (s1 ++ s2). intros. cbn [length each]. rewrite <- !app_assoc, E1, E2. reflexivity.
Qed.
Lemma reach_vec {A} (f : _ -> A * _) l : (forall x, In x l -> reaches f x) -> reaches (any_vec scripted f) l.
Proof.
  intro H. destruct (reach_each f l H 0) as (n & b & s & E). exists (length l :: n), b, s. intros. cbn. apply E.
Qed.
Lemma reach_expression e : writable_expression e -> reaches (any_expression scripted) e.
Proof.
  intros [Hne H]. destruct (reach_vec (any_term scripted) e) as (n & b & s & E); [intros t Ht; apply reach_term, H, Ht|].
  exists n, b, s. intros. unfold any_expression. rewrite E. destruct e; [contradiction|reflexivity].
Qed.
Lemma reach_production p : writable_production p -> reaches (any_production scripted) p.
Proof.
  destruct p as [l es]. cbn [p_lhs p_rhs]. intros ((nm & El) & Hw & Hne & H). cbn [p_lhs p_rhs] in *. subst l.
  destruct (reach_vec (any_expression scripted) es) as (n & b & s & E); [intros t Ht; apply reach_expression, H, Ht|].
  exists n, b, (nm :: s). intros. unfold any_production. cbn [any_string scripted app]. rewrite E.
  destruct es; [contradiction|]. rewrite without_id by exact Hw. reflexivity.
Qed.
Lemma reach_grammar g : writable_grammar g -> reaches (any_grammar scripted) g.
Proof.
  intros [Hne H]. destruct (reach_vec (any_production scripted) g) as (n & b & s & E); [intros t Ht; apply reach_production, H, Ht|].
  exists n, b, s. intros. unfold any_grammar. rewrite E. destruct g; [contradiction|reflexivity].
Qed.
Lemma reaches_ex {A} (f : _ -> A * _) x : reaches f x -> exists g, fst (f g) = x.
Proof. intros (n & b & s & E). exists (n ++ [], b ++ [], s ++ []). rewrite E. reflexivity. Qed.

Lemma C76_values_proof :
  (forall t, writable_term t <-> exists g, fst (any_term scripted g) = t) /\
  (forall e, writable_expression e <-> exists g, fst (any_expression scripted g) = e) /\
  (forall p, writable_production p <-> exists g, fst (any_production scripted g) = p) /\
  (forall gr, writable_grammar gr <-> exists g, fst (any_grammar scripted g) = gr).
Proof.
  split; [|split; [|split]]; intro x; split.
  - intro H. apply reaches_ex, reach_term, H.
  - intros [g <-]. apply any_term_writable.
  - intro H. apply reaches_ex, reach_expression, H.
  - intros [g <-]. apply any_expression_writable.
  - intro H. apply reaches_ex, reach_production, H.
  - intros [g <-]. apply any_production_writable.
  - intro H. apply reaches_ex, reach_grammar, H.
  - intros [g <-]. apply any_grammar_writable.
Qed.

(** ** Grammars that refer to earlier names only *)

Definition layered (g : grammar) : Prop :=
  g <> [] /\ forall p, In p g -> exists k, p_lhs p = Nonterminal (nt_name k) /\ p_rhs p <> [] /\
    forall e, In e (p_rhs p) -> e <> [] /\
      forall n, In (Nonterminal n) e -> has_lhs g n /\ exists j, j < k /\ n = nt_name j.

Lemma nt_name_inj i j : nt_name i = nt_name j -> i = j.
Proof. unfold nt_name. intro H. apply app_inv_head in H. apply dec_inj. exact H. Qed.

Lemma names_nth k n : nth_error (map nt_name (seq 0 n)) k = if Nat.ltb k n then Some (nt_name k) else None.
Proof.
  rewrite nth_error_map. destruct (Nat.ltb_spec k n) as [H|H].
  - assert (E : nth_error (seq 0 n) k = Some k).
    { rewrite (nth_error_nth' _ 0) by (rewrite seq_length; exact H). rewrite seq_nth by exact H. reflexivity. }
    rewrite E. reflexivity.
  - rewrite (proj2 (nth_error_None _ _)) by (rewrite seq_length; exact H). reflexivity.
Qed.
Lemma names_nth' k n : k < n -> nth k (map nt_name (seq 0 n)) [] = nt_name k.
Proof.
  intro H. apply nth_error_nth. rewrite names_nth. destruct (Nat.ltb_spec k n); [reflexivity|lia].
Qed.

Section Layered.
  Context {G : Type} (ops : gen_ops G).

  Lemma earlier_term_spec n idx g x : fst (earlier_term ops (map nt_name (seq 0 n)) idx g) = Nonterminal x ->
    exists j, j < idx /\ j < n /\ x = nt_name j.
  Proof.
    unfold earlier_term, any_terminal. destruct (any_bool ops g) as [b g1].
    destruct (b && Nat.ltb 0 idx) eqn:E.
    - destruct (any_usize ops g1) as [k g2]. rewrite names_nth. apply andb_prop in E. destruct E as [_ E]. apply Nat.ltb_lt in E.
      pose proof (Nat.mod_upper_bound k idx). destruct (Nat.ltb_spec (k mod idx) n).
      + cbn [fst]. intro H1. injection H1 as <-. exists (k mod idx). lia || (split; [lia|]; split; [assumption|reflexivity]).
      + destruct (any_string ops g2) as [s g3]. discriminate.
    - destruct (any_string ops g1) as [s g3]. discriminate.
  Qed.

  Lemma layered_grammar_spec names least alts terms g : 0 < least -> alts <> 0 -> terms <> 0 ->
    layered (fst (layered_grammar ops names least alts terms g)).
  Proof.
    intros Hl Ha Ht. unfold layered_grammar. destruct (any_usize ops g) as [k g1]. set (n := k mod names + least).
    set (F := fun idx g => _). pose proof (each_length F n 0 g1) as HL.
    assert (HF : forall idx g', p_lhs (fst (F idx g')) = Nonterminal (nth idx (map nt_name (seq 0 n)) []) /\
                  p_rhs (fst (F idx g')) <> [] /\ forall e, In e (p_rhs (fst (F idx g'))) -> e <> [] /\
                    forall x, In (Nonterminal x) e -> exists j, j < idx /\ j < n /\ x = nt_name j).
    { intros idx g'. unfold F. destruct (any_usize ops g') as [a g2]. set (E := fun (_ : nat) g => _).
      pose proof (each_length E (a mod alts + 1) 0 g2) as HLe. pose proof (each_In E (a mod alts + 1) 0 g2) as HIe.
      destruct (each E 0 (a mod alts + 1) g2) as [es g3]. cbn [fst p_lhs p_rhs] in *. split; [reflexivity|]. split.
      - intros ->. cbn in HLe. lia.
      - intros e He. destruct (HIe e He) as (i & g4 & _ & Ee). clear - Ee. unfold E in Ee.
        destruct (any_usize ops g4) as [t g5]. set (T := fun _ : nat => _) in Ee.
        pose proof (each_length T (t mod terms + 1) 0 g5) as HLt. pose proof (each_In T (t mod terms + 1) 0 g5) as HIt.
        rewrite <- Ee in *. split; [intros ->; cbn in HLt; lia|].
        intros x Hx. destruct (HIt _ Hx) as (i' & g6 & _ & Ex). unfold T in Ex. symmetry in Ex. exact (earlier_term_spec _ _ _ _ Ex). }
    assert (Hin : forall j, j < n -> has_lhs (fst (each F 0 n g1)) (nt_name j)).
    { intros j Hj. destruct (nth_error (fst (each F 0 n g1)) j) as [p|] eqn:E.
      - exists p. split; [exact (nth_error_In _ _ E)|]. destruct (each_nth F n 0 g1 j p E) as (_ & g' & ->).
        rewrite (proj1 (HF _ g')). rewrite names_nth' by exact Hj. reflexivity.
      - apply nth_error_None in E. lia. }
    split.
    - intro E0. apply (each_nil F n 0 g1) in E0. unfold n in E0. lia.
    - intros p Hp. destruct (each_In F n 0 g1 p Hp) as (i & g' & Hi & ->). destruct (HF i g') as (E1 & E2 & E3). exists i.
      split; [rewrite E1, names_nth' by lia; reflexivity|]. split; [exact E2|]. intros e He. destruct (E3 e He) as [Hne Hx].
      split; [exact Hne|]. intros x Hxe. destruct (Hx x Hxe) as (j & Hj & Hjn & ->). split; [exact (Hin j Hjn)|].
      exists j. split; [exact Hj|reflexivity].
  Qed.
End Layered.

Lemma layered_permutation g g' : Permutation g g' -> layered g -> layered g'.
Proof.
  intros HP [Hne H]. split.
  - intros ->. apply Permutation_sym, Permutation_nil in HP. contradiction.
  - intros p Hp. destruct (H p (Permutation_in _ (Permutation_sym HP) Hp)) as (k & E1 & E2 & E3). exists k.
    split; [exact E1|]. split; [exact E2|]. intros e He. destruct (E3 e He) as [E4 E5]. split; [exact E4|].
    intros n Hn. destruct (E5 n Hn) as [(q & Hq & Eq) Hj]. split; [|exact Hj]. exists q. split; [exact (Permutation_in _ HP Hq)|exact Eq].
Qed.

Lemma layered_acyclic g : layered g -> ~ cyclic g.
Proof.
  intros [_ H] [a Ha].
  assert (Hs : forall x y, Relation_Operators.clos_trans str (unit_step g) x y -> exists i j, j < i /\ x = nt_name i /\ y = nt_name j).
  { induction 1 as [x y (p & u & v & Hp & El & He & _)|x y z _ (i & j & Hij & -> & ->) _ (i' & j' & Hij' & E & ->)].
    - destruct (H p Hp) as (k & E1 & _ & E3). rewrite El in E1. injection E1 as ->.
      destruct (E3 _ He) as [_ E4]. destruct (E4 y) as (_ & j & Hj & ->); [apply in_or_app; right; left; reflexivity|]. eauto.
    - apply nt_name_inj in E. subst i'. exists i, j'. split; [lia|]. auto. }
  destruct (Hs a a Ha) as (i & j & Hij & E1 & E2). rewrite E1 in E2. apply nt_name_inj in E2. lia.
Qed.

Lemma layered_builds ho g : layered g -> exists p, build_parser ho g = ROk p.
Proof.
  intros [Hne H]. apply build_parser_spec. split; [exact Hne|]. intros x (p & e & Hp & He & Hx).
  destruct (H p Hp) as (k & _ & _ & E). destruct (proj2 (E e He) x Hx) as [(q & Hq & Eq) _].
  destruct (H q Hq) as (k' & _ & Hr & _). destruct (p_rhs q) as [|e' es] eqn:Er; [contradiction|].
  exists q, e'. split; [exact Hq|]. split; [exact Eq|]. rewrite Er. left. reflexivity.
Qed.

(** Every name of a layered grammar has a derivation. *)
Lemma layered_productive g : layered g -> forall k, has_lhs g (nt_name k) -> exists t, derives g t /\ root t = Nonterminal (nt_name k).
Proof.
  intros [_ H] k. induction k as [k IH] using (well_founded_induction Wf_nat.lt_wf). intros (p & Hp & El).
  destruct (H p Hp) as (k' & E1 & E2 & E3). rewrite El in E1. assert (E0 : nt_name k = nt_name k') by congruence. apply nt_name_inj in E0. subst k'.
  destruct (p_rhs p) as [|e es] eqn:Er; [contradiction|]. destruct (E3 e (or_introl eq_refl)) as [_ He].
  assert (Hk : exists kids, kids_match g e kids).
  { clear - He IH. induction e as [|[s|n] e IHe].
    - exists []. constructor.
    - destruct IHe as [ks Hks]; [intros n Hn; apply He; right; exact Hn|]. exists (Leaf s :: ks). constructor. exact Hks.
    - destruct IHe as [ks Hks]; [intros m Hm; apply He; right; exact Hm|]. destruct (He n (or_introl eq_refl)) as (Hl & j & Hj & ->).
      destruct (IH j Hj Hl) as (t & Ht & Hr). exists (Sub t :: ks). constructor; assumption. }
  destruct Hk as [kids Hk]. exists (Node (p_lhs p) kids). split; [|exact El]. apply (derives_node g p e kids Hp); [rewrite Er; left; reflexivity|exact Hk].
Qed.
