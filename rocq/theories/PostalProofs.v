(** Proofs of the theorems of Properties_Postal.v. *)
From Verif Require Export PropTests Postal TextExamples EarleyMain GenProofs StrategyProofs Facts_Strategies Facts_Expect CoverDraws Facts_PropTests.
From Verif Require Import FixtureProofs Facts_Fixtures Facts_GenErrors Facts_Generation ParseGrammarProofs TreeProofs EarleyTerm.
From Coq Require Import Lia.
From Coq Require String.
Import String.StringSyntax.
Open Scope list_scope.

(** ** Reading *)

Lemma postal_read : grammar_from_str ascii_alpha postal_text = Ok (ROk postal_grammar).
Proof. vm_compute. reflexivity. Qed.

Lemma postal_valid : postal_grammar <> [] /\ (forall p, In p postal_grammar -> p_rhs p <> []) /\ validate id_order postal_grammar = ROk tt.
Proof.
  split; [discriminate|]. split; [|vm_compute; reflexivity].
  intros p Hp. cbn [In postal_grammar] in Hp. repeat (destruct Hp as [<-|Hp]); try contradiction; discriminate.
Qed.

Lemma postal_terminates : terminates 30 postal_grammar = Ok true.
Proof. vm_compute. reflexivity. Qed.

(** ** Estimates, computed with binary numbers *)

Definition load_N (W : str -> N) (e : expression) : N :=
  fold_right N.add 0%N (map (fun t => match t with Nonterminal n => W n | Terminal _ => 0%N end) e).
Definition estimate_N (g : grammar) (alts : production -> list expression) (K : N) (W : str -> N) : bool :=
  forallb (fun p => match p_lhs p with
                    | Nonterminal n => (K * N.of_nat (length (alts p)) + fold_right N.add 0 (map (load_N W) (alts p)) <=? W n * N.of_nat (length (alts p)))%N
                    | Terminal _ => true
                    end) g.

Lemma load_N_spec W e : load (fun n => N.to_nat (W n)) e = N.to_nat (load_N W e).
Proof.
  unfold load, load_N. induction e as [|[s|n] e IH]; cbn [map fold_right list_sum]; [reflexivity| |];
    unfold list_sum in IH; rewrite IH, N2Nat.inj_add; reflexivity.
Qed.
Lemma loads_N_spec W es : list_sum (map (load (fun n => N.to_nat (W n))) es) = N.to_nat (fold_right N.add 0%N (map (load_N W) es)).
Proof. induction es as [|e es IH]; [reflexivity|]. cbn [map fold_right]. change (list_sum (?x :: ?l)) with (x + list_sum l). rewrite IH, load_N_spec, N2Nat.inj_add. reflexivity. Qed.

Lemma estimate_N_spec g alts K W : (forall d, exists a, (forall p, alts d p = a p) /\ estimate_N g a K W = true) ->
  estimate g alts (N.to_nat K) (fun _ n => N.to_nat (W n)).
Proof.
  intros H d n p Hf _. destruct (H d) as (a & Ha & He). rewrite Ha. destruct (first_for_In _ _ _ Hf) as [Hp El].
  unfold estimate_N in He. rewrite forallb_forall in He. specialize (He p Hp). cbn beta in He. rewrite El in He. apply N.leb_le in He.
  rewrite loads_N_spec. lia.
Qed.

Definition divides_N (g : grammar) (alts : production -> list expression) (base : N) : bool :=
  forallb (fun p => match N.of_nat (length (alts p)) with 0%N => false | m => (base mod m =? 0)%N end) g.
Lemma divides_N_spec g (alts : production -> list expression) b base : divides_N g alts b = true -> Nat.divide (N.to_nat b) base ->
  forall q, In q g -> Nat.divide (length (alts q)) base.
Proof.
  intros H Hb q Hq. unfold divides_N in H. rewrite forallb_forall in H. specialize (H q Hq). cbn beta in H.
  destruct (N.of_nat (length (alts q))) as [|m] eqn:E; [discriminate|]. apply N.eqb_eq in H.
  apply N.mod_divide in H; [|discriminate]. destruct H as [k Hk]. refine (Nat.divide_trans _ _ _ _ Hb).
  exists (N.to_nat k). rewrite Hk, <- E. lia.
Qed.

(** Four times the average number of draws below a nonterminal. *)
Definition assoc_N (l : list (str * N)) (n : str) : N :=
  match find (fun x => str_eqb (fst x) n) l with Some (_, k) => k | None => 4%N end.
Definition postal_draws : str -> N := assoc_N
  [(lit "postal-address", 233); (lit "name-part", 69); (lit "personal-part", 16); (lit "street-address", 76); (lit "zip-part", 84);
   (lit "opt-suffix-part", 5); (lit "opt-apt-num", 12); (lit "first-name", 20); (lit "last-name", 20); (lit "name-word", 16);
   (lit "house-num", 16); (lit "apt-num", 16); (lit "street-name", 40); (lit "town-name", 40); (lit "word", 16);
   (lit "state-code", 12); (lit "ZIP-code", 24)]%N.
Definition weighted_draws : str -> N := assoc_N
  [(lit "postal-address", 208133); (lit "name-part", 42837); (lit "personal-part", 412); (lit "street-address", 83236); (lit "zip-part", 82056);
   (lit "opt-suffix-part", 5); (lit "opt-apt-num", 408); (lit "first-name", 812); (lit "last-name", 812); (lit "name-word", 808);
   (lit "house-num", 808); (lit "apt-num", 808); (lit "street-name", 82012); (lit "town-name", 82012); (lit "word", 808);
   (lit "state-code", 12); (lit "ZIP-code", 24)]%N.

Lemma postal_estimate : estimate_N postal_grammar p_rhs 4 postal_draws = true.
Proof. vm_compute. reflexivity. Qed.
Lemma postal_estimate_depth : estimate_N postal_grammar (depth_alternatives 0 0) 4 postal_draws = true.
Proof. vm_compute. reflexivity. Qed.
Lemma postal_estimate_weighted : estimate_N postal_grammar (weighted_alternatives 100 1 0) 4 weighted_draws = true.
Proof. vm_compute. reflexivity. Qed.

Definition coverage_N : N := (postal_draws (lit "postal-address") +
  fold_right N.add 0 (map (fun q => fold_right N.add 0 (map (load_N postal_draws) (p_rhs q))) postal_grammar))%N.

(** ** Errors *)

Lemma postal_no_lone : forall q, In q postal_grammar -> p_rhs q <> [] /\ p_rhs q <> [[]].
Proof.
  intros q Hq. cbn [In postal_grammar] in Hq. repeat (destruct Hq as [<-|Hq]); try contradiction; split; discriminate.
Qed.

Lemma postal_no_error S (choose : S -> nat -> production -> nat -> res (option expression * S)) accept fuel st x st' : lawful choose ->
  (forall st addr q d st', p_rhs q <> [] -> choose st addr q d <> Ok (None, st')) ->
  generate choose accept postal_grammar fuel st <> Ok (RErr x, st').
Proof.
  intros Hl Hc H. destruct (C79_causes_proof _ _ _ _ _ _ _ _ Hl H) as (m & _ & [(_ & p & rest & Eg & Hn)|[(_ & E)|[(p & rest & s & _ & Eg & El)|[(_ & p & rest & start & n & q & _ & _ & _ & Hf & Hq)|(_ & st1 & addr & q & d & st2 & Hn & E)]]]]).
  - apply Hn. pose proof (proj1 (terminates_spec _ _ _ postal_terminates) eq_refl) as Hp. rewrite Eg in Hp. cbn [starting_term] in Hp. rewrite Eg. exact Hp.
  - discriminate.
  - injection Eg as <- _. discriminate.
  - destruct (first_for_In _ _ _ Hf) as [Hp _]. destruct (postal_no_lone q Hp) as [H1 H2]. destruct Hq; contradiction.
  - apply nth_error_In in Hn. exact (Hc _ _ _ _ _ (proj1 (postal_no_lone q Hn)) E).
Qed.

Lemma C93_unwrap_proof : forall R (rng : rng_ops R) fuel x,
  (forall accept r st', generate (random_walk rng) accept postal_grammar fuel r <> Ok (RErr x, st')) /\
  (forall max accept r st', generate (depth_bounded rng max) accept postal_grammar fuel r <> Ok (RErr x, st')) /\
  (forall accept c st', generate (coverage_guided rng) accept postal_grammar fuel c <> Ok (RErr x, st')) /\
  (forall checks rec nonrec accept r st', generate (weighted rng checks rec nonrec) accept postal_grammar fuel r <> Ok (RErr x, st')).
Proof.
  intros R rng fuel x. destruct (C79_strategies_proof R rng) as (Hl & Hw & Hc). destruct (Hl 0) as (H1 & _ & H3).
  split; [|split; [|split]].
  - intros accept r st'. apply postal_no_error; [exact H1|]. intros st0 addr q d st1 Hq. exact (proj1 (Hc addr q d Hq) st0 st1).
  - intros max accept r st'. apply postal_no_error; [exact (proj1 (proj2 (Hl max)))|]. intros st0 addr q d st1 Hq. exact (proj1 (proj2 (Hc addr q d Hq)) max st0 st1).
  - intros accept c st'. apply postal_no_error; [exact H3|]. intros st0 addr q d st1 Hq. exact (proj1 (proj2 (proj2 (Hc addr q d Hq))) st0 st1).
  - intros checks rec nonrec accept r st'. apply postal_no_error; [exact (Hw checks rec nonrec)|]. intros st0 addr q d st1 Hq.
    exact (proj2 (proj2 (proj2 (Hc addr q d Hq))) checks rec nonrec st0 st1).
Qed.

(** ** Averages *)
Notation yes := (fun _ _ : str => true).

Lemma C93_random_walk_proof : forall base len, Nat.divide 260 base ->
  average_draws (fun f fuel => generate_random (stream_rng f) yes postal_grammar fuel 0) base len 4 233.
Proof.
  intros base len Hb.
  apply (C85_random_walk_proof postal_grammar _ _ (lit "postal-address") 30 eq_refl eq_refl postal_terminates (N.to_nat 4) (fun _ n => N.to_nat (postal_draws n))).
  - apply estimate_N_spec. intro d. exists p_rhs. split; [reflexivity|exact postal_estimate].
  - intros d q Hq _. apply (divides_N_spec postal_grammar p_rhs 260 base); [vm_compute; reflexivity|exact Hb|exact Hq].
Qed.

Lemma depth_choice max d : (forall p, depth_alternatives max d p = p_rhs p) \/ (forall p, depth_alternatives max d p = depth_alternatives 0 0 p).
Proof. unfold depth_alternatives. destruct (d <? max); [left|right]; reflexivity. Qed.

Lemma C93_depth_bounded_proof : forall max base len, Nat.divide 780 base ->
  average_draws (fun f fuel => generate (depth_bounded (stream_rng f) max) (pure_callback yes) postal_grammar fuel 0) base len 4 233.
Proof.
  intros max base len Hb.
  apply (C85_depth_bounded_proof postal_grammar _ _ (lit "postal-address") 30 eq_refl eq_refl postal_terminates (N.to_nat 4) (fun _ n => N.to_nat (postal_draws n))).
  - apply estimate_N_spec. intro d. destruct (depth_choice max d) as [H|H]; [exists p_rhs|exists (depth_alternatives 0 0)]; (split; [exact H|]); [exact postal_estimate|exact postal_estimate_depth].
  - intros d q Hq _. destruct (depth_choice max d) as [H|H]; rewrite H.
    + apply (divides_N_spec postal_grammar p_rhs 780 base); [vm_compute; reflexivity|exact Hb|exact Hq].
    + apply (divides_N_spec postal_grammar (depth_alternatives 0 0) 780 base); [vm_compute; reflexivity|exact Hb|exact Hq].
Qed.

Lemma C93_weighted_proof : forall checks base len, Nat.divide (N.to_nat 26260) base ->
  average_draws (fun f fuel => generate (weighted (stream_rng f) checks 100 1) (pure_callback yes) postal_grammar fuel 0) base len 4 (N.to_nat 208133).
Proof.
  intros checks base len Hb.
  apply (C85_weighted_proof postal_grammar _ _ (lit "postal-address") 30 eq_refl eq_refl postal_terminates (N.to_nat 4) (fun _ n => N.to_nat (weighted_draws n)) base len checks 100%N 1%N).
  - apply estimate_N_spec. intro d. exists (weighted_alternatives 100 1 0). split; [reflexivity|exact postal_estimate_weighted].
  - apply Forall_forall. repeat constructor; vm_compute; reflexivity.
  - intros d q Hq _. change (weighted_alternatives 100 1 d q) with (weighted_alternatives 100 1 0 q).
    apply (divides_N_spec postal_grammar (weighted_alternatives 100 1 0) 26260 base); [vm_compute; reflexivity|exact Hb|exact Hq].
Qed.

Lemma C93_coverage_proof : forall seen base len, Nat.divide 260 base ->
  average_draws (fun f fuel => let* (r, c) := generate (coverage_guided (stream_rng f)) (pure_callback yes) postal_grammar fuel (mkCov seen 0) in
                               Ok (r, c_rng c)) base len 4 1088.
Proof.
  intros seen base len Hb.
  pose proof (cover_average postal_grammar _ _ (lit "postal-address") 30 eq_refl eq_refl postal_terminates seen (N.to_nat 4) (fun n => N.to_nat (postal_draws n)) base len) as H.
  assert (E : N.to_nat (postal_draws (lit "postal-address")) + list_sum (map (fun q => list_sum (map (load (fun n => N.to_nat (postal_draws n))) (p_rhs q))) postal_grammar) = 1088)
    by (vm_compute; reflexivity).
  cbn beta in H. rewrite E in H. apply H.
  - intros q Hq _. apply (divides_N_spec postal_grammar p_rhs 260 base); [vm_compute; reflexivity|exact Hb|exact Hq].
  - apply estimate_N_spec. intro d. exists p_rhs. split; [reflexivity|exact postal_estimate].
Qed.

(** ** Grammars without cycles: every step consumes something or descends *)

Definition consumes (C : str -> bool) (t : term) : bool := match t with Terminal s => negb (str_eqb s []) | Nonterminal n => C n end.

Lemma consuming_yields g C : (forall p e n, In p g -> p_lhs p = Nonterminal n -> C n = true -> In e (p_rhs p) -> existsb (consumes C) e = true) ->
  (forall t, derives g t -> forall n, root t = Nonterminal n -> C n = true -> yield t <> []) /\
  (forall e ks, kids_match g e ks -> existsb (consumes C) e = true -> yields ks <> []).
Proof.
  intro Hg. apply (derives_mutind g (fun t _ => forall n, root t = Nonterminal n -> C n = true -> yield t <> [])
    (fun e ks _ => existsb (consumes C) e = true -> yields ks <> [])).
  - intros p e ks Hp He _ IH n El HC. cbn [root] in El. cbn [yield]. apply IH. exact (Hg p e n Hp El HC He).
  - discriminate.
  - intros s r ks _ IH H. cbn [existsb consumes] in H. change (yields (Leaf s :: ks)) with (s ++ yields ks).
    apply orb_true_iff in H. intro E. apply app_eq_nil in E. destruct E as [-> E]. destruct H as [H|H]; [discriminate|exact (IH H E)].
  - intros n t r ks Hr _ IHt _ IH H. cbn [existsb consumes] in H. change (yields (Sub t :: ks)) with (yield t ++ yields ks).
    apply orb_true_iff in H. intro E. apply app_eq_nil in E. destruct E as [E1 E2]. destruct H as [H|H]; [exact (IHt n Hr H E1)|exact (IH H E2)].
Qed.

Fixpoint descends (C : str -> bool) (rank : str -> nat) (a : str) (before e : expression) : bool :=
  match e with
  | [] => true
  | t :: e' => match t with
               | Nonterminal n => existsb (consumes C) (before ++ e') || (rank n <? rank a)
               | Terminal _ => true
               end && descends C rank a (before ++ [t]) e'
  end.

Lemma descends_spec C rank a n y : forall x before, descends C rank a before (x ++ Nonterminal n :: y) = true ->
  existsb (consumes C) ((before ++ x) ++ y) = true \/ rank n < rank a.
Proof.
  induction x as [|t x IH]; intros before H; cbn [descends app] in H; apply andb_true_iff in H; destruct H as [H1 H2].
  - rewrite app_nil_r. apply orb_true_iff in H1. destruct H1 as [H1|H1]; [left; exact H1|right; apply Nat.ltb_lt; exact H1].
  - apply IH in H2. rewrite <- (app_assoc before [t] x) in H2. exact H2.
Qed.

Definition descending (g : grammar) (C : str -> bool) (rank : str -> nat) : bool :=
  forallb (fun p => match p_lhs p with
                    | Nonterminal a => forallb (fun e => (negb (C a) || existsb (consumes C) e) && descends C rank a [] e) (p_rhs p)
                    | Terminal _ => true
                    end) g.

Lemma descending_acyclic g C rank : descending g C rank = true -> ~ cyclic g.
Proof.
  intros H (a & Ha). unfold descending in H. rewrite forallb_forall in H.
  assert (Hg : forall p e n, In p g -> p_lhs p = Nonterminal n -> In e (p_rhs p) ->
    (C n = true -> existsb (consumes C) e = true) /\ descends C rank n [] e = true).
  { intros p e n Hp El He. specialize (H p Hp). cbn beta in H. rewrite El, forallb_forall in H. specialize (H e He).
    apply andb_true_iff in H. destruct H as [H1 H2]. split; [|exact H2]. intro HC. rewrite HC in H1. exact H1. }
  destruct (consuming_yields g C (fun p e n Hp El HC He => proj1 (Hg p e n Hp El He) HC)) as [_ Hc].
  assert (Hnull : forall e, nullable g e -> existsb (consumes C) e = false).
  { intros e (ss & Hr & Hs). destruct (existsb (consumes C) e) eqn:E; [|reflexivity]. exfalso.
    destruct (rewrites_kids _ _ _ Hr ss eq_refl) as (ks & Hk & Ey). apply (Hc e ks Hk E). rewrite Ey. exact Hs. }
  assert (Hs : forall x y, unit_step g x y -> rank y < rank x).
  { intros x y (p & u & v & Hp & El & Hin & Hu & Hv). destruct (descends_spec _ _ _ _ _ _ _ (proj2 (Hg p _ x Hp El Hin))) as [H1|H1]; [|exact H1].
    cbn [app] in H1. rewrite existsb_app, (Hnull u Hu), (Hnull v Hv) in H1. discriminate. }
  assert (Ht : forall x y, Relation_Operators.clos_trans str (unit_step g) x y -> rank y < rank x).
  { induction 1 as [x y H1|x y z _ H1 _ H2]; [exact (Hs _ _ H1)|lia]. }
  specialize (Ht a a Ha). lia.
Qed.

Definition postal_rank : str -> nat := fun n => N.to_nat (assoc_N
  [(lit "letter", 0); (lit "digit", 0); (lit "roman-numeral", 0); (lit "initial", 0); (lit "EOL", 0);
   (lit "word", 1); (lit "name-word", 1); (lit "apt-num", 1); (lit "house-num", 1);
   (lit "street-name", 2); (lit "town-name", 2); (lit "first-name", 2); (lit "last-name", 2)]%N n).

Lemma postal_acyclic : ~ cyclic postal_grammar.
Proof.
  apply (descending_acyclic _ (fun n => negb (str_eqb n (lit "opt-suffix-part") || str_eqb n (lit "opt-apt-num"))) postal_rank).
  vm_compute. reflexivity.
Qed.

(** ** The benchmarks that generate and parse *)

Lemma C94_ends_proof : forall ho, exists p, build_parser ho postal_grammar = ROk p /\
  (forall w, exists it ts, parse_input p w = Ok it /\ grammar_parse_input postal_grammar w = Ok it /\ collects it ts /\
     forall t, In t ts <-> parses postal_grammar (N_ "postal-address") w t) /\
  forall S (choose : S -> nat -> production -> nat -> res (option expression * S)) accept fuel st w st', lawful choose ->
    generate choose accept postal_grammar fuel st = Ok (ROk w, st') ->
    forall it ts, parse_input p w = Ok it -> collects it ts -> ts <> [].
Proof.
  intro ho. destruct postal_valid as (Hne & Hr & Hv). destruct (proj1 (validate_build_agree id_order ho _ Hr) Hv) as [p Hb].
  exists p. split; [exact Hb|]. split.
  - intro w. destruct (opens_parser_ok _ _ _ w (N_ "postal-address") Hb) as [_ [it Hi]].
    pose proof (opens_default _ _ _ _ _ _ Hb (eq_refl : starting_term postal_grammar = Some (N_ "postal-address")) Hi) as Ho.
    destruct (acyclic_collects _ _ _ _ postal_acyclic Ho) as [ts Ht]. exists it, ts. split; [exact Hi|].
    split; [rewrite <- (proj1 (api_parity ho _ p w (N_ "postal-address") Hb)); exact Hi|]. split; [exact Ht|].
    destruct Ht as (it' & Hp & He). intro t. split; intro H.
    + exact (soundness _ _ _ _ _ _ _ Ho Hp H).
    + exact (exhaustive _ _ _ _ _ _ _ Ho Hp He H).
  - intros S choose accept fuel st w st' Hl Hw it ts Hi Ht ->.
    destruct (C17_generate_then_parse_proof S choose accept ho _ p fuel st w st' Hl Hb Hw) as (it1 & f1 & t & it2 & Hi1 & Hn).
    rewrite Hi in Hi1. injection Hi1 as <-. destruct Ht as (it' & Hp & He). inversion Hp; subst.
    apply (exhausted_no_more it' t [] it2 He). econstructor; [exact Hn|constructor].
Qed.
