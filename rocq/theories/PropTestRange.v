(** Which grammars the generators of the parser's property tests can give (C76). *)
From Verif Require Import ParseExamples PropTests PropTestProofs.
From Coq Require String.
Import String.StringSyntax.

(** Between [least] and [most] productions, called nt0, nt1, ..., with up to [alts] alternatives of up
    to [terms] terms; [ok i j k t]: the term [t] may stand at place [k] of alternative [j] of production [i]. *)
Definition numbered_grammar (least most alts terms : nat) (ok : nat -> nat -> nat -> term -> Prop) (gr : grammar) : Prop :=
  least <= length gr <= most /\
  forall i p, nth_error gr i = Some p -> p_lhs p = Nonterminal (nt_name i) /\ 1 <= length (p_rhs p) <= alts /\
    forall j e, nth_error (p_rhs p) j = Some e -> 1 <= length e <= terms /\ forall k t, nth_error e k = Some t -> ok i j k t.

(** Terminals and the names of earlier productions. *)
Definition earlier (i _ _ : nat) (t : term) : Prop :=
  forall n, t = Nonterminal n -> exists m, m < i /\ n = nt_name m.

(** One of [u] undefined names at the first place of all, elsewhere any terminal or name. *)
Definition with_undefined (d u i j k : nat) (t : term) : Prop :=
  if Nat.eqb i 0 && Nat.eqb j 0 && Nat.eqb k 0 then exists m, m < u /\ t = Nonterminal (undefined_name m)
  else forall n, t = Nonterminal n -> (exists m, m < d /\ n = nt_name m) \/ exists m, m < u /\ n = undefined_name m.

(** ** Loops *)

Lemma reach_each_i {A} (f : nat -> _ -> A * _) l : forall from,
  (forall k x, nth_error l k = Some x -> reaches (f (from + k)) x) -> reaches (each f from (length l)) l.
Proof.
  induction l as [|x l IH]; intros from H.
  - exists [], [], []. reflexivity.
  - destruct (H 0 x eq_refl) as (n1 & b1 & s1 & E1). rewrite Nat.add_0_r in E1.
    destruct (IH (S from)) as (n2 & b2 & s2 & E2).
    { intros k y Hy. rewrite Nat.add_succ_comm. exact (H (S k) y Hy). }
    exists (n1 ++ n2), (b1 ++ b2), (s1 ++ s2). intros. cbn [length each]. rewrite <- !app_assoc, E1, E2. reflexivity.
Qed.

(** [usize::arbitrary(g) % m + least] and that many elements. *)
Lemma reach_counted {A} (f : nat -> _ -> A * _) m least l : least <= length l < least + m ->
  (forall k x, nth_error l k = Some x -> reaches (f k) x) ->
  reaches (fun g => let (n, g) := any_usize scripted g in each f 0 (n mod m + least) g) l.
Proof.
  intros Hl H. destruct (reach_each_i f l 0 H) as (n & b & s & E). exists ((length l - least) :: n), b, s. intros.
  cbn [any_usize scripted app]. rewrite Nat.mod_small by lia. rewrite Nat.sub_add by lia. apply E.
Qed.

Lemma names_all_nth d u k : nth_error (map nt_name (seq 0 d) ++ map undefined_name (seq 0 u)) k =
  if Nat.ltb k d then Some (nt_name k) else if Nat.ltb k (d + u) then Some (undefined_name (k - d)) else None.
Proof.
  destruct (Nat.ltb_spec k d) as [H|H].
  - rewrite nth_error_app1 by (rewrite map_length, seq_length; assumption). rewrite names_nth.
    destruct (Nat.ltb_spec k d); [reflexivity|lia].
  - rewrite nth_error_app2 by (rewrite map_length, seq_length; assumption). rewrite map_length, seq_length, nth_error_map.
    destruct (Nat.ltb_spec k (d + u)) as [H'|H'].
    + rewrite (nth_error_nth' _ 0) by (rewrite seq_length; lia). rewrite seq_nth by lia. reflexivity.
    + rewrite (proj2 (nth_error_None _ _)) by (rewrite seq_length; lia). reflexivity.
Qed.

(** ** Terms *)

Lemma earlier_term_range {G} (ops : gen_ops G) n i j k g : earlier i j k (fst (earlier_term ops (map nt_name (seq 0 n)) i g)).
Proof. intros x Hx. destruct (earlier_term_spec ops n i g x Hx) as (m & H1 & _ & H2). eauto. Qed.

Lemma earlier_term_reached n i j k t : i < n -> earlier i j k t -> reaches (earlier_term scripted (map nt_name (seq 0 n)) i) t.
Proof.
  intros Hi H. destruct t as [s|x].
  - exists [], [false], [s]. intros. reflexivity.
  - destruct (H x eq_refl) as (m & Hm & ->). exists [m], [true], []. intros. unfold earlier_term. cbn [any_bool any_usize scripted app andb].
    destruct (Nat.ltb_spec 0 i); [|lia]. rewrite Nat.mod_small by assumption. rewrite names_nth.
    destruct (Nat.ltb_spec m n); [reflexivity|lia].
Qed.

Lemma undefined_term_range {G} (ops : gen_ops G) d u i j k g : 0 < u ->
  with_undefined d u i j k (fst (undefined_term ops (map nt_name (seq 0 d) ++ map undefined_name (seq 0 u)) d u
    (Nat.eqb i 0 && Nat.eqb j 0 && Nat.eqb k 0) g)).
Proof.
  intro Hu. unfold with_undefined, undefined_term. destruct (Nat.eqb i 0 && Nat.eqb j 0 && Nat.eqb k 0).
  - destruct (any_usize ops g) as [x g1]. rewrite names_all_nth. pose proof (Nat.mod_upper_bound x u).
    destruct (Nat.ltb_spec (d + x mod u) d); [lia|]. destruct (Nat.ltb_spec (d + x mod u) (d + u)); [|lia].
    exists (x mod u). split; [lia|]. cbn [fst]. do 2 f_equal. lia.
  - intros n. destruct (any_bool ops g) as [b g1]. unfold any_terminal.
    destruct (b && _).
    + destruct (any_usize ops g1) as [x g2]. rewrite names_all_nth. set (y := x mod _).
      destruct (Nat.ltb_spec y d). { cbn. intro H0. injection H0 as <-. left. eauto. }
      destruct (Nat.ltb_spec y (d + u)). { cbn. intro H1. injection H1 as <-. right. exists (y - d). split; [lia|reflexivity]. }
      destruct (any_string ops g2). discriminate.
    + destruct (any_string ops g1). discriminate.
Qed.

Lemma undefined_term_reached d u i j k t : 0 < d -> with_undefined d u i j k t ->
  reaches (undefined_term scripted (map nt_name (seq 0 d) ++ map undefined_name (seq 0 u)) d u
    (Nat.eqb i 0 && Nat.eqb j 0 && Nat.eqb k 0)) t.
Proof.
  intros Hd H. unfold with_undefined, undefined_term in *. destruct (Nat.eqb i 0 && Nat.eqb j 0 && Nat.eqb k 0).
  - destruct H as (m & Hm & ->). exists [m], [], []. intros. cbn [any_usize scripted app]. rewrite Nat.mod_small by assumption.
    rewrite names_all_nth. destruct (Nat.ltb_spec (d + m) d); [lia|]. destruct (Nat.ltb_spec (d + m) (d + u)); [|lia].
    do 4 f_equal. lia.
  - destruct t as [s|x]; [exists [], [false], [s]; reflexivity|].
    assert (Hne : match map nt_name (seq 0 d) ++ map undefined_name (seq 0 u) with [] => true | _ => false end = false).
    { destruct d; [lia|]. reflexivity. }
    destruct (H x eq_refl) as [(m & Hm & ->)|(m & Hm & ->)];
      [exists [m], [true], []|exists [d + m], [true], []]; intros; cbn [any_bool any_usize scripted app]; rewrite Hne; cbn [andb negb];
      rewrite app_length, !map_length, !seq_length, Nat.mod_small by lia; rewrite names_all_nth.
    + destruct (Nat.ltb_spec m d); [reflexivity|lia].
    + destruct (Nat.ltb_spec (d + m) d); [lia|]. destruct (Nat.ltb_spec (d + m) (d + u)); [|lia]. do 4 f_equal. lia.
Qed.

(** ** Grammars *)

(** The two nested loops, for any way [T i j k] of making terms. *)
Definition loops {G} (ops : gen_ops G) (alts terms : nat) (T : nat -> nat -> nat -> G -> term * G) (names : list str) (i : nat) (g : G) : production * G :=
  let (a, g) := any_usize ops g in
  let (es, g) := each (fun j g => let (t, g) := any_usize ops g in each (T i j) 0 (t mod terms + 1) g) 0 (a mod alts + 1) g in
  (mkProd (Nonterminal (nth i names [])) es, g).

Lemma loops_range {G} (ops : gen_ops G) alts terms T names (ok : nat -> nat -> nat -> term -> Prop) i g : alts <> 0 -> terms <> 0 ->
  (forall j k g, ok i j k (fst (T i j k g))) ->
  let p := fst (loops ops alts terms T names i g) in
  p_lhs p = Nonterminal (nth i names []) /\ 1 <= length (p_rhs p) <= alts /\
  forall j e, nth_error (p_rhs p) j = Some e -> 1 <= length e <= terms /\ forall k t, nth_error e k = Some t -> ok i j k t.
Proof.
  intros Ha Ht H. unfold loops. destruct (any_usize ops g) as [a g1]. set (E := fun j g => _).
  pose proof (each_length E (a mod alts + 1) 0 g1) as HL. pose proof (each_nth E (a mod alts + 1) 0 g1) as HN.
  destruct (each E 0 (a mod alts + 1) g1) as [es g2]. cbn [fst p_lhs p_rhs] in *. split; [reflexivity|].
  pose proof (Nat.mod_upper_bound a alts Ha). unfold expression in *. split; [lia|]. intros j e He. destruct (HN j e He) as (_ & g' & Ee). cbn [Nat.add] in Ee.
  unfold E in Ee. destruct (any_usize ops g') as [t g3]. pose proof (each_length (T i j) (t mod terms + 1) 0 g3) as HLt.
  pose proof (each_nth (T i j) (t mod terms + 1) 0 g3) as HNt. rewrite <- Ee in *. pose proof (Nat.mod_upper_bound t terms Ht).
  split; [lia|]. intros k x Hx. destruct (HNt k x Hx) as (_ & g4 & ->). apply H.
Qed.

Lemma loops_reached alts terms T names i p :
  p_lhs p = Nonterminal (nth i names []) -> 1 <= length (p_rhs p) <= alts ->
  (forall j e, nth_error (p_rhs p) j = Some e -> 1 <= length e <= terms /\ forall k t, nth_error e k = Some t -> reaches (T i j k) t) ->
  reaches (loops scripted alts terms T names i) p.
Proof.
  intros Hl Hn H. destruct p as [l es]. cbn [p_lhs p_rhs] in *. subst l.
  destruct (reach_counted (fun j g => let (t, g) := any_usize scripted g in each (T i j) 0 (t mod terms + 1) g) alts 1 es)
    as (n & b & s & E); [unfold expression in *; lia| |].
  - intros j e He. destruct (H j e He) as [Hc Hx]. apply reach_counted; [lia|exact Hx].
  - exists n, b, s. intros. unfold loops. specialize (E ns' bs' ss'). destruct (any_usize scripted _) as [a g]. rewrite E. reflexivity.
Qed.

Lemma layered_loops {G} (ops : gen_ops G) names least alts terms g : layered_grammar ops names least alts terms g =
  let (k, g) := any_usize ops g in
  each (loops ops alts terms (fun i _ _ => earlier_term ops (map nt_name (seq 0 (k mod names + least))) i) (map nt_name (seq 0 (k mod names + least))))
    0 (k mod names + least) g.
Proof. reflexivity. Qed.

Lemma layered_range {G} (ops : gen_ops G) names least alts terms g : names <> 0 -> alts <> 0 -> terms <> 0 ->
  numbered_grammar least (least + names - 1) alts terms earlier (fst (layered_grammar ops names least alts terms g)).
Proof.
  intros Hn Ha Ht. rewrite layered_loops. destruct (any_usize ops g) as [k g1]. set (n := k mod names + least).
  pose proof (Nat.mod_upper_bound k names Hn). set (F := loops _ _ _ _ _). pose proof (each_length F n 0 g1) as HL. unfold grammar, numbered_grammar. rewrite HL. split; [lia|].
  intros i p Hp. destruct (each_nth F n 0 g1 i p Hp) as (Hi & g' & ->). cbn [Nat.add].
  destruct (loops_range ops alts terms (fun i _ _ => earlier_term ops (map nt_name (seq 0 n)) i) (map nt_name (seq 0 n)) earlier i g' Ha Ht)
    as (H1 & H2 & H3); [intros; apply earlier_term_range|]. rewrite names_nth' in H1 by assumption. auto.
Qed.

Lemma layered_reached names least alts terms gr : names <> 0 ->
  numbered_grammar least (least + names - 1) alts terms earlier gr ->
  reaches (layered_grammar scripted names least alts terms) gr.
Proof.
  intros Hn [Hl H]. set (n := length gr).
  destruct (reach_each_i (loops scripted alts terms (fun i _ _ => earlier_term scripted (map nt_name (seq 0 n)) i) (map nt_name (seq 0 n))) gr 0)
    as (ns & bs & ss & E).
  - intros i p Hp. cbn [Nat.add]. destruct (H i p Hp) as (H1 & H2 & H3).
    assert (Hi : i < n) by (apply nth_error_Some; congruence). apply loops_reached; [rewrite names_nth' by assumption; assumption|assumption|].
    intros j e He. destruct (H3 j e He) as [H4 H5]. split; [assumption|]. intros k t Hk. apply (earlier_term_reached n i j k); auto.
  - exists ((n - least) :: ns), bs, ss. intros. rewrite layered_loops. cbn [any_usize scripted app].
    rewrite Nat.mod_small by lia. rewrite Nat.sub_add by lia. apply E.
Qed.

Definition undefined_range (gr : grammar) : Prop :=
  exists u, 1 <= u <= 3 /\ numbered_grammar 1 4 2 2 (with_undefined (length gr) u) gr.

Lemma undefined_loops {G} (ops : gen_ops G) g : undefined_grammar ops g =
  let (d, g) := any_usize ops g in
  let (u, g) := any_usize ops g in
  each (loops ops 2 2 (fun i j k => undefined_term ops (map nt_name (seq 0 (d mod 4 + 1)) ++ map undefined_name (seq 0 (u mod 3 + 1)))
                                      (d mod 4 + 1) (u mod 3 + 1) (Nat.eqb i 0 && Nat.eqb j 0 && Nat.eqb k 0))
          (map nt_name (seq 0 (d mod 4 + 1)))) 0 (d mod 4 + 1) g.
Proof. unfold undefined_grammar. destruct (any_usize ops g) as [d g1]. cbv zeta. destruct (any_usize ops g1). reflexivity. Qed.

Lemma undefined_grammar_range {G} (ops : gen_ops G) g : undefined_range (fst (undefined_grammar ops g)).
Proof.
  rewrite undefined_loops. destruct (any_usize ops g) as [d g1]. destruct (any_usize ops g1) as [u g2].
  pose proof (Nat.mod_upper_bound d 4). pose proof (Nat.mod_upper_bound u 3).
  set (n := d mod 4 + 1) in *. set (m := u mod 3 + 1) in *. set (F := loops _ _ _ _ _). exists m. split; [lia|].
  pose proof (each_length F n 0 g2) as HL. unfold numbered_grammar, grammar in *. rewrite HL. split; [lia|].
  intros i p Hp. destruct (each_nth F n 0 g2 i p Hp) as (Hi & g' & ->). cbn [Nat.add].
  destruct (loops_range ops 2 2 (fun i j k => undefined_term ops (map nt_name (seq 0 n) ++ map undefined_name (seq 0 m)) n m
    (Nat.eqb i 0 && Nat.eqb j 0 && Nat.eqb k 0)) (map nt_name (seq 0 n)) (with_undefined n m) i g' ltac:(discriminate) ltac:(discriminate))
    as (H1 & H2 & H3); [intros; apply undefined_term_range; lia|]. rewrite names_nth' in H1 by assumption. auto.
Qed.

Lemma undefined_grammar_reached gr : undefined_range gr -> reaches (undefined_grammar scripted) gr.
Proof.
  intros (u & Hu & Hl & H). set (n := length gr) in *.
  destruct (reach_each_i (loops scripted 2 2 (fun i j k => undefined_term scripted (map nt_name (seq 0 n) ++ map undefined_name (seq 0 u)) n u
    (Nat.eqb i 0 && Nat.eqb j 0 && Nat.eqb k 0)) (map nt_name (seq 0 n))) gr 0) as (ns & bs & ss & E).
  - intros i p Hp. cbn [Nat.add]. destruct (H i p Hp) as (H1 & H2 & H3).
    assert (Hi : i < n) by (apply nth_error_Some; congruence). apply loops_reached; [rewrite names_nth' by assumption; assumption|assumption|].
    intros j e He. destruct (H3 j e He) as [H4 H5]. split; [assumption|]. intros k t Hk. apply undefined_term_reached; [lia|auto].
  - exists ((n - 1) :: (u - 1) :: ns), bs, ss. intros. rewrite undefined_loops. cbn [any_usize scripted app].
    rewrite (Nat.mod_small (n - 1) 4), (Nat.mod_small (u - 1) 3) by lia. rewrite !Nat.sub_add by lia. apply E.
Qed.

(** <empty> in front of one of the two terms of one of the two alternatives. *)
Lemma nested_empty_range {G} (ops : gen_ops G) g : In (fst (nested_empty_grammar ops g))
  (map (fun n => fst (nested_empty_grammar scripted (n, [], []))) [[0; 0]; [0; 1]; [1; 0]; [1; 1]]).
Proof.
  unfold nested_empty_grammar at 1. destruct (any_usize ops g) as [i g1]. destruct (any_usize ops g1) as [k g2].
  pose proof (Nat.mod_upper_bound i 2). pose proof (Nat.mod_upper_bound k 2).
  destruct (i mod 2) as [|[|x]]; [| |lia]; destruct (k mod 2) as [|[|y]]; try lia; cbn; auto.
Qed.

Lemma C76_ranges_proof :
  (forall G (ops : gen_ops G) g, numbered_grammar 1 5 3 3 earlier (fst (simple_valid_grammar ops g)) /\
     numbered_grammar 2 5 2 2 earlier (fst (multiple_productions_grammar ops g)) /\ undefined_range (fst (undefined_grammar ops g))) /\
  (forall gr, numbered_grammar 1 5 3 3 earlier gr -> exists g, fst (simple_valid_grammar scripted g) = gr) /\
  (forall gr, numbered_grammar 2 5 2 2 earlier gr -> exists g, fst (multiple_productions_grammar scripted g) = gr) /\
  (forall gr, undefined_range gr -> exists g, fst (undefined_grammar scripted g) = gr).
Proof.
  split; [intros G ops g; split; [|split]|split; [|split]].
  - apply (layered_range ops 5 1 3 3 g); discriminate.
  - apply (layered_range ops 4 2 2 2 g); discriminate.
  - apply undefined_grammar_range.
  - intros gr H. apply reaches_ex, (layered_reached 5 1 3 3); [discriminate|exact H].
  - intros gr H. apply reaches_ex, (layered_reached 4 2 2 2); [discriminate|exact H].
  - intros gr H. apply reaches_ex, undefined_grammar_reached, H.
Qed.

Ltac cells := let k := fresh "k" in let H := fresh "H" in
  intros k; destruct k as [|[|[|[|[|k]]]]]; cbn [nth_error map]; try discriminate; intros ? H; try (destruct k; discriminate H); injection H as <-.

Lemma ranges_examples :
  let row i := [[T_ "x"; Nonterminal (nt_name i); T_ ""]; [T_ "y"]; [T_ "a"; T_ "b"; T_ "c"]] in
  numbered_grammar 1 5 3 3 earlier (mkProd (N_ "nt0") [[T_ "z"]] :: map (fun i => mkProd (Nonterminal (nt_name (S i))) (row i)) [0; 1; 2; 3]) /\
  ~ numbered_grammar 1 5 3 3 earlier [mkProd (N_ "nt0") [[N_ "nt0"]]] /\
  undefined_range [mkProd (N_ "nt0") [[N_ "undefined2"; T_ "x"]; [N_ "nt0"]]].
Proof.
  split; [|split].
  - split; [cbn; lia|]. cells; (split; [reflexivity|]; split; [cbn; lia|]); cells; (split; [cbn; lia|]); cells; intros n Hn; try discriminate;
      injection Hn as <-; eexists; (split; [|reflexivity]); lia.
  - intros [_ H]. destruct (H 0 _ eq_refl) as (_ & _ & H1). destruct (H1 0 _ eq_refl) as [_ H2].
    destruct (H2 0 _ eq_refl (lit "nt0") eq_refl) as (m & Hm & _). lia.
  - exists 3. split; [lia|]. split; [cbn; lia|]. cells; (split; [reflexivity|]; split; [cbn; lia|]); cells; (split; [cbn; lia|]); cells.
    + exists 2. split; [lia|reflexivity].
    + intros n Hn. discriminate.
    + intros n Hn. injection Hn as <-. left. exists 0. split; [cbn; lia|reflexivity].
Qed.
