(** C01-C12: parsing.  See EarleySpec.v for the specification vocabulary; [copies] is in CopiesSpec.v. *)
From Verif Require Import ParseExamples Facts_Parsing Facts_Copies.
From Coq Require Import Permutation.

(** C01 *)
Theorem C01_parse_soundness : forall g start input it ts it' t,
  opens g start input it -> produces it ts it' -> In t ts ->
  derives g t /\ root t = start /\ yield t = input.
Proof. exact soundness. Qed.
Print Assumptions C01_parse_soundness.

Example C01_example : exists it ts it',
  opens sum_grammar (N_ "e") (lit "a+a+a") it /\ produces it ts it' /\ length ts = 2.
Proof. eexists _, _, _. split; [apply sum_run|]. split; [apply sum_run|exact sum_two]. Qed.

(** C02 *)
Theorem C02_parse_completeness : forall g start input it t,
  opens g start input it -> parses g start input t ->
  exists ts it', produces it ts it' /\ In t ts.
Proof. exact completeness. Qed.
Print Assumptions C02_parse_completeness.

(** An infinitely ambiguous grammar, and a derivation three levels deep. *)
Example C02_example : (exists it, opens inf_grammar (N_ "s") (lit "x") it) /\
  parses inf_grammar (N_ "s") (lit "x") (Node (N_ "s") [Sub (Node (N_ "s") [Sub (Node (N_ "s") [Leaf (lit "x")])])]).
Proof.
  split; [eexists; apply opens_deprecated_with; reflexivity|].
  assert (H0 : derives inf_grammar (Node (N_ "s") [Leaf (lit "x")])).
  { apply (derives_node inf_grammar (mkProd (N_ "s") [[N_ "s"]; [T_ "x"]]) [T_ "x"]); cbn; auto. repeat constructor. }
  assert (H1 : forall t, root t = N_ "s" -> derives inf_grammar t -> derives inf_grammar (Node (N_ "s") [Sub t])).
  { intros t Hr Ht. apply (derives_node inf_grammar (mkProd (N_ "s") [[N_ "s"]; [T_ "x"]]) [N_ "s"]); cbn; auto.
    constructor; [exact Hr|exact Ht|constructor]. }
  split; [|split; reflexivity]. apply H1; [reflexivity|]. apply H1; [reflexivity|]. exact H0.
Qed.

(** C03 *)
Theorem C03_recognition : forall g n input it, opens g (Nonterminal n) input it ->
  ((exists fuel t it', iter_next fuel it = Ok (Some t, it')) <-> generates g n input).
Proof. exact recognition. Qed.
Print Assumptions C03_recognition.

(** Answering [None] is a proof that the input is not in the language. *)
Theorem C03_rejection : forall g n input it fuel it', opens g (Nonterminal n) input it ->
  iter_next fuel it = Ok (None, it') -> ~ generates g n input.
Proof. exact rejection. Qed.
Print Assumptions C03_rejection.

(** For every starting term, also a terminal with a rule of its own. *)
Theorem C03_any_start : forall g start input it, opens g start input it ->
  ((exists fuel t it', iter_next fuel it = Ok (Some t, it')) <-> exists t, parses g start input t).
Proof. exact recognition_any. Qed.
Print Assumptions C03_any_start.

Example C03_example : exists it, opens eps_grammar (N_ "s") (lit "x") it /\ generates eps_grammar (lit "s") (lit "x").
Proof.
  eexists. split; [apply opens_deprecated_with; reflexivity|].
  apply generates_parses. eexists.
  eapply (soundness _ _ _ _ _ _ (hd (Node (T_ "") []) (trees_of eps_grammar (N_ "s") "x" 5))).
  - apply (run_facts eps_grammar (N_ "s") "x" 5); vm_compute; reflexivity.
  - apply (run_facts eps_grammar (N_ "s") "x" 5); vm_compute; reflexivity.
  - vm_compute. left. reflexivity.
Qed.

Example C03_any_start_example : parses terminal_rule (Terminal (lit "t")) (lit "x") (Node (T_ "t") [Leaf (lit "x")]) /\
  (exists it, opens terminal_rule (T_ "t") (lit "x") it) /\
  exists it it', opens sum_grammar (N_ "e") (lit "a+") it /\ iter_next 30 it = Ok (None, it').
Proof.
  split; [exact terminal_rule_parses|]. split; [eexists; apply opens_deprecated_with; reflexivity|].
  eexists _, _. split; [apply opens_deprecated_with; reflexivity|vm_compute; reflexivity].
Qed.

(** C04 *)
Theorem C04_no_duplicates : forall g start input it ts it',
  NoDup (flat_prods g) -> opens g start input it -> produces it ts it' -> NoDup ts.
Proof. exact no_duplicates. Qed.
Print Assumptions C04_no_duplicates.

Example C04_example : NoDup (flat_prods sum_grammar) /\ exists it ts it',
  opens sum_grammar (N_ "e") (lit "a+a+a") it /\ produces it ts it' /\ length ts = 2.
Proof.
  split; [|apply C01_example]. cbn. constructor; [|constructor; [intros []|constructor]].
  intros [E|[]]. discriminate.
Qed.

(** In general a tree is returned at most as often as its alternatives are listed, multiplied over
    its nodes ... *)
Theorem C04_copies : forall g start input it ts it' t,
  opens g start input it -> produces it ts it' -> count_occ ptree_eq_dec ts t <= copies g t.
Proof. exact copies_most. Qed.
Print Assumptions C04_copies.

(** ... and after finitely many calls that often, also if the trees do not end ... *)
Theorem C04_copies_reached : forall g start input it t,
  opens g start input it -> parses g start input t ->
  exists ts it', produces it ts it' /\ count_occ ptree_eq_dec ts t = copies g t.
Proof. exact copies_reached. Qed.
Print Assumptions C04_copies_reached.

(** ... so exactly that often, if they do. *)
Theorem C04_copies_all : forall g start input it ts it' t,
  opens g start input it -> produces it ts it' -> exhausted it' -> parses g start input t ->
  count_occ ptree_eq_dec ts t = copies g t.
Proof. exact copies_all. Qed.
Print Assumptions C04_copies_all.

(** One alternative twice, in two productions, and a tree that uses it twice. *)
Example C04_copies_example :
  let t := Node (N_ "s") [Leaf (lit "a"); Sub (Node (N_ "s") [Leaf (lit "a"); Sub (Node (N_ "s") [Leaf (lit "b")])])] in
  parses twice_grammar (N_ "s") (lit "aab") t /\ copies twice_grammar t = 4 /\
  exists it', produces (start_of twice_grammar (N_ "s") "aab") [t; t; t; t] it' /\ exhausted it'.
Proof. exact C04_copies_example_proof. Qed.

(** C05 *)
Theorem C05_enumeration_ends : forall g start input it,
  ~ cyclic g -> opens g start input it -> exists ts it', produces it ts it' /\ exhausted it'.
Proof. exact enumeration_ends. Qed.
Print Assumptions C05_enumeration_ends.

Theorem C05_every_next_returns : forall g start input it ts it1,
  ~ cyclic g -> opens g start input it -> produces it ts it1 -> exists fuel r, iter_next fuel it1 = Ok r.
Proof. exact every_next_returns. Qed.
Print Assumptions C05_every_next_returns.

Example C05_example : ~ cyclic sum_grammar /\ exists it, opens sum_grammar (N_ "e") (lit "a+a+a") it.
Proof. split; [exact sum_acyclic|]. eexists. apply sum_run. Qed.

(** Without the hypothesis the claim is false: a valid cyclic grammar and an input on which
    the first [next] runs for ever. *)
Theorem C05_cyclic_refuted : exists g start input,
  cyclic g /\ (exists p, build_parser id_order g = ROk p) /\ (exists it, opens g start input it) /\
  (forall it, opens g start input it -> forall fuel, iter_next fuel it = OutOfFuel).
Proof.
  exact (ex_intro _ loop_grammar (ex_intro _ (N_ "s") (ex_intro _ (lit "z")
    (conj loop_cyclic (conj (ex_intro _ _ eq_refl)
      (conj (ex_intro _ _ (opens_deprecated_with loop_grammar (N_ "s") (lit "z") _ eq_refl)) loop_diverges)))))).
Qed.
Print Assumptions C05_cyclic_refuted.

(** C06 *)
Theorem C06_exhaustion_final : forall g start input it ts it1 f it2,
  opens g start input it -> produces it ts it1 -> iter_next f it1 = Ok (None, it2) ->
  it_parser it2 = it_parser it1 /\ (forall f', 1 <= f' -> iter_next f' it2 = Ok (None, it2)).
Proof. exact exhausted_stays. Qed.
Print Assumptions C06_exhaustion_final.

Theorem C06_exhaustive : forall g start input it ts it1 f it2,
  opens g start input it -> produces it ts it1 -> iter_next f it1 = Ok (None, it2) ->
  forall t, In t ts <-> parses g start input t.
Proof.
  exact (fun g start input it ts it1 f it2 Ho Hp Hn t =>
    conj (soundness g start input it ts it1 t Ho Hp)
         (exhaustive g start input it ts it1 t Ho Hp (ex_intro _ f (ex_intro _ it2 Hn)))).
Qed.
Print Assumptions C06_exhaustive.

Example C06_example : exists it ts it1 f it2, opens sum_grammar (N_ "e") (lit "a+a+a") it /\ produces it ts it1 /\
  length ts = 2 /\ iter_next f it1 = Ok (None, it2).
Proof.
  destruct sum_run as (H1 & H2 & (f & it2 & H3)). eexists _, _, _, f, it2.
  split; [exact H1|]. split; [exact H2|]. split; [exact sum_two|exact H3].
Qed.

(** C07 *)
Theorem C07_next_never_panics : forall g start input it ts it1 f,
  opens g start input it -> produces it ts it1 -> iter_next f it1 <> Panic.
Proof. exact no_panic. Qed.
Print Assumptions C07_next_never_panics.

Theorem C07_opening_never_panics : forall ho g p input start, build_parser ho g = ROk p ->
  (exists it, parse_input_starting_with p input start = Ok it) /\ (exists it, parse_input p input = Ok it).
Proof. exact opens_parser_ok. Qed.
Print Assumptions C07_opening_never_panics.

Theorem C07_deprecated_opening : forall g input start,
  (g = [] -> grammar_parse_input g input = Panic /\ grammar_parse_input_starting_with g input start = Panic) /\
  (g <> [] -> (exists it, grammar_parse_input g input = Ok it) /\
              (exists it, grammar_parse_input_starting_with g input start = Ok it)).
Proof. exact opens_deprecated_ok. Qed.
Print Assumptions C07_deprecated_opening.

Example C07_example : exists it ts it1, opens sum_grammar (N_ "e") (lit "a+a+a") it /\ produces it ts it1 /\ length ts = 2.
Proof. exact C01_example. Qed.

(** C08 *)
Theorem C08_order_same_set : forall g g' start input it it' t,
  Permutation g g' -> opens g start input it -> opens g' start input it' ->
  ((exists ts itf, produces it ts itf /\ In t ts) <-> (exists ts itf, produces it' ts itf /\ In t ts)).
Proof. exact set_invariance. Qed.
Print Assumptions C08_order_same_set.

Theorem C08_order_permutes : forall g g' start input it it' ts ts' itf itf',
  Permutation g g' ->
  opens g start input it -> produces it ts itf -> exhausted itf ->
  opens g' start input it' -> produces it' ts' itf' -> exhausted itf' ->
  Permutation ts ts'.
Proof. exact permutation_invariance. Qed.
Print Assumptions C08_order_permutes.

(** The same grammar with the last two rules exchanged; "x" has two parses. *)
Example C08_example : Permutation eps_grammar eps_grammar' /\
  length (trees_of eps_grammar (N_ "s") "x" 5) = 2 /\ snd (fst (run_of eps_grammar (N_ "s") "x" 5)) = true /\
  length (trees_of eps_grammar' (N_ "s") "x" 5) = 2 /\ snd (fst (run_of eps_grammar' (N_ "s") "x" 5)) = true.
Proof.
  split.
  - apply Permutation_sym. unfold eps_grammar, eps_grammar'. apply (Permutation_cons_append [_; _]).
  - repeat split; vm_compute; reflexivity.
Qed.

(** C09 *)
Theorem C09_api_parity : forall ho g p input start, build_parser ho g = ROk p ->
  parse_input p input = grammar_parse_input g input /\
  parse_input_starting_with p input start = grammar_parse_input_starting_with g input start /\
  parse_input p input = parse_input_starting_with p input (gp_start p).
Proof. exact api_parity. Qed.
Print Assumptions C09_api_parity.

Theorem C09_default_start : forall ho g p, build_parser ho g = ROk p ->
  exists pr rest, g = pr :: rest /\ gp_start p = p_lhs pr.
Proof. exact default_start. Qed.
Print Assumptions C09_default_start.

Example C09_example : exists p, build_parser id_order sum_grammar = ROk p.
Proof. eexists. reflexivity. Qed.

(** C10 *)
Theorem C10_interleaving : forall p cs its k it, nth_error its k = Some it ->
  map snd (filter (fun e => Nat.eqb k (fst e)) (session p its cs)) = solo it (next_fuels k cs).
Proof. exact session_solo. Qed.
Print Assumptions C10_interleaving.

Example C10_example :
  let a := start_of sum_grammar (N_ "e") "a+a+a" in
  let b := start_of sum_grammar (N_ "e") "a" in
  map fst (session (it_parser a) [a; b] [Next 0 99; Next 1 99; Open (lit "a") None; Next 2 99; Next 1 99; Next 0 99]) =
    [0; 1; 2; 1; 0] /\
  next_fuels 0 [Next 0 99; Next 1 99; Open (lit "a") None; Next 2 99; Next 1 99; Next 0 99] = [99; 99].
Proof. vm_compute. split; reflexivity. Qed.

(** C11 *)
Theorem C11_unknown_start : forall g start input it,
  (forall p, In p g -> p_lhs p = start -> p_rhs p = []) ->
  opens g start input it -> forall f, 1 <= f -> iter_next f it = Ok (None, it).
Proof. exact unknown_start. Qed.
Print Assumptions C11_unknown_start.

Example C11_example : (forall p, In p sum_grammar -> p_lhs p = N_ "nope" -> p_rhs p = []) /\
  exists it, opens sum_grammar (N_ "nope") (lit "a") it.
Proof.
  split.
  - intros p [<-|[]]. discriminate.
  - eexists. apply opens_deprecated_with. reflexivity.
Qed.

(** C12 *)
Theorem C12_char_boundaries : forall g start input it ts it1 t,
  opens g start input it -> produces it ts it1 -> In t (tt_arena (s_tree (it_state it1))) ->
  exists before matched after, input = before ++ matched ++ after /\
    r_input (t_range t) = input /\ r_start (t_range t) = byte_len before /\ r_len (t_range t) = byte_len matched /\
    range_next (t_range t) = after.
Proof. exact boundaries. Qed.
Print Assumptions C12_char_boundaries.

Theorem C12_no_clamping : forall g start input it ts it1 i t m par,
  opens g start input it -> produces it ts it1 ->
  nth_error (tt_arena (s_tree (it_state it1))) i = Some t -> t_from t = Some (m, par) ->
  exists tp, nth_error (tt_arena (s_tree (it_state it1))) par = Some tp /\
    r_start (t_range t) = r_start (t_range tp) /\
    match m with
    | MTerminal s => r_len (t_range t) = r_len (t_range tp) + byte_len s
    | MNonterminal c => exists tc, nth_error (tt_arena (s_tree (it_state it1))) c = Some tc /\
        r_start (t_range tc) = r_start (t_range tp) + r_len (t_range tp) /\
        r_len (t_range t) = r_len (t_range tp) + r_len (t_range tc)
    end.
Proof. exact no_clamp. Qed.
Print Assumptions C12_no_clamping.

(** Three-byte and four-byte characters. *)
Example C12_example : exists it, opens wide_grammar (N_ "w") wide_input it /\
  exists t it', iter_next 100 it = Ok (Some t, it') /\ length (tt_arena (s_tree (it_state it'))) = 7 /\
  byte_len wide_input = 9.
Proof.
  eexists. split; [apply opens_deprecated_with; reflexivity|].
  eexists _, _. split; [vm_compute; reflexivity|]. vm_compute. split; reflexivity.
Qed.
