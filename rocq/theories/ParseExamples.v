(** Concrete grammars and runs used by the examples beside the theorems. *)
From Verif Require Export EarleyTerm EarleyOrder.
From Coq Require Import String.
From Coq Require Import Permutation Relation_Operators.
Export String.StringSyntax.
Open Scope list_scope.

Definition N_ (s : String.string) : term := Nonterminal (lit s).
Definition T_ (s : String.string) : term := Terminal (lit s).
Arguments N_ s%string.
Arguments T_ s%string.

(** <e> ::= <e> '+' <e> | 'a' : ambiguous and left-recursive. *)
Definition sum_grammar : grammar := [mkProd (N_ "e") [[N_ "e"; T_ "+"; N_ "e"]; [T_ "a"]]].
(** <s> ::= <p> <q> ; <p> ::= '' | 'x' ; <q> ::= 'x' | '' : empty matches. *)
Definition eps_grammar : grammar :=
  [mkProd (N_ "s") [[N_ "p"; N_ "q"]]; mkProd (N_ "p") [[T_ ""]; [T_ "x"]]; mkProd (N_ "q") [[T_ "x"]; [T_ ""]]].
(** The same with the rules in another order. *)
Definition eps_grammar' : grammar :=
  [mkProd (N_ "q") [[T_ "x"]; [T_ ""]]; mkProd (N_ "s") [[N_ "p"; N_ "q"]]; mkProd (N_ "p") [[T_ ""]; [T_ "x"]]].
(** <s> ::= <t> <t> | <t> ; <t> ::= 'a' | 'b' *)
Definition pair_grammar : grammar :=
  [mkProd (N_ "s") [[N_ "t"; N_ "t"]; [N_ "t"]]; mkProd (N_ "t") [[T_ "a"]; [T_ "b"]]].
(** The grammar of the test in src/generation.rs. *)
Definition nest_grammar : grammar := [mkProd (N_ "s") [[T_ "a"]; [T_ "("; N_ "s"; T_ ")"]]].
(** Three-byte and four-byte characters. *)
Definition wide_grammar : grammar := [mkProd (N_ "w") [[Terminal [8364; 128512]%N; N_ "w"]; [Terminal [233]%N]]].
Definition wide_input : str := [8364; 128512; 233]%N.
(** Characters that JSON escapes, and an empty alternative. *)
Definition json_grammar : grammar := [mkProd (N_ "a") [[Terminal (lit "\" ++ [10; 1; 233; 34]%N); N_ "b"]; []]].
(** <s> ::= <s> | 'x' : infinitely many parses of "x". *)
Definition inf_grammar : grammar := [mkProd (N_ "s") [[N_ "s"]; [T_ "x"]]].

Definition id_order : hash_order := mkHashOrder (fun l => l) (fun l => Permutation_refl l).

(** Call [next] up to [k] times. *)
Fixpoint drive (k fuel : nat) (it : piter) : res (list ptree * bool * piter) :=
  match k with
  | 0 => Ok ([], false, it)
  | S k => let* (o, it1) := iter_next fuel it in
           match o with
           | None => Ok ([], true, it)
           | Some t => let* (r, it2) := drive k fuel it1 in Ok (t :: fst r, snd r, it2)
           end
  end.

Lemma drive_produces k fuel : forall it ts b it', drive k fuel it = Ok (ts, b, it') ->
  produces it ts it' /\ (b = true -> exhausted it').
Proof.
  induction k as [|k IH]; intros it ts b it' H; cbn [drive] in H.
  - injection H as <- <- <-. split; [constructor|discriminate].
  - destruct (iter_next fuel it) as [[o it1]| |] eqn:E; cbn [rbind] in H; try discriminate.
    destruct o as [t|].
    + destruct (drive k fuel it1) as [[[ts1 b1] it2]| |] eqn:E2; cbn [rbind fst snd] in H; try discriminate.
      injection H as <- <- <-. destruct (IH _ _ _ _ E2) as [H1 H2]. split; [econstructor; eassumption|assumption].
    + injection H as <- <- <-. split; [constructor|]. intros _. eexists _, _. exact E.
Qed.

Definition out {A} (r : res A) (d : A) : A := match r with Ok a => a | _ => d end.
Definition dummy_iter : piter := mkI (mkGP (T_ "") (mkPG [] [])) (mkS (mkTT [] [] []) (mkQ [] []) (mkCM [] [])).
Definition start_of (g : grammar) (start : term) (input : String.string) : piter :=
  out (grammar_parse_input_starting_with g (lit input) start) dummy_iter.
Arguments start_of g start input%string.
Definition run_of (g : grammar) (start : term) (input : String.string) (k : nat) : list ptree * bool * piter :=
  out (drive k 1000 (start_of g start input)) ([], false, dummy_iter).
Arguments run_of g start input%string k.
Definition trees_of g start input k := fst (fst (run_of g start input k)).
Definition final_of g start input k := snd (run_of g start input k).

Arguments trees_of g start input%string k.
Arguments final_of g start input%string k.

Definition is_Ok {A} (r : res A) : bool := match r with Ok _ => true | _ => false end.

Lemma run_facts g start input k :
  is_Ok (grammar_parse_input_starting_with g (lit input) start) = true ->
  is_Ok (drive k 1000 (start_of g start input)) = true ->
  opens g start (lit input) (start_of g start input) /\
  produces (start_of g start input) (trees_of g start input k) (final_of g start input k) /\
  (snd (fst (run_of g start input k)) = true -> exhausted (final_of g start input k)).
Proof.
  intros H1 H2. split.
  - apply opens_deprecated_with. unfold start_of.
    destruct (grammar_parse_input_starting_with g (lit input) start); try discriminate. reflexivity.
  - unfold trees_of, final_of, run_of.
    destruct (drive k 1000 (start_of g start input)) as [[[ts b] it']| |] eqn:E; try discriminate.
    cbn [out fst snd]. apply (drive_produces _ _ _ _ _ _ E).
Qed.

(** "a+a+a" has two parses. *)
Definition sum_input := "a+a+a"%string.
Lemma sum_run : opens sum_grammar (N_ "e") (lit sum_input) (start_of sum_grammar (N_ "e") sum_input) /\
  produces (start_of sum_grammar (N_ "e") sum_input) (trees_of sum_grammar (N_ "e") sum_input 3)
           (final_of sum_grammar (N_ "e") sum_input 3) /\
  exhausted (final_of sum_grammar (N_ "e") sum_input 3).
Proof.
  destruct (run_facts sum_grammar (N_ "e") sum_input 3) as (H1 & H2 & H3); [vm_compute; reflexivity..|].
  split; [exact H1|]. split; [exact H2|]. apply H3. vm_compute. reflexivity.
Qed.
Lemma sum_two : List.length (trees_of sum_grammar (N_ "e") sum_input 3) = 2.
Proof. vm_compute. reflexivity. Qed.

(** Nonterminal names are all that rewriting changes. *)
Lemma rewrites_keeps_terminal g a b s : rewrites g a b -> In (Terminal s) a -> In (Terminal s) b.
Proof.
  induction 1 as [|f1 f2 f3 [x n y p rhs _ _ _] _ IH]; [auto|]. intro Hin. apply IH.
  rewrite in_app_iff in *. cbn in Hin. rewrite in_app_iff. intuition discriminate.
Qed.
Lemma nullable_no_terminal g e s : nullable g e -> In (Terminal s) e -> s = [].
Proof.
  intros (ss & H & Hc) Hin. apply (rewrites_keeps_terminal _ _ _ _ H) in Hin.
  apply in_map_iff in Hin. destruct Hin as (s' & E & Hs). injection E as ->.
  apply in_split in Hs. destruct Hs as (l1 & l2 & ->). rewrite concat_app in Hc. cbn in Hc.
  apply app_eq_nil in Hc. destruct Hc as [_ Hc]. apply app_eq_nil in Hc. tauto.
Qed.

(** A syntactic criterion for acyclicity: no alternative with a nonterminal is free of
    non-empty terminals. *)
Lemma acyclic_if_guarded g :
  (forall p e n, In p g -> In e (p_rhs p) -> In (Nonterminal n) e -> exists s, In (Terminal s) e /\ s <> []) ->
  ~ cyclic g.
Proof.
  intros Hg (a & H).
  assert (Hno : forall a b, ~ unit_step g a b).
  { intros x y (p & u & v & Hp & _ & Hin & Hu & Hv).
    destruct (Hg p _ y Hp Hin) as (s & Hs & Hne); [apply in_or_app; right; left; reflexivity|].
    apply Hne. rewrite in_app_iff in Hs. destruct Hs as [Hs|[Hs|Hs]]; [|discriminate|].
    - exact (nullable_no_terminal _ _ _ Hu Hs).
    - exact (nullable_no_terminal _ _ _ Hv Hs). }
  induction H as [x y H|]; [exact (Hno _ _ H)|assumption].
Qed.

Lemma sum_acyclic : ~ cyclic sum_grammar.
Proof.
  apply acyclic_if_guarded. intros p e n [<-|[]] He Hn. cbn in He. destruct He as [<-|[<-|[]]].
  - exists (lit "+"). split; [cbn; auto|discriminate].
  - destruct Hn as [Hn|[]]. discriminate.
Qed.

Lemma loop_cyclic : cyclic loop_grammar.
Proof.
  exists (lit "a"). apply t_step. exists (mkProd (N_ "a") [[N_ "a"]; [T_ "z"]]), [], [].
  repeat split; try (cbn; auto; fail); exists []; (split; [constructor|reflexivity]).
Qed.
