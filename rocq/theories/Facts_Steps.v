(** Linear and quadratic numbers of steps; an example. *)
From Verif Require Export StepsSpec StepsProofs Facts_Tracing.
From Verif Require Import EarleySpec LinearSpec AmbiguitySpec LinearProofs AmbiguityProofs Facts_Linear Facts_Ambiguity WorkNumbered EarleyWork TreeSpec ParseExamples.
From Coq Require Import String List Lia.
Import ListNotations.
Open Scope list_scope.

(** All that is done when the trees have been taken, if there are at most [B] partial parses. *)
Lemma bounded_steps g start input B it l0 ts it1 l f it2 l2 : NoDup (flat_prods g) ->
  (forall F, NoDup F -> (forall x, In x F -> partial_parse g start input x) -> List.length F <= B) ->
  opens_t g start input it l0 -> produces_t it ts it1 l -> iter_next_t f it1 = Ok ((None, it2), l2) ->
  List.length (l ++ l2) <= (10 + 3 * widest g) * B + list_sum (map (fun t => 6 * tree_size t + 3) ts) + 2.
Proof.
  intros Hnd HB Ho Hp Hn. destruct (log_arena _ _ _ _ _ _ _ _ _ _ _ Ho Hp Hn) as (_ & _ & H).
  assert (Ho' : opens g start input it) by (apply opens_logged; eauto). assert (Hp' : produces it ts it1) by (apply produces_logged; eauto).
  apply unlogged_Ok in Hn. rewrite iter_next_unlogged in Hn. destruct (work_exact _ _ _ _ _ _ _ _ Hnd Ho' Hp' Hn) as (F & H1 & H2 & H3).
  assert (Hl : List.length (tt_arena (s_tree (it_state it2))) <= B) by (rewrite H3; apply HB; [exact H1|]; intros x Hx; apply H2, Hx).
  etransitivity; [exact H|]. apply Nat.add_le_mono_r, Nat.add_le_mono_r, Nat.mul_le_mono_l, Hl.
Qed.

Lemma linear_steps : forall g start input it l0 ts it1 l f it2 l2, predictive g -> NoDup (flat_prods g) ->
  opens_t g start input it l0 -> produces_t it ts it1 l -> iter_next_t f it1 = Ok ((None, it2), l2) ->
  List.length (l ++ l2) <= (10 + 3 * widest g) * linear_bound g input + list_sum (map (fun t => 6 * tree_size t + 3) ts) + 2.
Proof. intros g start input it l0 ts it1 l f it2 l2 Hpr Hnd. apply (bounded_steps g start input); [exact Hnd|]. intros F H1 H2. eapply predictive_partial; eassumption. Qed.

Lemma quadratic_steps : forall g start input it l0 ts it1 l f it2 l2, unambiguous g start -> fruitful g start -> NoDup (flat_prods g) ->
  opens_t g start input it l0 -> produces_t it ts it1 l -> iter_next_t f it1 = Ok ((None, it2), l2) ->
  List.length (l ++ l2) <= (10 + 3 * widest g) * quadratic_bound g input + list_sum (map (fun t => 6 * tree_size t + 3) ts) + 2.
Proof. intros g start input it l0 ts it1 l f it2 l2 Hu Hf Hnd. apply (bounded_steps g start input); [exact Hnd|]. intros F H1 H2. eapply unambiguous_partial; eassumption. Qed.

Lemma C110_example_proof :
  opens_t twice_grammar (N_ "s") (lit "x") (fst opened) (snd opened) /\
  (exists t1 t2 it, produces_t (fst opened) [t1; t2] it (snd call1 ++ snd call2) /\ iter_next_t 100 it = Ok ((None, snd (fst call3)), snd call3)) /\
  matched (snd call1 ++ snd call2) = [3; 4; 5; 6; 7; 8; 11; 12] /\ results (tt_arena (s_tree (it_state (snd (fst call3))))) = [3; 4; 5; 6; 7; 8; 11; 12] /\
  predictions (snd call1 ++ snd call2) = [1; 2; 1; 2; 9; 10] /\ map (choices twice_grammar) (pops (snd call1 ++ snd call2)) = [2; 0; 0; 0; 0; 2; 2; 0; 0; 0; 0; 0; 0] /\
  widest twice_grammar = 2 /\ List.length (snd call1 ++ snd call2 ++ snd call3) = 169 /\
  cm_lookup (cm_complete (s_comp (it_state (snd (fst call2))))) (N_ "p", 0) = [3; 4].
Proof. split; [exact opened_facts|]. split; [exact calls_facts|]. vm_compute. repeat split; reflexivity. Qed.

(** A parse with one tree. *)
Definition one_tree_run (g : grammar) (start : term) (input : str) : option (piter * log * ptree * piter * log * nat) :=
  match grammar_parse_input_starting_with_t g input start with
  | Ok (it, l0) =>
      match iter_next_t 1000 it with
      | Ok ((Some t, it1), l) =>
          match iter_next_t 1000 it1 with
          | Ok ((None, _), l2) => Some (it, l0, t, it1, l, List.length (l ++ l2))
          | _ => None
          end
      | _ => None
      end
  | _ => None
  end.

Lemma one_tree_facts g start input n size :
  match one_tree_run g start input with Some (_, _, t, _, _, k) => Nat.eqb k n && Nat.eqb (tree_size t) size | None => false end = true ->
  exists it l0 t it1 l it2 l2, opens_t g start input it l0 /\ produces_t it [t] it1 l /\ iter_next_t 1000 it1 = Ok ((None, it2), l2) /\
    List.length (l ++ l2) = n /\ tree_size t = size.
Proof.
  unfold one_tree_run. destruct (grammar_parse_input_starting_with_t g input start) as [[it l0]| |] eqn:E0; try discriminate.
  destruct (iter_next_t 1000 it) as [[[[t|] it1] l]| |] eqn:E1; try discriminate.
  destruct (iter_next_t 1000 it1) as [[[[t'|] it2] l2]| |] eqn:E2; try discriminate.
  intro H. apply andb_prop in H. destruct H as [H1 H2]. apply Nat.eqb_eq in H1, H2. exists it, l0, t, it1, l, it2, l2.
  split; [apply opens_t_deprecated_with; exact E0|]. split; [|split; [exact E2|auto]].
  rewrite <- (app_nil_r l). econstructor; [exact E1|constructor].
Qed.

Lemma polish_steps : exists it l0 t it1 l it2 l2, opens_t polish_grammar (N_ "product") (lit "+1*23") it l0 /\ produces_t it [t] it1 l /\
  iter_next_t 1000 it1 = Ok ((None, it2), l2) /\ List.length (l ++ l2) = 729 /\ tree_size t = 15.
Proof. apply one_tree_facts. vm_compute. reflexivity. Qed.
Lemma dna_steps : exists it l0 t it1 l it2 l2, opens_t dna_grammar (N_ "dna") (lit "GATTACA") it l0 /\ produces_t it [t] it1 l /\
  iter_next_t 1000 it1 = Ok ((None, it2), l2) /\ List.length (l ++ l2) = 965 /\ tree_size t = 21.
Proof. apply one_tree_facts. vm_compute. reflexivity. Qed.
