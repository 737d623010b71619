(** Proofs of the theorems of Properties_Api.v that are not instances of a single lemma. *)
From Coq Require Import Permutation.
From Verif Require Import ParseExamples EditProofs Macros.

Lemma C44_add_proof : forall (e : expression) t p (a : expression) g q,
  add_term e t = e ++ [t] /\
  p_lhs (add_to_rhs p a) = p_lhs p /\ p_rhs (add_to_rhs p a) = p_rhs p ++ [a] /\
  add_production g q = g ++ [q].
Proof. repeat split. Qed.

Lemma C44_order_refuted_proof : exists p1 p2 p3 g', remove_production [p1; p2; p3] p1 = Ok (Some p1, g') /\
  g' = [p3; p2] /\ starting_term g' <> Some (p_lhs p2).
Proof.
  exists (mkProd (N_ "a") []), (mkProd (N_ "b") []), (mkProd (N_ "c") []). eexists.
  split; [reflexivity|]. split; [reflexivity|]. discriminate.
Qed.

Lemma C46_production_two_proof : forall n es, es <> [] -> List.length es <= 2 ->
  production_macro (write_production n es) = Some (mkProd (Nonterminal n) es).
Proof.
  intros n es Hne Hlen. destruct (exists_last Hne) as (init & last & ->). rewrite production_macro_spec.
  rewrite app_length in Hlen. cbn in Hlen. destruct init as [|a [|b init]]; [reflexivity|reflexivity|cbn in Hlen; lia].
Qed.

Lemma C46_production_refuted_proof : exists n es, es <> [] /\
  production_macro (write_production n es) <> Some (mkProd (Nonterminal n) es).
Proof.
  exists (lit "s"), [[T_ "a"]; [T_ "b"]; [T_ "c"]]. split; [discriminate|]. cbn. discriminate.
Qed.

Lemma C46_grammar_refuted_proof :
  (exists n es m e, grammar_macro (write_grammar [(n, es); (m, [e])] true) <>
     Some [mkProd (Nonterminal n) es; mkProd (Nonterminal m) [e]] /\ List.length es = 2) /\
  (exists ps g, grammar_macro (write_grammar ps true) = Some g /\
     ps = [(lit "a", [[T_ "1"]]); (lit "b", [[T_ "2"]]); (lit "c", [[T_ "3"]])] /\ starting_term g = Some (N_ "b")).
Proof.
  split.
  - exists (lit "dna"), [[N_ "base"]; [N_ "base"; N_ "dna"]], (lit "base"), [T_ "A"]. split; [cbn; discriminate|reflexivity].
  - exists [(lit "a", [[T_ "1"]]); (lit "b", [[T_ "2"]]); (lit "c", [[T_ "3"]])]. eexists.
    split; [reflexivity|]. split; reflexivity.
Qed.

