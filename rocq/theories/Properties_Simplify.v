(** C114: grammars written in another way. *)
From Verif Require Import Facts_Simplify.
From Coq Require Import Permutation.
From Coq Require Import String.
Import String.StringSyntax.
Open Scope string_scope.
Open Scope list_scope.

(** With other cuts between terminals: the same trees, up to the cuts between their leaves. *)
Theorem C114_cuts : forall g g' start input it it' u, same_up_to_cuts g g' ->
  opens g start input it -> opens g' start input it' ->
  (exists t, returns it t /\ cut_tree t = u) <-> (exists t', returns it' t' /\ cut_tree t' = u).
Proof. exact cuts_returns. Qed.
Print Assumptions C114_cuts.

(** One for one, if no name has alternatives that differ in the cuts only. *)
Theorem C114_cuts_all : forall g g' s w ts ts', same_up_to_cuts g g' -> told_apart g -> told_apart g' ->
  all_trees g s w ts -> all_trees g' s w ts' -> Permutation (map cut_tree ts) (map cut_tree ts').
Proof. exact cuts_all. Qed.
Print Assumptions C114_cuts_all.

(** Otherwise the numbers can differ. *)
Theorem C114_cuts_refuted : exists g g' s w ts ts', same_up_to_cuts g g' /\ NoDup (flat_prods g) /\ told_apart g' /\
  all_trees g s w ts /\ all_trees g' s w ts' /\ List.length ts = 2 /\ List.length ts' = 1.
Proof. exact cuts_number. Qed.
Print Assumptions C114_cuts_refuted.

Example C114_cuts_example :
  same_up_to_cuts ab_grammar ab_cut /\ told_apart ab_grammar /\ told_apart ab_cut /\
  (exists t t', all_trees ab_grammar (lit "s") (lit "abab") [t] /\ all_trees ab_cut (lit "s") (lit "abab") [t'] /\
     leaves t = [lit "ab"; lit "ab"] /\ leaves t' = [lit "a"; lit "b"; lit "ab"; lit ""; lit ""] /\
     leaves (cut_tree t') = [lit "a"; lit "b"; lit "a"; lit "b"]).
Proof. exact cuts_example. Qed.

(** The enumeration ends for one if it ends for the other. *)
Theorem C114_cuts_end : forall g g' start input it it', same_up_to_cuts g g' ->
  opens g start input it -> opens g' start input it' ->
  ((exists ts itf, produces it ts itf /\ exhausted itf) <-> (exists ts itf, produces it' ts itf /\ exhausted itf)).
Proof. exact cuts_end_all. Qed.
Print Assumptions C114_cuts_end.

(** The alternatives of a name written in its place: the same inputs are accepted. *)
Theorem C114_unfold : forall g1 g2 l r1 r2 x y b s w it it',
  opens (folded g1 l r1 x b y r2 g2) s w it -> opens (unfolded g1 l r1 x b y r2 g2) s w it' ->
  (exists t, returns it t) <-> (exists t, returns it' t).
Proof. exact unfold_returns. Qed.
Print Assumptions C114_unfold.

(** Each tree comes back without the nodes for the name. *)
Theorem C114_unfold_tree : forall g1 g2 l r1 r2 x y b s w it it' t,
  opens (folded g1 l r1 x b y r2 g2) s w it -> opens (unfolded g1 l r1 x b y r2 g2) s w it' ->
  returns it t -> exists t', unfolds l x b y t t' /\ returns it' t'.
Proof. exact unfolds_returns. Qed.
Print Assumptions C114_unfold_tree.

(** One for one, if no alternative is listed twice before or after. *)
Theorem C114_unfold_all : forall g1 g2 l r1 r2 x y b s w ts ts',
  NoDup (flat_prods (folded g1 l r1 x b y r2 g2)) -> NoDup (flat_prods (unfolded g1 l r1 x b y r2 g2)) ->
  all_trees (folded g1 l r1 x b y r2 g2) s w ts -> all_trees (unfolded g1 l r1 x b y r2 g2) s w ts' ->
  exists us, Forall2 (unfolds l x b y) ts us /\ Permutation us ts'.
Proof. exact unfolds_all. Qed.
Print Assumptions C114_unfold_all.

(** Otherwise different trees can become the same. *)
Theorem C114_unfold_refuted : exists g1 l r1 x b y r2 g2 s w it it' t1 t2,
  NoDup (flat_prods (folded g1 l r1 x b y r2 g2)) /\
  opens (folded g1 l r1 x b y r2 g2) (Nonterminal s) w it /\ returns it t1 /\ returns it t2 /\ t1 <> t2 /\
  opens (unfolded g1 l r1 x b y r2 g2) (Nonterminal s) w it' /\
  forall t t', returns it' t -> returns it' t' -> t = t'.
Proof. exact unfold_number. Qed.
Print Assumptions C114_unfold_refuted.

(** The same texts can be generated. *)
Theorem C114_unfold_generated : forall g1 l r1 x b y r2 g2 s w,
  tidy s (folded g1 l r1 x b y r2 g2) -> has_alt (folded g1 l r1 x b y r2 g2) b ->
  (makes (folded g1 l r1 x b y r2 g2) w <-> makes (unfolded g1 l r1 x b y r2 g2) w).
Proof. exact unfolded_makes. Qed.
Print Assumptions C114_unfold_generated.

Example C114_unfold_example :
  tidy (lit "s") sums /\ has_alt sums (lit "x") /\
  sums_unfolded = [mkProd (N_ "s") [[N_ "x"]; [T_ "a"; T_ "+"; N_ "s"]; [T_ "b"; T_ "+"; N_ "s"]]; mkProd (N_ "x") [[T_ "a"]; [T_ "b"]]] /\
  accepts sums (lit "s") (lit "a+b+a") /\ accepts sums_unfolded (lit "s") (lit "a+b+a") /\
  (exists ts, all_trees sums (lit "s") (lit "a+b+") ts /\ ts = []) /\
  NoDup (flat_prods sums) /\ NoDup (flat_prods sums_unfolded) /\
  (exists t t', all_trees sums (lit "s") (lit "b+a") [t] /\ all_trees sums_unfolded (lit "s") (lit "b+a") [t'] /\
     t = Node (N_ "s") [Sub (Node (N_ "x") [Leaf (lit "b")]); Leaf (lit "+"); Sub (Node (N_ "s") [Sub (Node (N_ "x") [Leaf (lit "a")])])] /\
     t' = Node (N_ "s") [Leaf (lit "b"); Leaf (lit "+"); Sub (Node (N_ "s") [Sub (Node (N_ "x") [Leaf (lit "a")])])]) /\
  generate_random script_rng (fun _ _ => true) sums_unfolded 20 [2; 0; 0] = Ok (ROk (lit "b+a"), []).
Proof. exact unfold_example. Qed.

(** The enumeration ends for one if it ends for the other, if the name has an alternative. *)
Theorem C114_unfold_end : forall g1 g2 l r1 r2 x y b start input it it', has_alt (folded g1 l r1 x b y r2 g2) b ->
  opens (folded g1 l r1 x b y r2 g2) start input it -> opens (unfolded g1 l r1 x b y r2 g2) start input it' ->
  ((exists ts itf, produces it ts itf /\ exhausted itf) <-> (exists ts itf, produces it' ts itf /\ exhausted itf)).
Proof. exact unfold_ends. Qed.
Print Assumptions C114_unfold_end.

(** Otherwise it can end only for the grammar in which it is written out. *)
Theorem C114_unfold_end_refuted : exists g1 l r1 x b y r2 g2 s w it it',
  opens (folded g1 l r1 x b y r2 g2) s w it /\ opens (unfolded g1 l r1 x b y r2 g2) s w it' /\
  ~ (exists ts itf, produces it ts itf /\ exhausted itf) /\ (exists ts itf, produces it' ts itf /\ exhausted itf).
Proof. exact unfold_end_refuted. Qed.
Print Assumptions C114_unfold_end_refuted.

Example C114_end_example :
  cycle_unfolded = [mkProd (N_ "s") [[T_ "x"]; [N_ "s"]; [T_ "y"]]; mkProd (N_ "t") [[N_ "s"]; [T_ "y"]]] /\
  has_alt cycle_folded (lit "t") /\
  (exists it it', opens cycle_folded (N_ "s") (lit "x") it /\ opens cycle_unfolded (N_ "s") (lit "x") it' /\
     ~ (exists ts itf, produces it ts itf /\ exhausted itf) /\ ~ (exists ts itf, produces it' ts itf /\ exhausted itf)) /\
  (exists it it', opens cycle_folded (N_ "s") (lit "z") it /\ opens cycle_unfolded (N_ "s") (lit "z") it' /\
     (exists ts itf, produces it ts itf /\ exhausted itf) /\ (exists ts itf, produces it' ts itf /\ exhausted itf)).
Proof. exact end_example. Qed.

(** Alternatives that generate no part of the input can be left out: exactly the same trees. *)
Theorem C114_idle : forall g g' start input it it' t,
  (forall l e, In e (alternatives g' l) -> In e (alternatives g l)) ->
  (forall l e, In e (alternatives g l) -> In e (alternatives g' l) \/ idle g input e) ->
  opens g start input it -> opens g' start input it' -> (returns it t <-> returns it' t).
Proof. exact idle_returns. Qed.
Print Assumptions C114_idle.

(** Such as those with a terminal that is not in the input. *)
Theorem C114_idle_terminal : forall g input e s, In (Terminal s) e -> (forall a b, input <> a ++ s ++ b) -> idle g input e.
Proof. exact idle_terminal. Qed.
Print Assumptions C114_idle_terminal.

(** Or with a name that generates nothing in the input, or nothing at all. *)
Theorem C114_idle_nonterminal : forall g input e n, In (Nonterminal n) e ->
  (forall a v b, input = a ++ v ++ b -> ~ generates g n v) -> idle g input e.
Proof. exact idle_nonterminal. Qed.
Print Assumptions C114_idle_nonterminal.

Example C114_idle_example :
  (forall l e, In e (alternatives sums_of_a l) -> In e (alternatives sums l)) /\
  (forall l e, In e (alternatives sums l) -> In e (alternatives sums_of_a l) \/ idle sums (lit "a+a") e) /\
  trees_of sums (N_ "s") "a+a" 3 = trees_of sums_of_a (N_ "s") "a+a" 3 /\ List.length (trees_of sums (N_ "s") "a+a" 3) = 1.
Proof. exact idle_example. Qed.

(** But leaving them out can make an enumeration end that does not end with them. *)
Theorem C114_idle_end_refuted : exists g g' start input it it',
  (forall l e, In e (alternatives g' l) -> In e (alternatives g l)) /\
  (forall l e, In e (alternatives g l) -> In e (alternatives g' l) \/ idle g input e) /\
  opens g start input it /\ opens g' start input it' /\
  ~ (exists ts itf, produces it ts itf /\ exhausted itf) /\ (exists ts itf, produces it' ts itf /\ exhausted itf).
Proof. exact idle_end_refuted. Qed.
Print Assumptions C114_idle_end_refuted.
