(** Proofs of the statements of Properties_Rename.v. *)
From Verif Require Export EarleySim ParseExamples.
From Coq Require Import Permutation.
Open Scope list_scope.

Lemma C66_same_calls_proof : forall h g start g' input it it' fuels,
  presents h g start g' -> opens g start input it -> opens g' (rename h start) input it' ->
  solo it' fuels = map (rename_outcome h) (solo it fuels).
Proof.
  intros h g start g' input it it' fuels HP Ho Ho'.
  eapply corresponds_solo.
  - apply (rename_inj g g' h start HP).
  - apply (match_inj g g' h start HP).
  - apply (match_by g g' h start HP).
  - apply (match_prod g g' h start HP).
  - apply (opens_corresponds g g' h start HP input it it' Ho Ho').
Qed.

Lemma C66_same_trees_proof : forall h g start g' input it it' ts itf,
  presents h g start g' -> opens g start input it -> opens g' (rename h start) input it' ->
  produces it ts itf ->
  exists itf', produces it' (map (rename_tree h) ts) itf' /\
    (exhausted itf <-> exhausted itf') /\ (diverges itf <-> diverges itf') /\
    traversals itf' = traversals itf.
Proof.
  intros h g start g' input it it' ts itf HP Ho Ho' Hp.
  pose proof (opens_corresponds g g' h start HP input it it' Ho Ho') as Hc.
  pose proof (rename_inj g g' h start HP) as H1. pose proof (match_inj g g' h start HP) as H2.
  pose proof (match_by g g' h start HP) as H3. pose proof (match_prod g g' h start HP) as H4.
  destruct (corresponds_produces _ _ _ _ _ _ H1 H2 H3 H4 _ _ _ Hp _ Hc) as (itf' & Hp' & Hc').
  exists itf'. split; [exact Hp'|].
  split; [exact (corresponds_exhausted _ _ _ _ _ _ H1 H2 H3 H4 _ _ Hc')|].
  split; [exact (corresponds_diverges _ _ _ _ _ _ H1 H2 H3 H4 _ _ Hc')|].
  exact (corresponds_traversals _ _ _ _ _ _ _ _ Hc').
Qed.

(** ** No renaming *)
Lemma rename_id t : rename (fun n => n) t = t.
Proof. destruct t; reflexivity. Qed.

Lemma rename_tree_Node h l ks : rename_tree h (Node l ks) = Node (rename h l) (map (rename_node h) ks).
Proof. reflexivity. Qed.

Lemma rename_tree_id t : rename_tree (fun n => n) t = t.
Proof.
  induction t as [l ks IH] using tree_ind'. rewrite rename_tree_Node, rename_id. f_equal.
  induction ks as [|k ks IHk]; cbn [map]; [reflexivity|]. f_equal.
  - destruct k as [s|t]; [reflexivity|].
    change (Sub (rename_tree (fun n => n) t) = Sub t). f_equal. apply IH. left; reflexivity.
  - apply IHk. intros; apply IH; right; assumption.
Qed.

Lemma map_rename_id e : map (rename (fun n => n)) e = e.
Proof. rewrite <- (map_id e) at 2. apply map_ext, rename_id. Qed.

Lemma presents_same g start g' :
  (forall l, reachable g start l -> alternatives g' l = alternatives g l) -> presents (fun n => n) g start g'.
Proof.
  intro H. split; [auto|]. intros l Hl. rewrite rename_id, H by assumption.
  rewrite <- (map_id (alternatives g l)) at 1. apply map_ext. intro e. symmetry. apply map_rename_id.
Qed.

Lemma C66_reachable_rules_only_proof : forall g start g' input it it' fuels,
  (forall l, reachable g start l -> alternatives g' l = alternatives g l) ->
  opens g start input it -> opens g' start input it' ->
  solo it' fuels = solo it fuels.
Proof.
  intros g start g' input it it' fuels H Ho Ho'.
  rewrite (C66_same_calls_proof (fun n => n) g start g' input it it' fuels (presents_same _ _ _ H) Ho)
    by (rewrite rename_id; exact Ho').
  rewrite <- (map_id (solo it fuels)) at 2. apply map_ext. intros [[t|]| |]; cbn; try reflexivity.
  rewrite rename_tree_id. reflexivity.
Qed.

Lemma alternatives_app g1 g2 l : alternatives (g1 ++ g2) l = alternatives g1 l ++ alternatives g2 l.
Proof. apply flat_map_app. Qed.

Lemma alternatives_nil g l : (forall p, In p g -> p_lhs p <> l) -> alternatives g l = [].
Proof.
  induction g as [|p g IH]; intro H; [reflexivity|]. unfold alternatives. cbn [flat_map].
  destruct (term_eqb (p_lhs p) l) eqn:E.
  - apply term_eqb_eq in E. exfalso. apply (H p); [left; reflexivity|exact E].
  - apply IH. intros q Hq. apply H. right; exact Hq.
Qed.

(** Rules that cannot be reached from the start make no difference, wherever they stand. *)
Lemma C66_unreachable_rules_proof : forall g1 extra g2 start input it it' fuels,
  (forall p, In p extra -> ~ reachable (g1 ++ g2) start (p_lhs p)) ->
  opens (g1 ++ g2) start input it -> opens (g1 ++ extra ++ g2) start input it' ->
  solo it' fuels = solo it fuels.
Proof.
  intros g1 extra g2 start input it it' fuels H. apply C66_reachable_rules_only_proof.
  intros l Hl. rewrite !alternatives_app, (alternatives_nil extra); [reflexivity|].
  intros p Hp E. apply (H p Hp). rewrite E. exact Hl.
Qed.

(** Two neighbouring rules of different nonterminals may be exchanged. *)
Lemma C66_exchange_rules_proof : forall g1 p q g2 start input it it' fuels, p_lhs p <> p_lhs q ->
  opens (g1 ++ p :: q :: g2) start input it -> opens (g1 ++ q :: p :: g2) start input it' ->
  solo it' fuels = solo it fuels.
Proof.
  intros g1 p q g2 start input it it' fuels H. apply C66_reachable_rules_only_proof.
  intros l _. rewrite !alternatives_app. f_equal. unfold alternatives. cbn [flat_map].
  destruct (term_eqb (p_lhs p) l) eqn:E1, (term_eqb (p_lhs q) l) eqn:E2; try reflexivity.
  apply term_eqb_eq in E1, E2. congruence.
Qed.

(** ** A consistent renaming of the whole grammar *)
Definition rename_production (h : str -> str) (p : production) : production :=
  mkProd (rename h (p_lhs p)) (map (map (rename h)) (p_rhs p)).

Lemma rename_injective h : (forall a b, h a = h b -> a = b) -> forall a b, rename h a = rename h b -> a = b.
Proof. intros H [s|a] [s'|b]; cbn; intro E; try discriminate; [congruence|]. injection E as E. f_equal. auto. Qed.

Lemma presents_renamed h g start : (forall a b, h a = h b -> a = b) ->
  presents h g start (map (rename_production h) g).
Proof.
  intro H. split; [intros; auto|]. intros l _. unfold alternatives.
  induction g as [|p g IH]; [reflexivity|]. cbn [map flat_map rename_production p_lhs p_rhs].
  rewrite map_app. f_equal; [|exact IH].
  destruct (term_eqb (p_lhs p) l) eqn:E.
  - apply term_eqb_eq in E. rewrite E, term_eqb_refl. reflexivity.
  - destruct (term_eqb (rename h (p_lhs p)) (rename h l)) eqn:E2; [|reflexivity].
    apply term_eqb_eq in E2. apply rename_injective in E2; [|assumption]. rewrite E2, term_eqb_refl in E. discriminate.
Qed.

Lemma C66_renaming_proof : forall h g start input it it' fuels, (forall a b, h a = h b -> a = b) ->
  opens g start input it -> opens (map (rename_production h) g) (rename h start) input it' ->
  solo it' fuels = map (rename_outcome h) (solo it fuels).
Proof. intros h g start input it it' fuels H. apply C66_same_calls_proof, presents_renamed, H. Qed.

(** ** Examples *)

(** The renaming used below: <s> and <q> get new names, <p> is called q. *)
Definition new_name (n : str) : str :=
  if str_eqb n (lit "s") then lit "sentence"
  else if str_eqb n (lit "p") then lit "q" else lit "r".

(** The grammar [eps_grammar] written differently: other names, other order of the rules, the
    rule of <q> (now <r>) split in two, and two rules that are not used. *)
Definition eps_rewritten : grammar :=
  [mkProd (N_ "r") [[T_ "x"]]; mkProd (N_ "q") [[T_ ""]; [T_ "x"]]; mkProd (N_ "unused") [[N_ "undefined"]];
   mkProd (N_ "sentence") [[N_ "q"; N_ "r"]]; mkProd (N_ "p") [[N_ "sentence"]]; mkProd (N_ "r") [[T_ ""]]].

Lemma eps_reachable l : reachable eps_grammar (N_ "s") l -> l = N_ "s" \/ l = N_ "p" \/ l = N_ "q".
Proof.
  induction 1 as [|l e n _ IH He Hn]; [left; reflexivity|].
  destruct IH as [->|[->| ->]]; cbn in He.
  - destruct He as [<-|[]]. cbn in Hn. destruct Hn as [E|[E|[]]]; [right; left|right; right]; symmetry; exact E.
  - destruct He as [<-|[<-|[]]]; cbn in Hn; destruct Hn as [E|[]]; discriminate.
  - destruct He as [<-|[<-|[]]]; cbn in Hn; destruct Hn as [E|[]]; discriminate.
Qed.

Lemma eps_presents : presents new_name eps_grammar (N_ "s") eps_rewritten.
Proof.
  split.
  - intros a b Ha Hb. apply eps_reachable in Ha, Hb.
    destruct Ha as [E|[E|E]]; injection E as ->; destruct Hb as [E|[E|E]]; injection E as ->; vm_compute; intro E; congruence.
  - intros l Hl. apply eps_reachable in Hl. destruct Hl as [->|[->| ->]]; vm_compute; reflexivity.
Qed.
