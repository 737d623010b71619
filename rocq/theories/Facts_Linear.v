(** The last steps to C83. *)
From Verif Require Export LinearProofs ParseExamples.
From Verif Require Import StrategyProofs.
From Coq Require Import Lia.
From Coq Require String.
Import String.StringSyntax.

Lemma C83_one_tree_proof : forall g start input t t', predictive g -> parses g start input t -> parses g start input t' -> t = t'.
Proof. intros g start input t t'. apply predictive_one. Qed.

Lemma one_of_same {A} (l : list A) : NoDup l -> (forall x y, In x l -> In y l -> x = y) -> length l <= 1.
Proof.
  intros Hnd H. destruct l as [|a [|b l]]; cbn; [lia|lia|]. exfalso. inversion Hnd as [|? ? Hn _]; subst. apply Hn.
  rewrite (H a b); [left; reflexivity|left; reflexivity|right; left; reflexivity].
Qed.

Lemma C83_linear_proof : forall g start input it ts it1,
  predictive g -> NoDup (flat_prods g) -> opens g start input it -> produces it ts it1 ->
  length ts <= 1 /\ length (tt_arena (s_tree (it_state it1))) <= linear_bound g input /\
  exists r, iter_next (S (linear_bound g input)) it1 = Ok r.
Proof.
  intros g start input it ts it1 Hpr Hnd Ho Hp. split.
  - apply one_of_same; [eapply no_duplicates; eassumption|]. intros x y Hx Hy. eapply predictive_one; [exact Hpr| |]; eapply soundness; eassumption.
  - apply (bounded_work g start input _ it ts it1 Hnd); [|exact Ho|exact Hp]. intros l H1 H2. eapply predictive_partial; eassumption.
Qed.

(** ** The grammar of the README *)

Definition dna_rule := mkProd (N_ "dna") [[N_ "base"]; [N_ "base"; N_ "dna"]].
Definition base_rule := mkProd (N_ "base") [[T_ "A"]; [T_ "C"]; [T_ "G"]; [T_ "T"]].
Definition dna_grammar : grammar := [dna_rule; base_rule].

Lemma dna_base_inv t : derives dna_grammar t -> root t = N_ "base" -> exists c, dna_letter c /\ Sub t = dna_base c.
Proof.
  intros H Hr. inversion H as [p rhs kids Hp Hrhs Hk]; subst. cbn [root] in Hr.
  destruct Hp as [<-|[<-|[]]]; [discriminate|].
  destruct Hrhs as [<-|[<-|[<-|[<-|[]]]]]; inversion Hk as [|s r ks Hk2|]; subst; inversion Hk2; subst;
    eexists; (split; [|reflexivity]); vm_compute; tauto.
Qed.

Lemma dna_base_derives c : dna_letter c -> derives dna_grammar (Node (N_ "base") [Leaf [c]]).
Proof.
  intro H. apply (derives_node dna_grammar base_rule [Terminal [c]]); [right; left; reflexivity| |repeat constructor].
  destruct H as [<-|[<-|[<-|[<-|[]]]]]; vm_compute; tauto.
Qed.

Lemma dna_derives w : forall c, dna_letter c -> Forall dna_letter w -> derives dna_grammar (dna_tree c w).
Proof.
  induction w as [|c' w IH]; intros c Hc Hw.
  - apply (derives_node dna_grammar dna_rule [N_ "base"]); [left; reflexivity|left; reflexivity|].
    apply km_nt; [reflexivity|apply dna_base_derives, Hc|constructor].
  - inversion Hw as [|? ? Hc' Hw']; subst.
    apply (derives_node dna_grammar dna_rule [N_ "base"; N_ "dna"]); [left; reflexivity|right; left; reflexivity|].
    apply km_nt; [reflexivity|apply dna_base_derives, Hc|]. apply km_nt; [reflexivity|apply (IH c' Hc' Hw')|constructor].
Qed.

Lemma dna_yield w : forall c, yield (dna_tree c w) = c :: w.
Proof.
  induction w as [|c' w IH]; intro c; [reflexivity|]. change (yield (dna_tree c (c' :: w))) with ([c] ++ yield (dna_tree c' w) ++ []).
  rewrite IH, app_nil_r. reflexivity.
Qed.

Lemma dna_inv_size n : forall t, length (yield t) <= n -> derives dna_grammar t -> root t = N_ "dna" ->
  exists c w, dna_letter c /\ Forall dna_letter w /\ t = dna_tree c w.
Proof.
  induction n as [|n IH]; intros t Hlen H Hr; inversion H as [p rhs kids Hp Hrhs Hk]; subst; cbn [root] in Hr.
  all: destruct Hp as [<-|[<-|[]]]; [|discriminate].
  all: destruct Hrhs as [<-|[<-|[]]]; inversion Hk as [| |m t r ks Hrt Ht Hk2]; subst.
  all: destruct (dna_base_inv t Ht Hrt) as (c & Hc & E); rewrite E in *.
  - cbn in Hlen. lia.
  - cbn in Hlen. lia.
  - inversion Hk2; subst. exists c, []. repeat split; [exact Hc|constructor].
  - inversion Hk2 as [| |m2 t2 r2 ks2 Hrt2 Ht2 Hk3]; subst. inversion Hk3; subst.
    destruct (IH t2) as (c2 & w2 & Hc2 & Hw2 & ->).
    + cbn in Hlen. rewrite app_nil_r in Hlen. fold (yield t2) in Hlen. lia.
    + exact Ht2.
    + exact Hrt2.
    + exists c, (c2 :: w2). repeat split; [exact Hc|constructor; assumption].
Qed.

Lemma C83_dna_trees_proof : forall input t, parses dna_grammar (N_ "dna") input t <->
  exists c w, input = c :: w /\ Forall dna_letter input /\ t = dna_tree c w.
Proof.
  intros input t. split.
  - intros (Hd & Hr & <-). destruct (dna_inv_size _ t (le_n _) Hd Hr) as (c & w & Hc & Hw & ->). exists c, w.
    rewrite dna_yield. repeat split. constructor; assumption.
  - intros (c & w & -> & Hl & ->). inversion Hl; subst. split; [apply dna_derives; assumption|]. split; [reflexivity|apply dna_yield].
Qed.

(** ** Their number, and the work *)

Lemma dna_nodup : NoDup (flat_prods dna_grammar).
Proof. cbn. repeat constructor; cbn; intuition discriminate. Qed.

Lemma dna_unique : uniquely_matching dna_grammar.
Proof.
  split; [exact dna_nodup|].
  assert (Hone : forall t t' w w', derives dna_grammar t -> derives dna_grammar t' -> root t = N_ "base" -> root t' = N_ "base" ->
    yield t ++ w = yield t' ++ w' -> t = t' /\ w = w').
  { intros t t' w w' H H' Hr Hr' E. destruct (dna_base_inv t H Hr) as (c & _ & Et). destruct (dna_base_inv t' H' Hr') as (c' & _ & Et').
    injection Et as ->. injection Et' as ->. cbn in E. injection E as -> ->. auto. }
  intros p x y ks ks' Hp Hr Hk Hk' E. unfold yields in E.
  destruct x as [|x0 x]; [inversion Hk; inversion Hk'; reflexivity|].
  destruct Hp as [<-|[<-|[]]]; cbn [dna_rule base_rule p_rhs] in Hr.
  - assert (Hx : x0 = N_ "base" /\ (x = [] \/ x = [N_ "dna"])).
    { destruct Hr as [Hr|[Hr|[]]]; destruct x as [|x1 [|x2 x]]; cbn in Hr; injection Hr; intros; subst; try discriminate;
        solve [split; [reflexivity|left; reflexivity]|split; [reflexivity|right; reflexivity]]. }
    destruct Hx as [-> Hx].
    inversion Hk as [| |m t r ks1 Hrt Ht Hk1]; subst. inversion Hk' as [| |m' t' r' ks1' Hrt' Ht' Hk1']; subst. cbn in E.
    destruct (Hone _ _ _ _ Ht Ht' Hrt Hrt' E) as [-> E2]. f_equal. destruct Hx as [->| ->].
    + inversion Hk1; inversion Hk1'; reflexivity.
    + inversion Hk1 as [| |m2 t2 r2 ks2 Hrt2 Ht2 Hk2]; subst. inversion Hk1' as [| |m2' t2' r2' ks2' Hrt2' Ht2' Hk2']; subst.
      inversion Hk2; inversion Hk2'; subst. cbn in E2. rewrite !app_nil_r in E2.
      assert (P : forall t, derives dna_grammar t -> root t = N_ "dna" -> exists c w, yield t = c :: w /\ t = dna_tree c w).
      { intros t Hd Hrd. destruct (proj1 (C83_dna_trees_proof (yield t) t)) as (c & w & Ey & _ & Et); [repeat split; assumption|eauto]. }
      destruct (P t2 Ht2 Hrt2) as (c & w & Ey & ->). destruct (P t2' Ht2' Hrt2') as (c' & w' & Ey' & ->).
      fold (yield (dna_tree c w)) in E2. fold (yield (dna_tree c' w')) in E2. rewrite !dna_yield in E2. injection E2 as -> ->. reflexivity.
  - assert (Hx : x = [] /\ exists s, x0 = Terminal s).
    { repeat (destruct Hr as [Hr|Hr]; [destruct x as [|x1 x]; cbn in Hr; injection Hr; intros; subst; try discriminate; (split; [reflexivity|eexists; reflexivity])|]). destruct Hr. }
    destruct Hx as (-> & s & ->). inversion Hk as [|s1 r1 k1 Hk1|]; subst. inversion Hk1; subst.
    inversion Hk' as [|s1' r1' k1' Hk1'|]; subst. inversion Hk1'; subst. reflexivity.
Qed.

Lemma C83_dna_run_proof : forall c w it, Forall dna_letter (c :: w) -> opens dna_grammar (N_ "dna") (c :: w) it ->
  exists it1 f it2, produces it [dna_tree c w] it1 /\ iter_next f it1 = Ok (None, it2).
Proof.
  intros c w it Hl Ho.
  assert (Hpar : parses dna_grammar (N_ "dna") (c :: w) (dna_tree c w)) by (apply C83_dna_trees_proof; eauto).
  assert (Hun : forall t, parses dna_grammar (N_ "dna") (c :: w) t -> t = dna_tree c w).
  { intros t Ht. apply C83_dna_trees_proof in Ht. destruct Ht as (c' & w' & E & _ & ->). injection E as <- <-. reflexivity. }
  destruct (quadratic _ _ _ _ _ _ dna_unique Ho (produces_nil it)) as [_ [[o it1] E1]].
  destruct o as [t|].
  - pose proof (produces_next it t it1 [] it1 _ E1 (produces_nil it1)) as Hp1.
    assert (t = dna_tree c w) as ->. { apply Hun. eapply soundness; [exact Ho|exact Hp1|left; reflexivity]. }
    destruct (quadratic _ _ _ _ _ _ dna_unique Ho Hp1) as [_ [[o2 it2] E2]].
    destruct o2 as [t2|].
    + exfalso. pose proof (produces_next it _ it1 [t2] it2 _ E1 (produces_next it1 t2 it2 [] it2 _ E2 (produces_nil it2))) as Hp2.
      assert (t2 = dna_tree c w) as ->. { apply Hun. eapply soundness; [exact Ho|exact Hp2|right; left; reflexivity]. }
      pose proof (no_duplicates _ _ _ _ _ _ dna_nodup Ho Hp2) as Hnd. inversion Hnd as [|? ? Hn _]; subst. apply Hn. left. reflexivity.
    + exists it1. eexists _, it2. split; [exact Hp1|exact E2].
  - exfalso. destruct (exhaustive _ _ _ _ _ _ _ Ho (produces_nil it) (ex_intro _ _ (ex_intro _ _ E1)) Hpar).
Qed.

(** Partial parses: a letter at [u], and a sequence after it. *)
Definition dna_part (u : str) (c c' : char) (v : str) : (term * expression) * str * list pnode :=
  ((N_ "dna", [N_ "base"; N_ "dna"]), u, [dna_base c; Sub (dna_tree c' v)]).
Fixpoint prefixes (w : str) : list str := [] :: match w with [] => [] | c :: w => map (cons c) (prefixes w) end.
Fixpoint dna_parts (u w : str) : list ((term * expression) * str * list pnode) :=
  match w with
  | c :: (c' :: r) as w' => map (dna_part u c c') (prefixes r) ++ dna_parts (u ++ [c]) w'
  | _ => []
  end.

Lemma prefixes_length w : length (prefixes w) = S (length w).
Proof. induction w as [|c w IH]; [reflexivity|]. cbn [prefixes length]. rewrite map_length. f_equal. exact IH. Qed.
Lemma prefixes_In w : forall v, In v (prefixes w) -> exists r, w = v ++ r.
Proof.
  induction w as [|c w IH]; intros v [<-|H]; [exists []; reflexivity|destruct H|eexists; reflexivity|].
  apply in_map_iff in H. destruct H as (v' & <- & Hv). destruct (IH v' Hv) as [r ->]. exists r. reflexivity.
Qed.
Lemma prefixes_NoDup w : NoDup (prefixes w).
Proof.
  induction w as [|c w IH]; cbn [prefixes]; constructor; try (intros []; fail); try constructor.
  - intro H. apply in_map_iff in H. destruct H as (v & E & _). discriminate.
  - apply NoDup_map_inj; [|exact IH]. intros a b _ _ E. injection E as ->. reflexivity.
Qed.

Lemma dna_parts_length w : forall u, 2 * length (dna_parts u w) = length w * (length w - 1).
Proof.
  induction w as [|c [|c' r] IH]; intro u; [reflexivity|reflexivity|].
  change (dna_parts u (c :: c' :: r)) with (map (dna_part u c c') (prefixes r) ++ dna_parts (u ++ [c]) (c' :: r)).
  rewrite app_length, map_length, prefixes_length. specialize (IH (u ++ [c])). cbn [length] in *. nia.
Qed.

Lemma dna_parts_from w : forall u x, In x (dna_parts u w) -> exists u' c c' v, x = dna_part (u ++ u') c c' v /\ exists r, w = u' ++ c :: c' :: v ++ r.
Proof.
  induction w as [|c [|c' r] IH]; intros u x Hx; [destruct Hx|destruct Hx|].
  change (dna_parts u (c :: c' :: r)) with (map (dna_part u c c') (prefixes r) ++ dna_parts (u ++ [c]) (c' :: r)) in Hx.
  apply in_app_iff in Hx. destruct Hx as [Hx|Hx].
  - apply in_map_iff in Hx. destruct Hx as (v & <- & Hv). apply prefixes_In in Hv. destruct Hv as [r' ->].
    exists [], c, c', v. rewrite app_nil_r. split; [reflexivity|]. exists r'. reflexivity.
  - destruct (IH _ _ Hx) as (u' & d & d' & v & -> & r' & E). exists (c :: u'), d, d', v. rewrite <- app_assoc. split; [reflexivity|].
    exists r'. rewrite E. reflexivity.
Qed.

Lemma dna_kids_inj v : forall c v' c', dna_kids c v = dna_kids c' v' -> c = c' /\ v = v'.
Proof.
  intros c v' c' E. assert (yield (dna_tree c v) = yield (dna_tree c' v')) as Ey by (unfold dna_tree; rewrite E; reflexivity).
  rewrite !dna_yield in Ey. injection Ey as -> ->. auto.
Qed.

Lemma dna_parts_NoDup w : forall u, NoDup (dna_parts u w).
Proof.
  induction w as [|c [|c' r] IH]; intro u; [constructor|constructor|].
  change (dna_parts u (c :: c' :: r)) with (map (dna_part u c c') (prefixes r) ++ dna_parts (u ++ [c]) (c' :: r)).
  apply NoDup_app_intro.
  - apply NoDup_map_inj; [|apply prefixes_NoDup]. intros a b _ _ E. injection E as E. apply dna_kids_inj in E. tauto.
  - apply IH.
  - intros x Hx Hy. apply in_map_iff in Hx. destruct Hx as (v & <- & _). destruct (dna_parts_from _ _ _ Hy) as (u' & d & d' & v' & E & _).
    injection E as E _. apply (f_equal (@length char)) in E. rewrite !app_length in E. cbn in E. unfold str, char in *. lia.
Qed.

Lemma dna_predicted u : Forall dna_letter u -> predicted dna_grammar (N_ "dna") (N_ "dna") u.
Proof.
  induction u as [|c u IH] using rev_ind; intro H; [apply predicted_start|].
  apply Forall_app in H. destruct H as [H1 H2]. inversion H2; subst.
  apply (predicted_in dna_grammar (N_ "dna") (N_ "dna") u dna_rule [N_ "base"] (lit "dna") [] [c]).
  - apply IH. exact H1.
  - left. reflexivity.
  - reflexivity.
  - right. left. reflexivity.
  - exists [[c]]. split; [|reflexivity].
    eapply rewrites_step; [apply (rewrite_at dna_grammar [] (lit "base") [] base_rule [Terminal [c]])|apply rewrites_refl].
    + right. left. reflexivity.
    + reflexivity.
    + match goal with H : dna_letter c |- _ => destruct H as [<-|[<-|[<-|[<-|[]]]]]; vm_compute; tauto end.
Qed.

Lemma dna_parts_partial input x : Forall dna_letter input -> In x (dna_parts [] input) -> partial_parse dna_grammar (N_ "dna") input x.
Proof.
  intros Hl Hx. destruct (dna_parts_from _ _ _ Hx) as (u & c & c' & v & -> & r & ->). cbn [app] in *.
  apply Forall_app in Hl. destruct Hl as [H1 H2]. inversion H2 as [|? ? Hc H3]; subst. inversion H3 as [|? ? Hc' H4]; subst.
  apply Forall_app in H4. destruct H4 as [Hv _]. split; [right; left; reflexivity|]. split; [apply dna_predicted, H1|].
  exists [N_ "base"; N_ "dna"], [], r. split; [reflexivity|]. split.
  - apply km_nt; [reflexivity|apply dna_base_derives, Hc|]. apply km_nt; [reflexivity|apply dna_derives; assumption|constructor].
  - f_equal. change (c :: c' :: v ++ r = ([c] ++ yield (dna_tree c' v) ++ []) ++ r). rewrite dna_yield. cbn. rewrite app_nil_r. reflexivity.
Qed.

Lemma C83_dna_work_proof : forall input it ts it1 f it2, Forall dna_letter input ->
  opens dna_grammar (N_ "dna") input it -> produces it ts it1 -> iter_next f it1 = Ok (None, it2) ->
  length input * (length input - 1) <= 2 * length (tt_arena (s_tree (it_state it2))).
Proof.
  intros input it ts it1 f it2 Hl Ho Hp E.
  destruct (work_exact _ _ _ _ _ _ _ _ dna_nodup Ho Hp E) as (l & _ & Hin & ->).
  rewrite <- (dna_parts_length input []).
  assert (length (dna_parts [] input) <= length l); [|lia].
  apply NoDup_incl_length; [apply dna_parts_NoDup|]. intros x Hx. apply Hin. apply dna_parts_partial; assumption.
Qed.

(** ** The calculator of the benchmarks *)

Definition polish_grammar : grammar :=
  [mkProd (N_ "product") [[N_ "number"]; [N_ "op"; N_ "product"; N_ "product"]];
   mkProd (N_ "op") [[T_ "+"]; [T_ "-"]; [T_ "*"]; [T_ "/"]];
   mkProd (N_ "number") [[T_ "0"]; [T_ "1"]; [T_ "2"]; [T_ "3"]; [T_ "4"]; [T_ "5"]; [T_ "6"]; [T_ "7"]; [T_ "8"]; [T_ "9"]]].

Definition polish_first (t : term) (c : char) : Prop :=
  t = N_ "product" /\ In c (lit "+-*/0123456789") \/ t = N_ "op" /\ In c (lit "+-*/") \/ t = N_ "number" /\ In c (lit "0123456789").

Lemma polish_predictive : predictive polish_grammar.
Proof.
  exists polish_first. intros l e H. unfold polish_first. cbn in H.
  repeat (destruct H as [H|H]; [injection H as <- <-; split; [discriminate|split; [discriminate|split]]; cbn|]); try contradiction.
  all: try (intros c Hc; intuition (subst; auto 20; discriminate)).
  all: intros e' c He'; repeat (destruct He' as [He'|He']; [try discriminate He'; injection He' as <-; cbn|]); try contradiction; try reflexivity; try congruence.
  all: intros H1 H2; exfalso; intuition (subst; discriminate).
Qed.

Lemma polish_nodup : NoDup (flat_prods polish_grammar).
Proof. cbn. repeat constructor; cbn; intuition discriminate. Qed.

Lemma dna_not_predictive : ~ predictive dna_grammar.
Proof.
  intros (first & H). destruct (H (N_ "base") [T_ "A"]) as (_ & _ & H1 & _); [cbn; tauto|]. specialize (H1 65%N eq_refl).
  destruct (H (N_ "dna") [N_ "base"]) as (_ & _ & _ & H2); [left; reflexivity|].
  specialize (H2 [N_ "base"; N_ "dna"] 65%N (or_intror (or_introl eq_refl)) H1 H1). discriminate.
Qed.
