(** The bytes fed to the hasher determine the value, and tables agree with association lists. *)
From Verif Require Export HashSpec.
From Coq Require Import NArith Lia.

Lemma word_code w : forall n m a b, (n < 256 ^ N.of_nat w)%N -> (m < 256 ^ N.of_nat w)%N ->
  word w n ++ a = word w m ++ b -> n = m /\ a = b.
Proof.
  induction w as [|w IH]; intros n m a b Hn Hm E.
  - cbn in *. split; [lia|exact E].
  - cbn [word app] in E. injection E as E1 E2.
    assert (Hd : forall x, (x < 256 ^ N.of_nat (S w))%N -> (x / 256 < 256 ^ N.of_nat w)%N).
    { intros x Hx. rewrite Nat2N.inj_succ, N.pow_succ_r' in Hx. apply N.div_lt_upper_bound; lia. }
    destruct (IH _ _ _ _ (Hd n Hn) (Hd m Hm) E2) as [E3 E4]. split; [|exact E4].
    rewrite (N.div_mod n 256), (N.div_mod m 256) by discriminate. rewrite E1, E3. reflexivity.
Qed.

Lemma usize_code w : 0 < w -> code_on (fits w) (hash_usize w).
Proof.
  intros _ n m a b Hn Hm E. unfold hash_usize in E. apply word_code in E; [|exact Hn|exact Hm]. destruct E as [E ->].
  split; [lia|reflexivity].
Qed.

Lemma utf8_no_255 c : scalar c -> ~ In 255%N (utf8 c).
Proof.
  unfold scalar, utf8. intro Hc. pose proof (digits c) as Hd.
  destruct (N.ltb_spec c 128); [|destruct (N.ltb_spec c 2048); [|destruct (N.ltb_spec c 65536)]]; cbn [In]; lia.
Qed.

Lemma str_code : code_on text hash_str.
Proof.
  intros x. unfold hash_str. induction x as [|c x IH]; intros [|d y] a b Hx Hy E; cbn [bytes flat_map] in E.
  - cbn in E. injection E as E. auto.
  - exfalso. inversion Hy; subst. rewrite <- !app_assoc in E. destruct (utf8_nonempty d) as (z & r & F).
    apply (utf8_no_255 d); [assumption|]. rewrite F in *. cbn in E. injection E as <- _. left. reflexivity.
  - exfalso. inversion Hx; subst. rewrite <- !app_assoc in E. destruct (utf8_nonempty c) as (z & r & F).
    apply (utf8_no_255 c); [assumption|]. rewrite F in *. cbn in E. injection E as -> _. left. reflexivity.
  - inversion Hx; inversion Hy; subst. fold (bytes x) (bytes y) in E. rewrite <- !app_assoc in E.
    apply utf8_prefix_free in E; [|assumption|assumption]. destruct E as [-> E].
    destruct (IH y a b) as [-> ->]; [assumption|assumption| |auto]. rewrite <- !app_assoc. exact E.
Qed.

Lemma list_code {A} (P : A -> Prop) f : code_on P f -> forall l l' a b, length l = length l' -> Forall P l -> Forall P l' ->
  flat_map f l ++ a = flat_map f l' ++ b -> l = l' /\ a = b.
Proof.
  intro Hf. induction l as [|x l IH]; intros [|y l'] a b El Hl Hl' E; try discriminate; [auto|].
  inversion Hl; inversion Hl'; subst. cbn [flat_map] in E. rewrite <- !app_assoc in E.
  apply Hf in E; [|assumption|assumption]. destruct E as [-> E]. apply IH in E; [|cbn in El; lia|assumption|assumption].
  destruct E as [-> ->]. auto.
Qed.

Lemma vec_code w {A} (P : A -> Prop) f : code_on P f -> code_on (fun l => fits w (length l) /\ Forall P l) (hash_vec w f).
Proof.
  intros Hf l l' a b [H1 H2] [H1' H2'] E. unfold hash_vec in E. rewrite <- !app_assoc in E.
  unfold hash_usize in E. apply word_code in E; [|exact H1|exact H1']. destruct E as [El E].
  apply (list_code P f Hf) in E; [exact E|lia|assumption|assumption].
Qed.

Section Codes.
  Variable w : nat.
  Hypothesis Hw : 0 < w.

  Lemma tag_apart a b : hash_usize w 0 ++ a = hash_usize w 1 ++ b -> False.
  Proof.
    destruct w as [|w']; [lia|]. cbn. intro E. injection E as E _. discriminate.
  Qed.

  Lemma term_code : code_on term_ok (hash_term w).
  Proof.
    intros [s|s] [s'|s'] a b H H' E; cbn [hash_term] in E; rewrite <- !app_assoc in E.
    - apply app_inv_head in E. apply str_code in E; [|exact H|exact H']. destruct E as [-> ->]. auto.
    - destruct (tag_apart _ _ E).
    - symmetry in E. destruct (tag_apart _ _ E).
    - apply app_inv_head in E. apply str_code in E; [|exact H|exact H']. destruct E as [-> ->]. auto.
  Qed.
  Lemma expression_code : code_on (expression_ok w) (hash_expression w).
  Proof. exact (vec_code w term_ok _ term_code). Qed.
  Lemma production_code : code_on (production_ok w) (hash_production w).
  Proof.
    intros [l r] [l' r'] a b (H1 & H2) (H1' & H2') E. unfold hash_production in E. cbn [p_lhs p_rhs] in *. rewrite <- !app_assoc in E.
    apply term_code in E; [|exact H1|exact H1']. destruct E as [-> E].
    apply (vec_code w (expression_ok w) _ expression_code) in E; [|exact H2|exact H2']. destruct E as [-> ->]. auto.
  Qed.
  Lemma grammar_code : code_on (grammar_ok w) (hash_grammar w).
  Proof. exact (vec_code w (production_ok w) _ production_code). Qed.
  Lemma tmatch_code : code_on (tmatch_ok w) (hash_tmatch w).
  Proof.
    intros [s|s] [s'|s'] a b H H' E; cbn [hash_tmatch] in E; rewrite <- !app_assoc in E.
    - apply app_inv_head in E. apply str_code in E; [|exact H|exact H']. destruct E as [-> ->]. auto.
    - destruct (tag_apart _ _ E).
    - symmetry in E. destruct (tag_apart _ _ E).
    - apply app_inv_head in E. apply (usize_code w Hw) in E; [|exact H|exact H']. destruct E as [-> ->]. auto.
  Qed.
  Lemma pair_code {A B} (P : A -> Prop) (Q : B -> Prop) f g : code_on P f -> code_on Q g ->
    code_on (fun x => P (fst x) /\ Q (snd x)) (fun x => f (fst x) ++ g (snd x)).
  Proof.
    intros Hf Hg [x1 x2] [y1 y2] a b [H1 H2] [K1 K2] E. cbn [fst snd] in *. rewrite <- !app_assoc in E.
    apply Hf in E; [|exact H1|exact K1]. destruct E as [-> E]. apply Hg in E; [|exact H2|exact K2]. destruct E as [-> ->]. auto.
  Qed.
  Lemma tedge_code : code_on (tedge_ok w) (hash_tedge w).
  Proof. exact (pair_code _ _ _ _ tmatch_code (usize_code w Hw)). Qed.
  Lemma troot_code : code_on (troot_ok w) (hash_troot w).
  Proof. exact (pair_code _ _ _ _ (usize_code w Hw) (usize_code w Hw)). Qed.
  Lemma ckey_code : code_on (ckey_ok w) (hash_ckey w).
  Proof. exact (pair_code _ _ _ _ term_code (usize_code w Hw)). Qed.
End Codes.

Lemma all_codes w : 0 < w ->
  code_on term_ok (hash_term w) /\ code_on (expression_ok w) (hash_expression w) /\
  code_on (production_ok w) (hash_production w) /\ code_on (grammar_ok w) (hash_grammar w) /\
  code_on (tedge_ok w) (hash_tedge w) /\ code_on (troot_ok w) (hash_troot w) /\ code_on (ckey_ok w) (hash_ckey w).
Proof.
  intro Hw. exact (conj (term_code w Hw) (conj (expression_code w Hw) (conj (production_code w Hw) (conj (grammar_code w Hw)
    (conj (tedge_code w Hw) (conj (troot_code w Hw) (ckey_code w Hw))))))).
Qed.

(** ** Tables *)

Section Tables.
  Context {K V : Type}.
  Variables (eqb : K -> K -> bool) (bucket : K -> N).
  Hypothesis Heq : forall a b, eqb a b = true <-> a = b.

  Lemma replace_get (l : list (K * V)) k v k' : hm_get eqb (replace_in eqb l k v) k' = if eqb k k' then Some v else hm_get eqb l k'.
  Proof.
    induction l as [|[k0 v0] l IH]; cbn [replace_in hm_get]; [reflexivity|].
    destruct (eqb k0 k) eqn:E; cbn [hm_get].
    - apply Heq in E. subst k0. destruct (eqb k k'); reflexivity.
    - rewrite IH. destruct (eqb k0 k') eqn:E1; [|reflexivity]. destruct (eqb k k') eqn:E2; [|reflexivity].
      apply Heq in E1, E2. subst. rewrite (proj2 (Heq k' k') eq_refl) in E. discriminate.
  Qed.

  Lemma table_insert_get (t : table) k (v : V) k' : table_get eqb bucket (table_insert eqb bucket t k v) k' =
    if eqb k k' then Some v else table_get (V := V) eqb bucket t k'.
  Proof.
    unfold table_get, table_insert. destruct (N.eqb_spec (bucket k') (bucket k)) as [E|E]; [apply replace_get|].
    destruct (eqb k k') eqn:E2; [|reflexivity]. apply Heq in E2. subst. congruence.
  Qed.

  Lemma tables_agree l k : table_get eqb bucket (table_after (V := V) eqb bucket l) k = hm_get eqb (list_after l) k.
  Proof.
    unfold table_after, list_after.
    assert (H : forall l (t : table) (m : hmap K V), (forall k, table_get eqb bucket t k = hm_get eqb m k) ->
      forall k, table_get eqb bucket (fold_left (fun t x => table_insert eqb bucket t (fst x) (snd x)) l t) k =
                hm_get eqb (fold_left (fun m x => hm_insert m (fst x) (snd x)) l m) k).
    { clear l k. induction l as [|[k0 v0] l IH]; intros t m H k; cbn [fold_left]; [apply H|].
      apply IH. intro k1. cbn [fst snd]. rewrite table_insert_get. cbn [hm_insert hm_get]. rewrite H. reflexivity. }
    apply H. intro k0. reflexivity.
  Qed.
End Tables.

(** ** Equality *)
From Verif Require Import EarleyInv.

Lemma code_equal {A} (P : A -> Prop) f eqb : (forall a b, eqb a b = true <-> a = b) -> code_on P f ->
  forall x y, P x -> P y -> (eqb x y = true <-> f x = f y).
Proof.
  intros He Hf x y Hx Hy. rewrite He. split; [intros ->; reflexivity|]. intro E.
  apply (Hf x y [] []); [exact Hx|exact Hy|]. rewrite E. reflexivity.
Qed.

Lemma equal_iff_bytes w : 0 < w ->
  (forall x y, term_ok x -> term_ok y -> (term_eqb x y = true <-> hash_term w x = hash_term w y)) /\
  (forall x y, expression_ok w x -> expression_ok w y -> (expression_eqb x y = true <-> hash_expression w x = hash_expression w y)) /\
  (forall x y, production_ok w x -> production_ok w y -> (production_eqb x y = true <-> hash_production w x = hash_production w y)) /\
  (forall x y, grammar_ok w x -> grammar_ok w y -> (list_eqb production_eqb x y = true <-> hash_grammar w x = hash_grammar w y)) /\
  (forall x y, tedge_ok w x -> tedge_ok w y -> (tedge_eqb x y = true <-> hash_tedge w x = hash_tedge w y)) /\
  (forall x y, troot_ok w x -> troot_ok w y -> (troot_eqb x y = true <-> hash_troot w x = hash_troot w y)) /\
  (forall x y, ckey_ok w x -> ckey_ok w y -> (ckey_eqb x y = true <-> hash_ckey w x = hash_ckey w y)).
Proof.
  intro Hw. destruct (all_codes w Hw) as (H1 & H2 & H3 & H4 & H5 & H6 & H7).
  split; [apply code_equal; [apply term_eqb_eq|exact H1]|]. split; [apply code_equal; [apply expression_eqb_eq|exact H2]|].
  split; [apply code_equal; [apply production_eqb_eq|exact H3]|].
  split; [apply code_equal; [apply (list_eqb_eq production_eqb production_eqb_eq)|exact H4]|].
  split; [apply code_equal; [apply tedge_eqb_eq|exact H5]|]. split; [apply code_equal; [apply troot_eqb_eq|exact H6]|].
  apply code_equal; [apply ckey_eqb_eq|exact H7].
Qed.
