(** How many trees an expression with infix operators has. *)
From Verif Require Export InfixProofs.
From Verif Require Import EarleyMain EarleyExact ParseExamples Facts_Parsing.
From Coq Require Import Permutation Relations.

(** The Catalan numbers: the ways of bracketing [k] operations. *)
Fixpoint catalan_upto (f k : nat) : nat :=
  match f, k with
  | 0, _ => 0
  | S _, 0 => 1
  | S f, S k => list_sum (map (fun i => catalan_upto f i * catalan_upto f (k - i)) (seq 0 (S k)))
  end.
Definition catalan (k : nat) : nat := catalan_upto (S k) k.

Lemma catalan_upto_enough f : forall k, k < f -> catalan_upto f k = catalan k.
Proof.
  unfold catalan. assert (H : forall f f' k, k < f -> k < f' -> catalan_upto f k = catalan_upto f' k).
  { clear f. induction f as [|f IH]; intros f' k Hf Hf'; [lia|]. destruct f' as [|f']; [lia|]. destruct k as [|k]; [reflexivity|].
    cbn [catalan_upto]. f_equal. apply map_ext_in. intros i Hi. apply in_seq in Hi. rewrite (IH f' i), (IH f' (k - i)) by lia. reflexivity. }
  intros k Hk. apply H; lia.
Qed.
Lemma catalan_succ k : catalan (S k) = list_sum (map (fun i => catalan i * catalan (k - i)) (seq 0 (S k))).
Proof.
  change (catalan (S k)) with (list_sum (map (fun i => catalan_upto (S k) i * catalan_upto (S k) (k - i)) (seq 0 (S k)))).
  f_equal. apply map_ext_in. intros i Hi. apply in_seq in Hi. rewrite !catalan_upto_enough by lia. reflexivity.
Qed.
Lemma list_sum_app' a b : list_sum (a ++ b) = list_sum a + list_sum b.
Proof. unfold list_sum. induction a as [|x a IH]; cbn; [reflexivity|]. rewrite IH. lia. Qed.
Lemma catalan_double k : 2 * catalan (S k) <= catalan (S (S k)).
Proof.
  rewrite (catalan_succ (S k)). rewrite seq_S, map_app, list_sum_app'. cbn [seq map Nat.add].
  unfold list_sum. cbn [fold_right]. rewrite Nat.sub_0_r, Nat.sub_diag. change (catalan 0) with 1. lia.
Qed.
Lemma catalan_grows k : 2 ^ k <= catalan (S k).
Proof. induction k as [|k IH]; [reflexivity|]. pose proof (catalan_double k). cbn [Nat.pow]. lia. Qed.
Lemma catalan_facts : catalan 0 = 1 /\
  (forall k, catalan (S k) = list_sum (map (fun i => catalan i * catalan (k - i)) (seq 0 (S k)))) /\
  (forall k, 2 ^ k <= catalan (S k)).
Proof. exact (conj eq_refl (conj catalan_succ catalan_grows)). Qed.

Lemma flat_map_count {A B} (f : A -> list B) l : length (flat_map f l) = list_sum (map (fun x => length (f x)) l).
Proof. induction l as [|a l IH]; [reflexivity|]. cbn [flat_map map]. rewrite app_length, IH. reflexivity. Qed.
Lemma NoDup_flat {A B} (f : A -> list B) l : NoDup l -> (forall x, In x l -> NoDup (f x)) ->
  (forall x y b, In x l -> In y l -> In b (f x) -> In b (f y) -> x = y) -> NoDup (flat_map f l).
Proof.
  induction 1 as [|a l Ha Hl IH]; intros Hf Hd; [constructor|]. cbn [flat_map].
  assert (H1 : NoDup (flat_map f l)) by (apply IH; [intros x Hx; apply Hf; right; exact Hx|intros x y b Hx Hy; apply Hd; right; assumption]).
  assert (H2 : NoDup (f a)) by (apply Hf; left; reflexivity).
  assert (H3 : forall b, In b (f a) -> ~ In b (flat_map f l)).
  { intros b Hb Hb'. apply in_flat_map in Hb'. destruct Hb' as (y & Hy & Hb'). apply Ha. rewrite (Hd a y b (or_introl eq_refl) (or_intror Hy) Hb Hb'). exact Hy. }
  clear - H1 H2 H3. induction H2 as [|b l' Hb Hl' IH]; [exact H1|]. cbn [app]. constructor.
  - rewrite in_app_iff. intros [H|H]; [exact (Hb H)|]. exact (H3 b (or_introl eq_refl) H).
  - apply IH. intros c Hc. apply H3. right. exact Hc.
Qed.
Lemma NoDup_map_inj' {A B} (f : A -> B) l : (forall a b, f a = f b -> a = b) -> NoDup l -> NoDup (map f l).
Proof. intros Hf. induction 1 as [|a l Ha Hl IH]; cbn [map]; constructor; [|exact IH]. rewrite in_map_iff. intros (b & Hb & Hin). apply Hf in Hb. subst b. exact (Ha Hin). Qed.

(** ** The trees of an expression *)

Fixpoint brackets (n : str) (f : nat) (a : char) (rest : list (char * char)) : list ptree :=
  match f with
  | 0 => []
  | S f =>
      match rest with
      | [] => [operand n a]
      | _ => flat_map (fun i => match nth_error rest i with
                                | Some (o, b) => flat_map (fun x => map (operation n x o) (brackets n f b (skipn (S i) rest))) (brackets n f a (firstn i rest))
                                | None => []
                                end) (seq 0 (length rest))
      end
  end.

Lemma nth_split' {A} (l : list A) i x : nth_error l i = Some x -> l = firstn i l ++ x :: skipn (S i) l /\ length (firstn i l) = i /\ length (skipn (S i) l) = length l - S i.
Proof.
  intro H. assert (Hi : i < length l) by (apply nth_error_Some; congruence). split; [|split; [apply firstn_length_le; lia|apply skipn_length]].
  revert i H Hi. induction l as [|y l IH]; intros [|i] H Hi; cbn in *; try lia; [injection H as ->; reflexivity|].
  f_equal. apply IH; [exact H|lia].
Qed.
Lemma brackets_length n f : forall a rest, length rest < f -> length (brackets n f a rest) = catalan (length rest).
Proof.
  induction f as [|f IH]; intros a rest Hf; [lia|]. cbn [brackets]. destruct rest as [|p rest]; [reflexivity|]. set (l := p :: rest) in *.
  rewrite flat_map_count. change (length l) with (S (length rest)) at 2. rewrite catalan_succ. change (length l) with (S (length rest)).
  f_equal. apply map_ext_in. intros i Hi. apply in_seq in Hi.
  destruct (nth_error l i) as [[o b]|] eqn:En; [|apply nth_error_None in En; unfold l in En; cbn in En; lia].
  destruct (nth_split' _ _ _ En) as (_ & E1 & E2). assert (El : length l = S (length rest)) by reflexivity.
  rewrite flat_map_count. rewrite (map_ext_in _ (fun _ => catalan (length rest - i))).
  - rewrite <- E1 at 2. rewrite <- (IH a (firstn i l)) by lia. induction (brackets n f a (firstn i l)) as [|t ts IHt]; [reflexivity|].
    cbn [map length]. unfold list_sum in *. cbn [fold_right]. rewrite IHt. lia.
  - intros t _. rewrite map_length, IH by lia. f_equal. lia.
Qed.

Section Count.
  Variables (g : grammar) (n : str) (ops operands : list char).
  Hypothesis Hg : infix g n ops operands.
  Notation E := (Nonterminal n).

  Lemma yield_operation x o y : yield (operation n x o y) = yield x ++ o :: yield y.
  Proof. cbn [operation yield flat_map yield_node]. rewrite app_nil_r. reflexivity. Qed.
  Lemma text_cut a r1 o b r2 : text a (r1 ++ (o, b) :: r2) = text a r1 ++ o :: text b r2.
  Proof. unfold text. rewrite flat_map_app. reflexivity. Qed.

  Lemma brackets_in f : forall a rest t, length rest < f -> In a operands -> vrest ops operands rest ->
    (In t (brackets n f a rest) <-> parses g E (text a rest) t).
  Proof.
    induction f as [|f IH]; intros a rest t Hf Ha Hr; [lia|]. cbn [brackets]. destruct rest as [|p rest].
    - split.
      + intros [<-|[]]. split; [exact (derives_operand _ _ _ _ Hg a Ha)|split; reflexivity].
      + intros (Hd & Hrt & Hy). left. destruct (node_inv _ _ _ _ Hg t Hd Hrt) as [(c & _ & ->)|(x & o & y & _ & Dx & Dy & Rx & Ry & ->)].
        * injection Hy as ->. reflexivity.
        * apply (f_equal (@length _)) in Hy. rewrite yield_operation, app_length in Hy. cbn [length text flat_map] in Hy.
          destruct (text_odd _ _ _ _ Hg x Dx Rx) as [m Hm]. rewrite Hm in Hy. lia.
    - set (l := p :: rest) in *. rewrite in_flat_map. split.
      + intros (i & Hi & Ht). apply in_seq in Hi. destruct (nth_error l i) as [[o b]|] eqn:En; [|destruct Ht].
        destruct (nth_split' _ _ _ En) as (El & E1 & E2). apply in_flat_map in Ht. destruct Ht as (x & Hx & Ht). apply in_map_iff in Ht. destruct Ht as (y & <- & Hy).
        pose proof Hr as Hr'. rewrite El in Hr'. apply Forall_app in Hr'. destruct Hr' as [V1 V2]. inversion V2 as [|? ? [Ho Hb] V3]; subst. cbn [fst snd] in *.
        apply IH in Hx; [|lia|exact Ha|exact V1]. apply IH in Hy; [|lia|exact Hb|exact V3].
        destruct Hx as (Dx & Rx & Yx), Hy as (Dy & Ry & Yy). split; [|split; [reflexivity|]].
        * destruct (proj2 (Hg [E; Terminal [o]; E])) as (q & H1 & H2 & H3); [left; eauto|]. unfold operation. rewrite <- H2.
          econstructor; [exact H1|exact H3|]. constructor; [exact Rx|exact Dx|]. constructor. constructor; [exact Ry|exact Dy|constructor].
        * rewrite yield_operation, Yx, Yy, <- text_cut, <- El. reflexivity.
      + intros (Hd & Hrt & Hy). destruct (node_inv _ _ _ _ Hg t Hd Hrt) as [(c & _ & ->)|(x & o & y & Ho & Dx & Dy & Rx & Ry & ->)].
        { apply (f_equal (@length _)) in Hy. rewrite text_length in Hy. cbn in Hy. lia. }
        destruct (derives_text _ _ _ _ Hg x Dx Rx) as (a1 & r1 & _ & V1 & Y1). destruct (derives_text _ _ _ _ Hg y Dy Ry) as (b & r2 & Hb & V2 & Y2).
        rewrite yield_operation, Y1, Y2, <- text_cut in Hy. apply text_inj in Hy. destruct Hy as [-> El].
        exists (length r1). rewrite <- El. split; [apply in_seq; rewrite app_length; cbn; lia|].
        rewrite nth_error_app2, Nat.sub_diag by lia. cbn [nth_error].
        assert (Ef : firstn (length r1) (r1 ++ (o, b) :: r2) = r1) by (rewrite firstn_app, Nat.sub_diag, firstn_all, firstn_O, app_nil_r; reflexivity).
        assert (Es : skipn (S (length r1)) (r1 ++ (o, b) :: r2) = r2).
        { rewrite skipn_app, skipn_all2 by lia. replace (S (length r1) - length r1) with 1 by lia. reflexivity. }
        rewrite Ef, Es. assert (Hlen : length l = length r1 + S (length r2)) by (rewrite <- El, app_length; reflexivity).
        apply in_flat_map. exists x. split; [apply IH; [lia|exact Ha|exact V1|exact (conj Dx (conj Rx Y1))]|].
        apply in_map. apply IH; [lia|exact Hb|exact V2|exact (conj Dy (conj Ry Y2))].
  Qed.

  Lemma brackets_NoDup f : forall a rest, length rest < f -> In a operands -> vrest ops operands rest -> NoDup (brackets n f a rest).
  Proof.
    induction f as [|f IH]; intros a rest Hf Ha Hr; [lia|]. cbn [brackets]. destruct rest as [|p rest]; [constructor; [intros []|constructor]|].
    set (l := p :: rest) in *.
    assert (Hparts : forall i o b, nth_error l i = Some (o, b) -> length (firstn i l) < f /\ length (firstn i l) = i /\ length (skipn (S i) l) < f /\ In b operands /\
                       vrest ops operands (firstn i l) /\ vrest ops operands (skipn (S i) l)).
    { intros i o b En. destruct (nth_split' _ _ _ En) as (El & E1 & E2).
      pose proof Hr as Hr'. rewrite El in Hr'. apply Forall_app in Hr'. destruct Hr' as [V1 V2]. inversion V2 as [|? ? [Ho Hb] V3]; subst. cbn [fst snd] in *.
      assert (i < length l) by (apply nth_error_Some; congruence). repeat split; try assumption; lia. }
    apply NoDup_flat; [apply seq_NoDup| |].
    - intros i _. destruct (nth_error l i) as [[o b]|] eqn:En; [|constructor]. destruct (Hparts i o b En) as (L1 & _ & L2 & Hb & V1 & V2).
      apply NoDup_flat; [exact (IH a _ L1 Ha V1)| |].
      + intros x _. apply NoDup_map_inj'; [|exact (IH b _ L2 Hb V2)]. intros y y' H. injection H as ->. reflexivity.
      + intros x x' t _ _ H H'. apply in_map_iff in H. apply in_map_iff in H'. destruct H as (y & <- & _), H' as (y' & H' & _). injection H' as -> _. reflexivity.
    - intros i j t _ _ Hi Hj. destruct (nth_error l i) as [[o b]|] eqn:En; [|destruct Hi]. destruct (nth_error l j) as [[o' b']|] eqn:En'; [|destruct Hj].
      destruct (Hparts i o b En) as (L1 & E1 & _ & _ & V1 & _), (Hparts j o' b' En') as (L1' & E1' & _ & _ & V1' & _).
      apply in_flat_map in Hi. apply in_flat_map in Hj. destruct Hi as (x & Hx & Hi), Hj as (x' & Hx' & Hj). apply in_map_iff in Hi. apply in_map_iff in Hj.
      destruct Hi as (y & <- & _), Hj as (y' & Hj & _). injection Hj as -> _ _.
      apply (brackets_in f a (firstn i l) x L1 Ha V1) in Hx. apply (brackets_in f a (firstn j l) x L1' Ha V1') in Hx'.
      destruct Hx as (_ & _ & Hx), Hx' as (_ & _ & Hx'). rewrite Hx in Hx'. apply text_inj in Hx'. destruct Hx' as [_ Hx']. rewrite <- E1, <- E1', Hx'. reflexivity.
  Qed.

  (** ** Enumerating them ends *)

  Lemma infix_predicted a u : predicted g E a u -> a = E.
  Proof.
    induction 1 as [|l u p x m y v _ IH Hp Hl Hin _]; [reflexivity|]. subst l.
    destruct (proj1 (Hg (x ++ Nonterminal m :: y))) as [(o & _ & He)|(c & _ & He)]; [eauto| |].
    - destruct x as [|x1 [|x2 [|x3 x]]]; cbn in He; injection He as He; subst; try discriminate; try congruence.
      destruct x; discriminate.
    - destruct x as [|x1 x]; [discriminate|]. injection He as _ He. destruct x; discriminate.
  Qed.
  Lemma infix_unit b : ~ unit_step g n b.
  Proof.
    intros (p & x & y & Hp & Hl & Hin & Nx & Ny).
    destruct (proj1 (Hg (x ++ Nonterminal b :: y))) as [(o & _ & He)|(c & _ & He)]; [eauto| |].
    - assert (Ht : In (Terminal [o]) (x ++ Nonterminal b :: y)) by (rewrite He; right; left; reflexivity).
      apply in_app_or in Ht. destruct Ht as [Ht|[Ht|Ht]]; [|discriminate|].
      + apply (nullable_no_terminal _ _ _ Nx) in Ht. discriminate.
      + apply (nullable_no_terminal _ _ _ Ny) in Ht. discriminate.
    - destruct x as [|x1 x]; [discriminate|]. injection He as _ He. destruct x; discriminate.
  Qed.
  Lemma infix_ends input : ~ live_cycle g E input.
  Proof.
    intros (a & u & v & w & _ & Hp & _ & Hs). apply infix_predicted in Hp. injection Hp as ->. unfold self_deriving in Hs.
    apply clos_trans_t1n in Hs. inversion Hs as [? H|? ? H]; subst; exact (infix_unit _ H).
  Qed.
  Lemma infix_enumerated input it : opens g E input it -> exists ts it', produces it ts it' /\ exhausted it' /\ forall t, In t ts <-> parses g E input t.
  Proof.
    intro Hop. destruct (proj2 (ends_iff _ _ _ _ Hop) (infix_ends input)) as (ts & it' & Hp & He). exists ts, it'. split; [exact Hp|]. split; [exact He|].
    intro t. split; [exact (soundness _ _ _ _ _ _ t Hop Hp)|]. intro Ht. destruct (completeness _ _ _ _ _ Hop Ht) as (ts2 & it2 & Hp2 & Hin).
    destruct (produces_linear _ _ _ Hp _ _ Hp2) as [(r & -> & Hr)|(r & -> & _)].
    - apply in_app_or in Hin. destruct Hin as [Hin|Hin]; [exact Hin|]. destruct r as [|z r]; [destruct Hin|]. destruct (exhausted_no_more _ _ _ _ He Hr).
    - apply in_or_app. left. exact Hin.
  Qed.

  Lemma infix_count a rest it : NoDup (flat_prods g) -> In a operands -> vrest ops operands rest -> opens g E (text a rest) it ->
    exists ts it', produces it ts it' /\ exhausted it' /\ length ts = catalan (length rest).
  Proof.
    intros Hnd Ha Hr Hop. destruct (infix_enumerated _ _ Hop) as (ts & it' & Hp & He & Hts). exists ts, it'. split; [exact Hp|]. split; [exact He|].
    rewrite <- (brackets_length n (S (length rest)) a rest) by lia. apply Permutation_length. apply NoDup_Permutation.
    - exact (no_duplicates _ _ _ _ _ _ Hnd Hop Hp).
    - apply brackets_NoDup; [lia|exact Ha|exact Hr].
    - intro t. rewrite (brackets_in (S (length rest)) a rest t) by (assumption || lia). apply Hts.
  Qed.
  Lemma infix_none input it : opens g E input it -> (forall a rest, In a operands -> vrest ops operands rest -> input <> text a rest) -> exhausted it.
  Proof.
    intros Hop Hn. destruct (infix_enumerated _ _ Hop) as (ts & it' & Hp & He & Hts). destruct ts as [|t ts]; [inversion Hp; subst; exact He|].
    destruct (proj1 (Hts t) (or_introl eq_refl)) as (Hd & Hr & Hy). destruct (derives_text _ _ _ _ Hg t Hd Hr) as (a & rest & Ha & Hv & Et).
    destruct (Hn a rest Ha Hv). congruence.
  Qed.
End Count.
