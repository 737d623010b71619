(** Expressions with infix operators are bracketed to the left first. *)
From Verif Require Export InfixSpec RoundProofs.

Definition text (a : char) (rest : list (char * char)) : str := a :: flat_map (fun ob => [fst ob; snd ob]) rest.
Definition lead (l : list (char * char)) : str := flat_map (fun ao => [fst ao; snd ao]) l.

Lemma text_snoc a rest o b : text a (rest ++ [(o, b)]) = text a rest ++ [o; b].
Proof. unfold text. rewrite flat_map_app. reflexivity. Qed.
Lemma text_length a rest : length (text a rest) = S (2 * length rest).
Proof. unfold text. cbn [length]. f_equal. induction rest as [|[o b] rest IH]; [reflexivity|]. cbn [flat_map fst snd]. rewrite app_length, IH. cbn. lia. Qed.
Lemma lead_length l : length (lead l) = 2 * length l.
Proof. induction l as [|[o b] l IH]; [reflexivity|]. unfold lead in *. cbn [flat_map fst snd]. rewrite app_length, IH. cbn. lia. Qed.
Lemma text_inj a rest a' rest' : text a rest = text a' rest' -> a = a' /\ rest = rest'.
Proof.
  unfold text. intro H. injection H as -> H. split; [reflexivity|]. revert rest' H.
  induction rest as [|[o b] rest IH]; intros [|[o' b'] rest'] H; cbn in H; try discriminate; [reflexivity|]. injection H as -> -> H. f_equal. apply IH. exact H.
Qed.
Lemma leftmost_snoc n a rest o b : leftmost n a (rest ++ [(o, b)]) = operation n (leftmost n a rest) o (operand n b).
Proof. unfold leftmost. rewrite fold_left_app. reflexivity. Qed.
Lemma leftmost_yield n a rest : yield (leftmost n a rest) = text a rest.
Proof.
  induction rest as [|[o b] rest IH] using rev_ind; [reflexivity|]. rewrite leftmost_snoc, text_snoc, <- IH. cbn. reflexivity.
Qed.
Lemma leftmost_root n a rest : root (leftmost n a rest) = Nonterminal n.
Proof. induction rest as [|[o b] rest IH] using rev_ind; [reflexivity|]. rewrite leftmost_snoc. reflexivity. Qed.

Section Infix.
  Variables (g : grammar) (n : str) (ops operands : list char).
  Hypothesis Hg : infix g n ops operands.
  Notation E := (Nonterminal n).

  Definition vrest (l : list (char * char)) : Prop := Forall (fun ob => In (fst ob) ops /\ In (snd ob) operands) l.
  Definition vlead (l : list (char * char)) : Prop := Forall (fun ao => In (fst ao) operands /\ In (snd ao) ops) l.

  Lemma text_lead a rest o : In a operands -> vrest rest -> In o ops -> exists l, lead l = text a rest ++ [o] /\ length l = S (length rest) /\ vlead l.
  Proof.
    revert a. induction rest as [|[o1 b] rest IH]; intros a Ha Hr Ho.
    - exists [(a, o)]. split; [reflexivity|]. split; [reflexivity|]. constructor; [auto|constructor].
    - inversion Hr as [|? ? [H1 H2] H3]; subst. cbn [fst snd] in *. destruct (IH b H2 H3 Ho) as (l & El & Ell & Hl).
      exists ((a, o1) :: l). split; [unfold lead in *; cbn [flat_map fst snd]; rewrite El; reflexivity|]. split; [cbn; lia|]. constructor; auto.
  Qed.

  (** ** Derivations *)

  Lemma node_inv t : derives g t -> root t = E ->
    (exists a, In a operands /\ t = operand n a) \/
    (exists x o y, In o ops /\ derives g x /\ derives g y /\ root x = E /\ root y = E /\ t = operation n x o y).
  Proof.
    intros Hd Hr. inversion Hd as [p rhs kids Hp Hin Hk]; subst t. cbn in Hr.
    destruct (proj1 (Hg rhs)) as [(o & Ho & ->)|(a & Ha & ->)]; [eauto| |].
    - right. inversion Hk as [| |n1 x r1 ks1 Hx Dx Hk1]; subst. inversion Hk1 as [|s2 r2 ks2 Hk2|]; subst. inversion Hk2 as [| |n3 y r3 ks3 Hy Dy Hk3]; subst.
      inversion Hk3; subst. rewrite Hr. exists x, o, y. auto 10.
    - left. inversion Hk as [|s1 r1 ks1 Hk1|]; subst. inversion Hk1; subst. rewrite Hr. exists a. auto.
  Qed.

  Lemma operation_parts x o y : derives g (operation n x o y) -> In o ops /\ derives g x /\ derives g y /\ root x = E /\ root y = E.
  Proof.
    intro H. destruct (node_inv _ H eq_refl) as [(a & _ & H')|(x' & o' & y' & H1 & H2 & H3 & H4 & H5 & H')]; [discriminate|].
    injection H' as -> -> ->. auto.
  Qed.

  Lemma derives_text t : derives g t -> root t = E -> exists a rest, In a operands /\ vrest rest /\ yield t = text a rest.
  Proof.
    induction t as [l kids IH] using tree_ind'. intros Hd Hr.
    destruct (node_inv _ Hd Hr) as [(a & Ha & ->)|(x & o & y & Ho & Dx & Dy & Rx & Ry & Et)].
    - exists a, []. split; [exact Ha|]. split; [constructor|reflexivity].
    - injection Et as -> ->. destruct (IH x) as (a & r1 & Ha & H1 & E1); [left; reflexivity|exact Dx|exact Rx|].
      destruct (IH y) as (b & r2 & Hb & H2 & E2); [right; right; left; reflexivity|exact Dy|exact Ry|].
      exists a, (r1 ++ (o, b) :: r2). split; [exact Ha|]. split; [apply Forall_app; split; [exact H1|constructor; [auto|exact H2]]|].
      cbn [yield flat_map yield_node]. rewrite E1, E2. unfold text. rewrite flat_map_app. cbn. rewrite app_nil_r. reflexivity.
  Qed.

  Lemma exchange_lead u v w t t' : exchange u v w t t' -> derives g t -> root t = E -> root u = E /\ exists l, vlead l /\ w = lead l.
  Proof.
    induction 1 as [|l a t t' b w H IH]; intros Hd Hr; [split; [exact Hr|]; exists []; split; [constructor|reflexivity]|].
    destruct (node_inv _ Hd Hr) as [(c & _ & Et)|(x & o & y & Ho & Dx & Dy & Rx & Ry & Et)].
    - injection Et as _ Et. destruct a as [|k a]; [discriminate|]. injection Et as _ Et. destruct a; discriminate.
    - injection Et as _ Et. destruct a as [|k a].
      + injection Et as -> ->. exact (IH Dx Rx).
      + injection Et as -> Et. destruct a as [|k a]; [discriminate|]. injection Et as -> Et. destruct a as [|k a]; [|injection Et as _ Et; destruct a; discriminate].
        injection Et as -> ->. destruct (IH Dy Ry) as (Ru & l' & Hl & ->). split; [exact Ru|].
        destruct (derives_text _ Dx Rx) as (c & rest & Hc & Hrest & Ey). destruct (text_lead c rest o Hc Hrest Ho) as (l1 & E1 & _ & H1).
        exists (l1 ++ l'). split; [apply Forall_app; auto|]. unfold lead at 2. rewrite flat_map_app. fold (lead l1) (lead l'). rewrite E1.
        cbn [flat_map yield_node]. rewrite Ey, app_nil_r. reflexivity.
  Qed.

  Lemma rounds_long t : derives g t -> root t = E -> 2 * length (yield t) <= S (rounds t) /\ ((forall a, t <> operand n a) -> 2 * length (yield t) <= rounds t).
  Proof.
    induction t as [l kids IH] using tree_ind'. intros Hd Hr.
    destruct (node_inv _ Hd Hr) as [(a & Ha & ->)|(x & o & y & Ho & Dx & Dy & Rx & Ry & Et)].
    - split; [cbn; lia|]. intro H. destruct (H a eq_refl).
    - injection Et as -> ->. destruct (IH y) as [H _]; [right; right; left; reflexivity|exact Dy|exact Ry|].
      assert (Hk : 2 * length (yield (Node E [Sub x; Leaf [o]; Sub y])) <= rounds (Node E [Sub x; Leaf [o]; Sub y])).
      { change (rounds (Node E [Sub x; Leaf [o]; Sub y])) with (S (Nat.max (2 + rounds x) (2 * S (length (yield x)) + rounds y))).
        cbn [yield flat_map yield_node]. rewrite !app_length. cbn [length]. lia. }
      split; [lia|auto].
  Qed.

  Lemma rounds_leftmost a rest : rest <> [] -> rounds (leftmost n a rest) = 2 * length (text a rest).
  Proof.
    induction rest as [|[o b] rest IH] using rev_ind; intro Hne; [destruct (Hne eq_refl)|].
    rewrite leftmost_snoc. unfold operation.
    change (rounds (Node E [Sub (leftmost n a rest); Leaf [o]; Sub (operand n b)])) with
      (S (Nat.max (2 + rounds (leftmost n a rest)) (2 * S (length (yield (leftmost n a rest))) + 1))).
    rewrite leftmost_yield, text_snoc, app_length. cbn [length].
    destruct rest as [|p rest]; [cbn; lia|]. rewrite IH by discriminate. lia.
  Qed.

  (** ** When trees are found *)

  Variable input : str.
  Notation round := (round g E input).

  Inductive low (i : nat) : nat -> list pnode -> list term -> Prop :=
  | low_operand0 k a : 4 * i <= k -> low i k [] [Terminal [a]]
  | low_operation0 k o : 4 * i <= k -> low i k [] [E; Terminal [o]; E]
  | low_operation1 k x o : derives g x -> root x = E -> 4 * i + rounds x + 1 <= k -> low i k [Sub x] [Terminal [o]; E]
  | low_operation2 k x o : derives g x -> root x = E -> 4 * i + rounds x + 2 <= k -> low i k [Sub x; Leaf [o]] [E]
  | low_done k t : derives g t -> root t = E -> 4 * i + rounds t <= k -> low i k (match t with Node _ ks => ks end) [].

  Lemma low_mono i k k' ks r : k <= k' -> low i k ks r -> low i k' ks r.
  Proof. intros Hk H. destruct H; econstructor; try eassumption; lia. Qed.
  Lemma low_root i k e : 4 * i <= k -> (exists p, In p g /\ p_lhs p = E /\ In e (p_rhs p)) -> low i k [] e.
  Proof. intros Hk He. destruct (proj1 (Hg e) He) as [(o & _ & ->)|(a & _ & ->)]; constructor; exact Hk. Qed.
  Lemma low_complete i k ks : low i k ks [] -> derives g (Node E ks) /\ 4 * i + rounds (Node E ks) <= k.
  Proof. intro H. inversion H as [| | | |k0 t Dt Rt Hk]; subst. destruct t as [l kt]. cbn in Rt. subst l. auto. Qed.

  Lemma text_odd t : derives g t -> root t = E -> exists m, length (yield t) = 2 * m + 1.
  Proof. intros Hd Hr. destruct (derives_text _ Hd Hr) as (a & rest & _ & _ & ->). exists (length rest). rewrite text_length. lia. Qed.

  Lemma round_derives k w l ks : round k w l ks [] -> derives g (Node l ks).
  Proof.
    intro H. destruct (found_dround g E input k w (Node l ks) H) as (dt & _ & Hv & <-). apply erase_derives; [exact (proj2 (pg_new_unchecked_ok g))|exact Hv].
  Qed.

  Lemma round_low k w l ks r : round k w l ks r -> l = E /\ exists i, length w = 2 * i /\ low i k ks r.
  Proof.
    induction 1 as [p e Hp Hl He|k w l ks n0 r p e Hr IH Hp Hl He|k w l ks s r v Hr IH Ei|k w l ks n0 r ks' Hr IH Hr' IH'|k w l ks r Hr IH].
    - split; [reflexivity|]. exists 0. split; [reflexivity|]. apply low_root; [lia|eauto].
    - destruct IH as (-> & i & Hi & Hlow). inversion Hlow as [|k0 o Hk| |k0 x o Dx Rx Hk|]; subst.
      + split; [reflexivity|]. exists i. split; [rewrite app_nil_r; exact Hi|]. apply low_root; [lia|eauto].
      + destruct (text_odd x Dx Rx) as [m Hm]. pose proof (proj1 (rounds_long x Dx Rx)) as Hlong.
        split; [reflexivity|]. exists (i + m + 1). split; [cbn [flat_map yield_node]; rewrite !app_length, Hi, Hm; cbn [length]; lia|].
        apply low_root; [lia|eauto].
    - destruct IH as (-> & i & Hi & Hlow). split; [reflexivity|]. exists i. split; [exact Hi|].
      pose proof (round_scan _ _ _ _ _ _ _ _ _ _ Hr Ei) as Hs. clear Ei. inversion Hlow as [k0 a Hk| |k0 x o Dx Rx Hk| |]; subst; cbn [app].
      + apply (low_done i (S k) (operand n a)); [|reflexivity|cbn; lia]. apply (round_derives (S k) w E).
        exact Hs.
      + constructor; [exact Dx|exact Rx|lia].
    - destruct IH as (-> & i & Hi & Hlow). split; [reflexivity|]. exists i. split; [exact Hi|].
      destruct IH' as (En & i' & Hi' & Hlow'). injection En as ->. destruct (low_complete _ _ _ Hlow') as (Dy & Hk').
      rewrite app_length, Hi in Hi'. inversion Hlow as [|k0 o Hk| |k0 x o Dx Rx Hk|]; subst; cbn [app].
      + cbn in Hi'. assert (i' = i) by lia. subst i'. constructor; [exact Dy|reflexivity|lia].
      + cbn [flat_map yield_node] in Hi'. rewrite !app_length in Hi'. cbn [length] in Hi'.
        apply (low_done i (S k) (operation n x o (Node E ks'))); [|reflexivity|].
        * apply (round_derives (S k) w E). exact (round_complete _ _ _ _ _ _ _ _ _ _ Hr Hr').
        * unfold operation. change (rounds (Node E [Sub x; Leaf [o]; Sub (Node E ks')])) with
            (S (Nat.max (2 + rounds x) (2 * S (length (yield x)) + rounds (Node E ks')))). lia.
    - destruct IH as (-> & i & Hi & Hlow). split; [reflexivity|]. exists i. split; [exact Hi|]. apply (low_mono i k); [lia|exact Hlow].
  Qed.

  (** ** ... and trees bracketed to the left are found then *)

  Definition open_at (k : nat) (w : str) : Prop := forall p e, In p g -> p_lhs p = E -> In e (p_rhs p) -> round k w E [] e.

  Lemma open_operand k w a v : open_at k w -> In a operands -> input = w ++ a :: v -> round (S k) w E [Leaf [a]] [].
  Proof.
    intros Ho Ha Ei. destruct (proj2 (Hg [Terminal [a]])) as (p & H1 & H2 & H3); [right; eauto|].
    apply (round_scan _ _ _ k w E [] [a] [] v (Ho p _ H1 H2 H3)). exact Ei.
  Qed.
  Lemma open_operation k w x o v : open_at k w -> In o ops -> found g E input (S k) w x -> root x = E -> input = w ++ yield x ++ o :: v ->
    round (3 + k) w E [Sub x; Leaf [o]] [E].
  Proof.
    intros Hop Ho Hx Hr Ei. destruct (proj2 (Hg [E; Terminal [o]; E])) as (p & H1 & H2 & H3); [left; eauto|].
    assert (H : round (2 + k) w E [Sub x] [Terminal [o]; E]).
    { destruct x as [lx kx]. cbn in Hr. subst lx. apply (round_complete _ _ _ (S k) w E [] n _ kx).
      - apply round_keep. exact (Hop p _ H1 H2 H3).
      - cbn [flat_map]. rewrite app_nil_r. exact Hx. }
    apply (round_scan _ _ _ (2 + k) w E [Sub x] [o] [E] v H). rewrite Ei. cbn [flat_map yield_node]. rewrite app_nil_r. reflexivity.
  Qed.
  Lemma open_later w x o k : round k w E [Sub x; Leaf [o]] [E] -> open_at (S k) (w ++ yield x ++ [o]).
  Proof.
    intros H p e H1 H2 H3. replace (w ++ yield x ++ [o]) with (w ++ flat_map yield_node [Sub x; Leaf [o]]) by reflexivity. econstructor; eassumption.
  Qed.
  Lemma open_lead l : forall k w v, open_at k w -> vlead l -> input = w ++ lead l ++ v -> open_at (k + 4 * length l) (w ++ lead l).
  Proof.
    induction l as [|[a o] l IH]; intros k w v Hop Hl Ei.
    - cbn. rewrite Nat.add_0_r, app_nil_r. exact Hop.
    - inversion Hl as [|? ? [H1 H2] H3]; subst. cbn [fst snd] in *.
      replace (w ++ lead ((a, o) :: l)) with ((w ++ [a; o]) ++ lead l) by (rewrite <- app_assoc; reflexivity).
      replace (k + 4 * length ((a, o) :: l)) with (4 + k + 4 * length l) by (cbn [length]; lia).
      apply (IH _ _ v); [|exact H3|rewrite Ei, <- app_assoc; reflexivity].
      apply (open_later w (operand n a) o (3 + k)). apply (open_operation k w (operand n a) o (lead l ++ v)); [exact Hop|exact H2| |reflexivity|exact Ei].
      apply (open_operand k w a (o :: lead l ++ v)); [exact Hop|exact H1|exact Ei].
  Qed.

  Lemma found_up t : derives g t -> root t = E -> forall k w v, open_at k w -> input = w ++ yield t ++ v -> found g E input (k + rounds t) w t.
  Proof.
    induction t as [l kids IH] using tree_ind'. intros Hd Hr k w v Hop Ei.
    destruct (node_inv _ Hd Hr) as [(a & Ha & Et)|(x & o & y & Ho & Dx & Dy & Rx & Ry & Et)].
    - injection Et as -> ->. cbn. rewrite Nat.add_1_r. exact (open_operand k w a v Hop Ha Ei).
    - injection Et as -> ->. cbn [yield flat_map yield_node] in Ei. rewrite app_nil_r in Ei.
      assert (Hx : found g E input (k + rounds x) w x).
      { apply (IH x (or_introl eq_refl) Dx Rx k w ([o] ++ yield y ++ v) Hop). rewrite Ei, <- !app_assoc. reflexivity. }
      assert (Hpos : 1 <= rounds x) by (destruct x as [lx [|[]  [|[] [|[] []]]]]; cbn; lia).
      assert (H2 : round (k + rounds x + 2) w E [Sub x; Leaf [o]] [E]).
      { replace (k + rounds x + 2) with (3 + (k + rounds x - 1)) by lia. apply (open_operation _ _ _ _ (yield y ++ v)); [|exact Ho| |exact Rx|rewrite Ei, <- !app_assoc; reflexivity].
        - intros p e H1 H3 H4. apply (round_le _ _ _ k); [lia|]. exact (Hop p e H1 H3 H4).
        - apply (found_le _ _ _ (k + rounds x)); [lia|exact Hx]. }
      destruct (derives_text _ Dx Rx) as (a & rest & Ha & Hv & Etext). destruct (text_lead a rest o Ha Hv Ho) as (l & El & Ell & Hl).
      assert (H3 : found g E input (k + 4 * length l + rounds y) (w ++ lead l) y).
      { apply (IH y) with (v := v); [right; right; left; reflexivity|exact Dy|exact Ry| |].
        - apply (open_lead l k w (yield y ++ v) Hop Hl). rewrite El, <- Etext, Ei, <- !app_assoc. reflexivity.
        - rewrite El, <- Etext, Ei, <- !app_assoc. reflexivity. }
      change (rounds (Node E [Sub x; Leaf [o]; Sub y])) with (S (Nat.max (2 + rounds x) (2 * S (length (yield x)) + rounds y))).
      rewrite Nat.add_succ_r. rewrite Etext, text_length. destruct y as [ly ky]. cbn in Ry. subst ly. cbn [found] in *.
      apply (round_complete _ _ _ _ w E [Sub x; Leaf [o]] n [] ky).
      + apply (round_le _ _ _ (k + rounds x + 2)); [lia|exact H2].
      + cbn [flat_map yield_node]. rewrite Etext, app_nil_r, <- El. apply (round_le _ _ _ (k + 4 * length l + rounds (Node E ky))); [rewrite Ell; lia|exact H3].
  Qed.

  (** In a tree of the whole input, the subtree [u] after the text [w] is found when its rounds are over. *)
  Lemma infix_found u v w t t' k : parses g E input t -> exchange u v w t t' -> (found g E input k w u <-> 2 * length w + rounds u <= k).
  Proof.
    intros Ht Hx. pose proof Ht as (Hd & Hr & Hyt). destruct (exchange_lead _ _ _ _ _ Hx Hd Hr) as (Ru & l & Hl & ->).
    assert (Du : derives g u) by (eapply derives_subtree; [apply (exchange_subtree _ _ _ _ _ Hx)|exact Hd]).
    destruct (exchange_text _ _ _ _ _ Hx) as [r Er]. rewrite Hyt in Er. rewrite lead_length. split; intro H.
    - destruct u as [lu ku]. cbn in Ru. subst lu. destruct (round_low _ _ _ _ _ H) as (_ & i & Hi & Hlow). rewrite lead_length in Hi.
      destruct (low_complete _ _ _ Hlow) as [_ Hk]. lia.
    - apply (found_le _ _ _ (0 + 4 * length l + rounds u)); [lia|]. apply (found_up u Du Ru _ _ r); [|exact Er].
      apply (open_lead l 0 [] (yield u ++ r)); [|exact Hl|exact Er]. intros p e H1 H2 H3. econstructor; eauto.
  Qed.

  Lemma infix_rounds it u v w t t' : opens g E input it -> parses g E input t -> exchange u v w t t' ->
    derives g v -> root u = root v -> yield u = yield v -> rounds v < rounds u -> earlier it t' t.
  Proof.
    intros Hop Ht Hx Dv Hr Hy Hlt. pose proof (exchange_parses _ _ _ _ _ _ _ _ Ht Dv Hr Hy Hx) as Ht'.
    refine (exchange_rounds g E input it (2 * length w + rounds v) u v w t t' Hop Ht Hx Hr Hy _ _).
    - apply (infix_found v u w t' t _ Ht' (exchange_sym _ _ _ _ _ Hx)). lia.
    - intro Hf. apply (infix_found u v w t t' _ Ht Hx) in Hf. lia.
  Qed.

  (** ** So brackets to the left come first *)

  Lemma derives_operand a : In a operands -> derives g (operand n a).
  Proof.
    intro Ha. destruct (proj2 (Hg [Terminal [a]])) as (p & H1 & H2 & H3); [right; eauto|]. unfold operand. rewrite <- H2.
    econstructor; [exact H1|exact H3|]. constructor. constructor.
  Qed.
  Lemma derives_leftmost a rest : In a operands -> vrest rest -> derives g (leftmost n a rest).
  Proof.
    intro Ha. induction rest as [|[o b] rest IH] using rev_ind; intro Hv; [exact (derives_operand a Ha)|].
    apply Forall_app in Hv. destruct Hv as [Hv Hb]. inversion Hb as [|? ? [Ho Hb'] _]; subst. cbn [fst snd] in *.
    destruct (proj2 (Hg [E; Terminal [o]; E])) as (p & H1 & H2 & H3); [left; eauto|]. rewrite leftmost_snoc. unfold operation. rewrite <- H2.
    econstructor; [exact H1|exact H3|]. constructor; [apply leftmost_root|exact (IH Hv)|]. constructor. constructor; [reflexivity|exact (derives_operand b Hb')|constructor].
  Qed.

  Lemma infix_left it x o y a rest w t t' : opens g E input it -> parses g E input t -> exchange (operation n x o y) (leftmost n a rest) w t t' ->
    yield (leftmost n a rest) = yield (operation n x o y) -> (forall b, y <> operand n b) -> earlier it t' t.
  Proof.
    intros Hop Ht Hx Hy Hne. pose proof Ht as (Hd & Hr & Hyt).
    assert (Hdu : derives g (operation n x o y)) by (eapply derives_subtree; [apply (exchange_subtree _ _ _ _ _ Hx)|exact Hd]).
    destruct (derives_text _ Hdu eq_refl) as (a' & rest' & Ha & Hv & Etext). pose proof Hy as Hy'. rewrite leftmost_yield, Etext in Hy. apply text_inj in Hy. destruct Hy as [-> ->].
    refine (infix_rounds it _ _ _ t t' Hop Ht Hx (derives_leftmost a' rest' Ha Hv) _ (eq_sym Hy') _); [symmetry; apply leftmost_root|].
    destruct (operation_parts _ _ _ Hdu) as (_ & Dx & Dy & Rx & Ry). pose proof (proj2 (rounds_long y Dy Ry) Hne) as Hlong.
    destruct (text_odd x Dx Rx) as [m Hm].
    assert (Hnil : rest' <> []).
    { intros ->. apply (f_equal (@length _)) in Etext. cbn [operation yield flat_map yield_node] in Etext. rewrite !app_length in Etext. cbn [length text flat_map] in Etext. lia. }
    rewrite (rounds_leftmost a' rest' Hnil), <- Etext. unfold operation.
    change (rounds (Node E [Sub x; Leaf [o]; Sub y])) with (S (Nat.max (2 + rounds x) (2 * S (length (yield x)) + rounds y))).
    cbn [yield flat_map yield_node]. rewrite !app_length. cbn [length]. lia.
  Qed.

  Lemma infix_first it t it1 : opens g E input it -> produces it [t] it1 -> exists a rest, t = leftmost n a rest.
  Proof.
    intros Hop Hp. pose proof (soundness _ _ _ _ _ _ t Hop Hp (or_introl eq_refl)) as Ht.
    assert (Hno : forall t', ~ earlier it t' t).
    { intros t' (ts & it2 & P2 & Hin & Hni). destruct (produces_linear _ _ _ Hp _ _ P2) as [(r & -> & _)|(r & Ee & _)].
      - apply Hni. left. reflexivity.
      - destruct ts as [|z ts]; [destruct Hin|]. injection Ee as -> _. apply Hni. left. reflexivity. }
    assert (Hright : forall x o y, subtree (operation n x o y) t -> exists b, y = operand n b).
    { intros x o y Hs. assert (Hdu : derives g (operation n x o y)) by (eapply derives_subtree; [exact Hs|apply Ht]).
      destruct (operation_parts _ _ _ Hdu) as (_ & _ & Dy & _ & Ry). destruct (node_inv _ Dy Ry) as [(b & _ & ->)|(x' & o' & y' & _ & _ & _ & _ & _ & Ey)]; [eauto|].
      exfalso. destruct (derives_text _ Hdu eq_refl) as (a & rest & _ & _ & Etext). destruct (subtree_exchange _ (leftmost n a rest) _ Hs) as (w & t' & Hx).
      apply (Hno t'). refine (infix_left it x o y a rest w t t' Hop Ht Hx _ _); [rewrite leftmost_yield, Etext; reflexivity|]. rewrite Ey. discriminate. }
    destruct Ht as (Hd & Hr & _). clear - Hg Hright Hd Hr. induction t as [l kids IH] using tree_ind'.
    destruct (node_inv _ Hd Hr) as [(a & _ & ->)|(x & o & y & _ & Dx & _ & Rx & _ & Et)]; [exists a, []; reflexivity|]. injection Et as -> ->.
    destruct (Hright x o y) as [b ->]; [constructor|]. destruct (IH x) as (a & rest & ->); [left; reflexivity|exact Dx|exact Rx| |].
    - intros x' o' y' Hs. apply (Hright x' o' y'). econstructor; [left; reflexivity|exact Hs].
    - exists a, (rest ++ [(o, b)]). rewrite leftmost_snoc. reflexivity.
  Qed.
End Infix.
