(** Proofs about Debug.v. *)
From Verif Require Export Debug.
From Coq Require Import Hexadecimal HexadecimalN.
From Coq Require String.
Import String.StringSyntax.

(** A text that can be recognised inside a longer one. *)
Definition code {A} (f : A -> str) : Prop := forall a b x y, f a ++ x = f b ++ y -> a = b /\ x = y.

Lemma code_injective {A} (f : A -> str) : code f -> forall a b, f a = f b -> a = b.
Proof. intros H a b E. apply (H a b [] []). rewrite E. reflexivity. Qed.
Lemma code_wrap {A} (p q : str) (f : A -> str) : code f -> code (fun a => p ++ f a ++ q).
Proof.
  intros H a b x y E. rewrite <- !app_assoc in E. apply app_inv_head in E. apply H in E. destruct E as [-> E]. apply app_inv_head in E. auto.
Qed.
Lemma code_ext {A} (f g : A -> str) : (forall a, f a = g a) -> code f -> code g.
Proof. intros H Hf a b x y E. rewrite <- !H in E. apply Hf in E. assumption. Qed.
(** Two codes one after the other. *)
Lemma code_seq {A B C} (f : A -> str) (g : B -> str) (h1 : C -> A) (h2 : C -> B) (p q r : str) :
  (forall c d, h1 c = h1 d -> h2 c = h2 d -> c = d) -> code f -> code g -> code (fun c => p ++ f (h1 c) ++ q ++ g (h2 c) ++ r).
Proof.
  intros Hh Hf Hg a b x y E. rewrite <- !app_assoc in E. apply app_inv_head in E. apply Hf in E. destruct E as [E1 E]. apply app_inv_head in E.
  apply Hg in E. destruct E as [E2 E]. apply app_inv_head in E. auto.
Qed.

(** ** Strings *)

Lemma hex_str_inj d d' : hex_str d = hex_str d' -> d = d'.
Proof. revert d'; induction d; intros [] H; cbn in H; try discriminate; try (injection H as H; f_equal; auto); reflexivity. Qed.
Lemma hex_str_digits d : ~ In 125%N (hex_str d).
Proof. induction d; cbn; intuition discriminate. Qed.
Lemma split_at (c : char) a b x y : ~ In c a -> ~ In c b -> a ++ c :: x = b ++ c :: y -> a = b /\ x = y.
Proof.
  revert b; induction a as [|d a IH]; intros [|e b] Ha Hb E; cbn in *.
  - injection E as ->. auto.
  - injection E as -> _. tauto.
  - injection E as -> _. tauto.
  - injection E as -> E. destruct (IH b) as [-> ->]; tauto.
Qed.

Section Str.
Variable plain : char -> bool.
Notation dc := (debug_char plain).

(** The eight forms. *)
Lemma debug_char_cases c :
  (c = 0 /\ dc c = [92; 48] \/ c = 9 /\ dc c = [92; 116] \/ c = 13 /\ dc c = [92; 114] \/ c = 10 /\ dc c = [92; 110] \/
   c = 34 /\ dc c = [92; 34] \/ c = 92 /\ dc c = [92; 92])%N \/
  (c <> 34%N /\ c <> 92%N /\ c <> 10%N /\ plain c = true /\ dc c = [c]) \/
  (exists h, dc c = 92%N :: 117%N :: 123%N :: h ++ [125%N] /\ h = hex_str (N.to_hex_uint c)).
Proof.
  unfold debug_char.
  destruct (N.eqb_spec c 0); [auto|]. destruct (N.eqb_spec c 9); [auto 10|]. destruct (N.eqb_spec c 13); [auto 10|]. destruct (N.eqb_spec c 10); [auto 10|].
  destruct (N.eqb_spec c 34); [auto 10|]. destruct (N.eqb_spec c 92); [auto 10|]. destruct (plain c) eqn:E; [auto 10|]. right; right. eexists. split; reflexivity.
Qed.
Lemma debug_char_code : code dc.
Proof.
  intros a b x y E.
  destruct (debug_char_cases a) as [Ha|[(Ha & Ha' & _ & _ & Ea)|(h & Ea & Eh)]], (debug_char_cases b) as [Hb|[(Hb & Hb' & _ & _ & Eb)|(h' & Eb & Eh')]].
  - destruct Ha as [[-> Ea]|[[-> Ea]|[[-> Ea]|[[-> Ea]|[[-> Ea]|[-> Ea]]]]]], Hb as [[-> Eb]|[[-> Eb]|[[-> Eb]|[[-> Eb]|[[-> Eb]|[-> Eb]]]]]];
      rewrite Ea in E; try rewrite Eb in E; cbn in E; try discriminate; injection E as ->; auto.
  - rewrite Eb in E. destruct Ha as [[-> Ea]|[[-> Ea]|[[-> Ea]|[[-> Ea]|[[-> Ea]|[-> Ea]]]]]]; rewrite Ea in E; cbn in E; injection E as E _; congruence.
  - rewrite Eb in E. destruct Ha as [[-> Ea]|[[-> Ea]|[[-> Ea]|[[-> Ea]|[[-> Ea]|[-> Ea]]]]]]; rewrite Ea in E; cbn in E; discriminate.
  - rewrite Ea in E. destruct Hb as [[-> Eb]|[[-> Eb]|[[-> Eb]|[[-> Eb]|[[-> Eb]|[-> Eb]]]]]]; rewrite Eb in E; cbn in E; injection E as E _; congruence.
  - rewrite Ea, Eb in E. cbn in E. injection E as -> ->. auto.
  - rewrite Ea, Eb in E. cbn in E. injection E as E _. congruence.
  - rewrite Ea in E. destruct Hb as [[-> Eb]|[[-> Eb]|[[-> Eb]|[[-> Eb]|[[-> Eb]|[-> Eb]]]]]]; rewrite Eb in E; cbn in E; discriminate.
  - rewrite Ea, Eb in E. cbn in E. injection E as E _. congruence.
  - rewrite Ea, Eb in E. cbn in E. injection E as E. rewrite <- !app_assoc in E. cbn in E. apply split_at in E.
    + destruct E as [E ->]. split; [|reflexivity]. rewrite Eh, Eh' in E. apply hex_str_inj in E.
      rewrite <- (HexadecimalN.Unsigned.of_to a), <- (HexadecimalN.Unsigned.of_to b), E. reflexivity.
    + rewrite Eh. apply hex_str_digits.
    + rewrite Eh'. apply hex_str_digits.
Qed.
Lemma debug_char_head c : exists d s, dc c = d :: s /\ d <> 34%N.
Proof.
  destruct (debug_char_cases c) as [Ha|[(Ha & _ & _ & _ & Ea)|(h & Ea & _)]].
  - destruct Ha as [[-> Ea]|[[-> Ea]|[[-> Ea]|[[-> Ea]|[[-> Ea]|[-> Ea]]]]]]; rewrite Ea; eexists _, _; split; try reflexivity; discriminate.
  - rewrite Ea. eauto.
  - rewrite Ea. eexists _, _. split; [reflexivity|discriminate].
Qed.
Lemma debug_str_code : code (debug_str plain).
Proof.
  intros s t x y E. unfold debug_str in E. cbn [app] in E. injection E as E. rewrite <- !app_assoc in E. cbn [app] in E.
  revert t E. induction s as [|c s IH]; intros [|d t] E; cbn [flat_map app] in E.
  - injection E as ->. auto.
  - destruct (debug_char_head d) as (e & r & Ed & He). rewrite Ed in E. cbn in E. injection E as E _. congruence.
  - destruct (debug_char_head c) as (e & r & Ed & He). rewrite Ed in E. cbn in E. injection E as E _. congruence.
  - rewrite <- !app_assoc in E. apply debug_char_code in E. destruct E as [-> E]. apply IH in E. destruct E as [-> ->]. auto.
Qed.
Lemma hex_str_no_nl d : ~ In 10%N (hex_str d).
Proof. induction d; cbn; intuition discriminate. Qed.
Lemma debug_char_one_line c : ~ In 10%N (dc c).
Proof.
  destruct (debug_char_cases c) as [Ha|[(_ & _ & H & _ & Ea)|(h & Ea & ->)]].
  - destruct Ha as [[-> Ea]|[[-> Ea]|[[-> Ea]|[[-> Ea]|[[-> Ea]|[-> Ea]]]]]]; rewrite Ea; cbn; intuition discriminate.
  - rewrite Ea. cbn. intuition congruence.
  - rewrite Ea. intros [H|[H|[H|H]]]; try discriminate. apply in_app_or in H. destruct H as [H|[H|[]]]; [|discriminate]. apply hex_str_no_nl in H. assumption.
Qed.
Lemma debug_str_one_line s : ~ In 10%N (debug_str plain s).
Proof.
  unfold debug_str. intro H. apply in_app_or in H. destruct H as [[H|[]]|H]; [discriminate|]. apply in_app_or in H. destruct H as [H|[H|[]]]; [|discriminate].
  apply in_flat_map in H. destruct H as (c & _ & H). apply debug_char_one_line in H. assumption.
Qed.

(** ** The derived implementations *)

Definition opens_with (P : char -> Prop) (s : str) : Prop := exists c r, s = c :: r /\ P c.

Lemma debug_list_code {A} (f : A -> str) : code f -> (forall a, opens_with (fun c => c <> 93%N) (f a)) -> code (fun l => debug_list (map f l)).
Proof.
  intros Hf Hh. assert (H : forall l l' x y, debug_sep (lit ", ") (map f l) ++ 93%N :: x = debug_sep (lit ", ") (map f l') ++ 93%N :: y -> l = l' /\ x = y).
  { assert (Hn : forall a l x y, 93%N :: x = debug_sep (lit ", ") (map f (a :: l)) ++ 93%N :: y -> False).
    { intros a l x y E. destruct (Hh a) as (c & r & Ea & Hc). cbn [map] in E. destruct (map f l) as [|s l'']; cbn [debug_sep] in E; rewrite Ea in E; cbn in E;
        injection E as E _; congruence. }
    induction l as [|a l IH]; intros [|b l'] x y E.
    - cbn in E. injection E as ->. auto.
    - cbn [map debug_sep app] in E. exfalso. eapply Hn. exact E.
    - symmetry in E. exfalso. eapply Hn. exact E.
    - destruct l as [|a2 l], l' as [|b2 l'].
      + cbn in E. apply Hf in E. destruct E as [-> E]. injection E as ->. auto.
      + cbn [map debug_sep] in E. rewrite <- app_assoc in E. apply Hf in E. destruct E as [_ E]. discriminate.
      + cbn [map debug_sep] in E. rewrite <- app_assoc in E. apply Hf in E. destruct E as [_ E]. discriminate.
      + change (debug_sep (lit ", ") (map f (a :: a2 :: l))) with (f a ++ lit ", " ++ debug_sep (lit ", ") (map f (a2 :: l))) in E.
        change (debug_sep (lit ", ") (map f (b :: b2 :: l'))) with (f b ++ lit ", " ++ debug_sep (lit ", ") (map f (b2 :: l'))) in E.
        rewrite <- !app_assoc in E. apply Hf in E. destruct E as [-> E]. apply app_inv_head in E. apply IH in E. destruct E as [-> ->]. auto. }
  intros l l' x y E. unfold debug_list in E. rewrite <- !app_assoc in E. apply app_inv_head in E. apply H in E. assumption.
Qed.

Lemma nl_S n : nl (S n) = nl n ++ lit "    ".
Proof. reflexivity. Qed.
Lemma nl_head n : exists s, nl n = 10%N :: s.
Proof. induction n as [|n [s IH]]; [cbn; eauto|]. rewrite nl_S, IH. cbn. eauto. Qed.
Lemma pretty_list_code {A} n (f : A -> str) : code f -> code (fun l => pretty_list n (map f l)).
Proof.
  intros Hf.
  assert (H : forall l l' x y, flat_map (fun s => nl (S n) ++ s ++ lit ",") (map f l) ++ nl n ++ lit "]" ++ x =
                              flat_map (fun s => nl (S n) ++ s ++ lit ",") (map f l') ++ nl n ++ lit "]" ++ y -> l = l' /\ x = y).
  { induction l as [|a l IH]; intros [|b l'] x y E; cbn [map flat_map] in E; rewrite ?app_nil_l in E.
    - apply app_inv_head in E. apply app_inv_head in E. auto.
    - rewrite nl_S in E. rewrite <- !app_assoc in E. apply app_inv_head in E. discriminate.
    - rewrite nl_S in E. rewrite <- !app_assoc in E. apply app_inv_head in E. discriminate.
    - rewrite <- !app_assoc in E. apply app_inv_head in E. apply Hf in E. destruct E as [-> E]. apply app_inv_head in E. apply IH in E. destruct E as [-> ->]. auto. }
  assert (Hx : forall l x, pretty_list n (map f l) ++ x = lit "[" ++ match l with [] => lit "]" ++ x | _ => flat_map (fun s => nl (S n) ++ s ++ lit ",") (map f l) ++ nl n ++ lit "]" ++ x end).
  { intros l x. unfold pretty_list. destruct l as [|a l]; [reflexivity|]. cbn [map]. rewrite <- !app_assoc. reflexivity. }
  intros l l' x y E. rewrite !Hx in E. apply app_inv_head in E. destruct l as [|a l], l' as [|b l'].
  - apply app_inv_head in E. auto.
  - cbn [map flat_map] in E. destruct (nl_head (S n)) as [s Es]. rewrite Es in E. discriminate.
  - cbn [map flat_map] in E. destruct (nl_head (S n)) as [s Es]. rewrite Es in E. discriminate.
  - apply H in E. assumption.
Qed.

Lemma debug_term_code : code (debug_term plain).
Proof.
  intros [s|s] [t|t] x y E; cbn [debug_term] in E; try discriminate; rewrite <- !app_assoc in E; apply app_inv_head in E; apply debug_str_code in E;
    destruct E as [-> E]; apply app_inv_head in E; auto.
Qed.
Lemma debug_expression_code : code (debug_expression plain).
Proof.
  apply (code_wrap (lit "Expression { terms: ") (lit " }")). apply debug_list_code; [apply debug_term_code|].
  intros [s|s]; eexists _, _; (split; [reflexivity|discriminate]).
Qed.
Lemma debug_production_code : code (debug_production plain).
Proof.
  apply (code_seq (debug_term plain) (fun l => debug_list (map (debug_expression plain) l)) p_lhs p_rhs).
  - intros [a b] [c d]. cbn. congruence.
  - apply debug_term_code.
  - apply debug_list_code; [apply debug_expression_code|]. intro e. eexists _, _. split; [reflexivity|discriminate].
Qed.
Lemma debug_grammar_code : code (debug_grammar plain).
Proof.
  apply (code_wrap (lit "Grammar { productions: ") (lit " }")). apply debug_list_code; [apply debug_production_code|].
  intro p. eexists _, _. split; [reflexivity|discriminate].
Qed.
Lemma debug_error_code : code (debug_error plain).
Proof.
  intros [s|s|s] [t|t|t] x y E; cbn [debug_error] in E; try discriminate; rewrite <- !app_assoc in E; apply app_inv_head in E; apply debug_str_code in E;
    destruct E as [-> E]; apply app_inv_head in E; auto.
Qed.

Lemma pretty_term_code n : code (pretty_term plain n).
Proof.
  intros [s|s] [t|t] x y E; cbn [pretty_term] in E; try discriminate; rewrite <- !app_assoc in E; do 2 apply app_inv_head in E; apply debug_str_code in E;
    destruct E as [-> E]; do 3 apply app_inv_head in E; auto.
Qed.
Lemma pretty_expression_code n : code (pretty_expression plain n).
Proof.
  eapply code_ext; [|apply (code_wrap (lit "Expression {" ++ nl (S n) ++ lit "terms: ") (lit "," ++ nl n ++ lit "}")), (pretty_list_code (S n)), (pretty_term_code (S (S n)))].
  intro e. cbn beta. unfold pretty_expression. rewrite <- !app_assoc. reflexivity.
Qed.
Lemma pretty_production_code n : code (pretty_production plain n).
Proof.
  eapply code_ext; [|apply (code_seq (pretty_term plain (S n)) (fun l => pretty_list (S n) (map (pretty_expression plain (S (S n))) l)) p_lhs p_rhs
    (lit "Production {" ++ nl (S n) ++ lit "lhs: ") (lit "," ++ nl (S n) ++ lit "rhs: ") (lit "," ++ nl n ++ lit "}"))].
  - intro p. cbn beta. unfold pretty_production. rewrite <- !app_assoc. reflexivity.
  - intros [a b] [c d]. cbn. congruence.
  - apply pretty_term_code.
  - apply pretty_list_code, pretty_expression_code.
Qed.
Lemma pretty_grammar_code n : code (pretty_grammar plain n).
Proof.
  eapply code_ext; [|apply (code_wrap (lit "Grammar {" ++ nl (S n) ++ lit "productions: ") (lit "," ++ nl n ++ lit "}")), (pretty_list_code (S n)), (pretty_production_code (S (S n)))].
  intro e. cbn beta. unfold pretty_grammar. rewrite <- !app_assoc. reflexivity.
Qed.

(** One line. *)
Lemma one_line_app a b : ~ In 10%N (a ++ b) <-> ~ In 10%N a /\ ~ In 10%N b.
Proof. rewrite in_app_iff. tauto. Qed.
Lemma debug_list_one_line {A} (f : A -> str) l : (forall a, ~ In 10%N (f a)) -> ~ In 10%N (debug_list (map f l)).
Proof.
  intro H. unfold debug_list. rewrite !one_line_app. split; [cbn; intuition discriminate|]. split; [|cbn; intuition discriminate].
  induction l as [|a l IH]; [cbn; tauto|]. cbn [map]. destruct (map f l) as [|s l'] eqn:E; [cbn [debug_sep]; apply H|].
  change (debug_sep (lit ", ") (f a :: s :: l')) with (f a ++ lit ", " ++ debug_sep (lit ", ") (s :: l')). rewrite !one_line_app.
  split; [apply H|]. split; [cbn; intuition discriminate|exact IH].
Qed.
Lemma debug_term_one_line t : ~ In 10%N (debug_term plain t).
Proof. destruct t; cbn [debug_term]; rewrite !one_line_app; (split; [cbn; intuition discriminate|split; [apply debug_str_one_line|cbn; intuition discriminate]]). Qed.
Lemma debug_expression_one_line e : ~ In 10%N (debug_expression plain e).
Proof.
  unfold debug_expression. rewrite !one_line_app. split; [cbn; intuition discriminate|]. split; [apply debug_list_one_line, debug_term_one_line|cbn; intuition discriminate].
Qed.
Lemma debug_production_one_line p : ~ In 10%N (debug_production plain p).
Proof.
  unfold debug_production. rewrite !one_line_app. split; [cbn; intuition discriminate|]. split; [apply debug_term_one_line|].
  split; [cbn; intuition discriminate|]. split; [apply debug_list_one_line, debug_expression_one_line|cbn; intuition discriminate].
Qed.
Lemma debug_grammar_one_line g : ~ In 10%N (debug_grammar plain g).
Proof.
  unfold debug_grammar. rewrite !one_line_app. split; [cbn; intuition discriminate|]. split; [apply debug_list_one_line, debug_production_one_line|cbn; intuition discriminate].
Qed.
End Str.

(** ** Ranges *)

Lemma str_get_to_app (a b : str) : str_get_to (byte_len a) (a ++ b) = Some a.
Proof.
  induction a as [|c a IH]; [destruct b; reflexivity|]. change (byte_len (c :: a)) with (utf8_len c + byte_len a). pose proof (utf8_len_pos c).
  change ((c :: a) ++ b) with (c :: (a ++ b)).
  assert (Hs : forall n r, 0 < n -> str_get_to n (c :: r) = if Nat.leb (utf8_len c) n then option_map (cons c) (str_get_to (n - utf8_len c) r) else None).
  { intros [|n] r Hn; [lia|reflexivity]. }
  rewrite Hs by lia. destruct (Nat.leb_spec (utf8_len c) (utf8_len c + byte_len a)); [|lia].
  replace (utf8_len c + byte_len a - utf8_len c) with (byte_len a) by lia. rewrite IH. reflexivity.
Qed.
Lemma debug_range_parts a b c : debug_range (mkR (a ++ b ++ c) (byte_len a) (byte_len b)) =
  lit "InputRange(" ++ [34%N] ++ a ++ lit "|" ++ b ++ lit "|" ++ c ++ [34%N] ++ lit ")".
Proof.
  unfold debug_range. cbn [r_start r_len r_input]. rewrite str_get_to_app, str_get_from_app. cbv beta iota. rewrite str_get_to_app.
  rewrite <- byte_len_app, (app_assoc a b c), str_get_from_app. reflexivity.
Qed.
