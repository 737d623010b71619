(** Rust's string literals (The Rust Reference, Tokens), and the last steps to C73. *)
From Verif Require Import DebugProofs Facts_Errors EarleyMain TextExamples ParseExamples.
From Coq Require Import Hexadecimal HexadecimalN.
From Coq Require String.
Import String.StringSyntax.

(** ** Literals *)

(** The value of a hexadecimal digit, and of a sequence of them. *)
Definition hex_digit (c v : N) : Prop :=
  (48 <= c <= 57 /\ v = c - 48 \/ 97 <= c <= 102 /\ v = c - 97 + 10 \/ 65 <= c <= 70 /\ v = c - 65 + 10)%N.
Inductive hex_value : str -> N -> Prop :=
| hex_nil : hex_value [] 0
| hex_snoc s v c d : hex_value s v -> hex_digit c d -> hex_value (s ++ [c]) (16 * v + d).

(** A character as it may be written between double quotes.  The escapes for one byte and for
    ends of lines are left out. *)
Inductive literal_char : str -> char -> Prop :=
| lc_self c : c <> 34%N -> c <> 92%N -> c <> 13%N -> literal_char [c] c
| lc_nul : literal_char (lit "\0") 0%N
| lc_tab : literal_char (lit "\t") 9%N
| lc_lf : literal_char (lit "\n") 10%N
| lc_cr : literal_char (lit "\r") 13%N
| lc_quote : literal_char [92; 34]%N 34%N
| lc_single : literal_char (lit "\'") 39%N
| lc_backslash : literal_char (lit "\\") 92%N
| lc_code h c : 1 <= List.length h <= 6 -> hex_value h c -> literal_char (lit "\u{" ++ h ++ lit "}") c.
Inductive literal_chars : str -> str -> Prop :=
| lcs_nil : literal_chars [] []
| lcs_cons a c t s : literal_char a c -> literal_chars t s -> literal_chars (a ++ t) (c :: s).
(** The text [t] is a string literal for [s]. *)
Definition literal (t s : str) : Prop := exists u, t = [34%N] ++ u ++ [34%N] /\ literal_chars u s.

(** Code points. *)
Definition code_point (c : char) : Prop := (c <= 1114111)%N.

(** ** Proofs *)

Fixpoint uval (d : Hexadecimal.uint) (acc : N) : N :=
  match d with
  | Hexadecimal.Nil => acc
  | D0 d => uval d (16 * acc) | D1 d => uval d (16 * acc + 1) | D2 d => uval d (16 * acc + 2) | D3 d => uval d (16 * acc + 3)
  | D4 d => uval d (16 * acc + 4) | D5 d => uval d (16 * acc + 5) | D6 d => uval d (16 * acc + 6) | D7 d => uval d (16 * acc + 7)
  | D8 d => uval d (16 * acc + 8) | D9 d => uval d (16 * acc + 9) | Da d => uval d (16 * acc + 10) | Db d => uval d (16 * acc + 11)
  | Dc d => uval d (16 * acc + 12) | Dd d => uval d (16 * acc + 13) | De d => uval d (16 * acc + 14) | Df d => uval d (16 * acc + 15)
  end%N.
Lemma uval_acc d : forall p, N.pos (Pos.of_hex_uint_acc d p) = uval d (N.pos p).
Proof. induction d; intro p; cbn [Pos.of_hex_uint_acc uval]; [reflexivity|..]; rewrite IHd; f_equal; lia. Qed.
Lemma uval_of d : N.of_hex_uint d = uval d 0.
Proof.
  unfold N.of_hex_uint. induction d; cbn [Pos.of_hex_uint uval]; [reflexivity|exact IHd|..]; rewrite uval_acc; reflexivity.
Qed.
Lemma app_one (h t : str) (c : char) : h ++ c :: t = (h ++ [c]) ++ t.
Proof. rewrite <- app_assoc. reflexivity. Qed.
Lemma hex_str_value d : forall h v, hex_value h v -> hex_value (h ++ hex_str d) (uval d v).
Proof.
  induction d; intros h v H; cbn [hex_str uval]; [rewrite app_nil_r; exact H|..]; rewrite app_one; apply IHd;
    [rewrite <- (N.add_0_r (16 * v))|..]; apply hex_snoc; [exact H|unfold hex_digit; lia|exact H|unfold hex_digit; lia|..];
    solve [exact H|unfold hex_digit; lia].
Qed.
Lemma uval_ge d : forall acc, (acc * 16 ^ N.of_nat (List.length (hex_str d)) <= uval d acc)%N.
Proof.
  induction d; intro acc; cbn [hex_str uval List.length]; [rewrite N.pow_0_r; lia|..];
    (etransitivity; [|apply IHd]); rewrite Nat2N.inj_succ, N.pow_succ_r'; nia.
Qed.
Lemma hex_length c : code_point c -> 1 <= List.length (hex_str (N.to_hex_uint c)) <= 6.
Proof.
  intro Hc. unfold code_point in Hc. pose proof (HexadecimalN.Unsigned.of_to c) as E. rewrite uval_of in E.
  pose proof (HexadecimalN.Unsigned.to_of (N.to_hex_uint c)) as U. rewrite (HexadecimalN.Unsigned.of_to c) in U.
  set (d := N.to_hex_uint c) in *. clearbody d. subst c.
  assert (Hb : forall d' k, (1 <= k)%N -> uval d' k = uval d 0 -> List.length (hex_str d') <= 5).
  { intros d' k Hk E. pose proof (uval_ge d' k) as G. rewrite E in G. destruct (Nat.le_gt_cases (List.length (hex_str d')) 5) as [|L]; [assumption|exfalso].
    assert (16 ^ 6 <= 16 ^ N.of_nat (List.length (hex_str d')))%N by (apply N.pow_le_mono_r; lia). cbn in H. nia. }
  destruct d; cbn [hex_str List.length].
  - unfold unorm in U. cbn in U. discriminate.
  - unfold unorm in U. cbn in U. destruct (nzhead d) eqn:Ez; try discriminate.
    + injection U as ->. cbn. lia.
    + exfalso. clear - Ez. induction d; cbn in Ez; try discriminate. auto.
  - specialize (Hb d 1%N ltac:(lia) eq_refl). lia.
  - specialize (Hb d 2%N ltac:(lia) eq_refl). lia.
  - specialize (Hb d 3%N ltac:(lia) eq_refl). lia.
  - specialize (Hb d 4%N ltac:(lia) eq_refl). lia.
  - specialize (Hb d 5%N ltac:(lia) eq_refl). lia.
  - specialize (Hb d 6%N ltac:(lia) eq_refl). lia.
  - specialize (Hb d 7%N ltac:(lia) eq_refl). lia.
  - specialize (Hb d 8%N ltac:(lia) eq_refl). lia.
  - specialize (Hb d 9%N ltac:(lia) eq_refl). lia.
  - specialize (Hb d 10%N ltac:(lia) eq_refl). lia.
  - specialize (Hb d 11%N ltac:(lia) eq_refl). lia.
  - specialize (Hb d 12%N ltac:(lia) eq_refl). lia.
  - specialize (Hb d 13%N ltac:(lia) eq_refl). lia.
  - specialize (Hb d 14%N ltac:(lia) eq_refl). lia.
  - specialize (Hb d 15%N ltac:(lia) eq_refl). lia.
Qed.
Lemma debug_char_literal plain c : code_point c -> literal_char (debug_char plain c) c.
Proof.
  intro Hc. unfold debug_char.
  destruct (N.eqb_spec c 0); [subst; constructor|]. destruct (N.eqb_spec c 9); [subst; constructor|]. destruct (N.eqb_spec c 13); [subst; constructor|].
  destruct (N.eqb_spec c 10); [subst; constructor|]. destruct (N.eqb_spec c 34); [subst; apply lc_quote|]. destruct (N.eqb_spec c 92); [subst; apply lc_backslash|].
  destruct (plain c); [apply lc_self; assumption|]. apply lc_code; [apply hex_length; assumption|].
  pose proof (hex_str_value (N.to_hex_uint c) [] 0%N hex_nil) as H. rewrite <- uval_of, HexadecimalN.Unsigned.of_to in H. exact H.
Qed.
Lemma debug_str_literal plain s : Forall code_point s -> literal (debug_str plain s) s.
Proof.
  intro H. exists (flat_map (debug_char plain) s). split; [reflexivity|]. induction H; cbn [flat_map]; [constructor|].
  apply lcs_cons; [apply debug_char_literal; assumption|assumption].
Qed.

Lemma C73_strings_proof : forall plain s, Forall code_point s ->
  literal (debug_str plain s) s /\ ~ In 10%N (debug_str plain s) /\
  ((forall c, In c s -> plain c = true /\ ~ In c [0; 9; 10; 13; 34; 92]%N) -> debug_str plain s = [34%N] ++ s ++ [34%N]).
Proof.
  intros plain s H. split; [apply debug_str_literal; assumption|]. split; [apply debug_str_one_line|].
  intro Hp. unfold debug_str. f_equal. f_equal. clear H. induction s as [|c s IH]; [reflexivity|]. cbn [flat_map].
  rewrite IH by (intros d Hd; apply Hp; right; assumption). destruct (Hp c) as [Hc Hn]; [left; reflexivity|].
  replace (debug_char plain c) with [c]; [reflexivity|]. unfold debug_char. cbn in Hn.
  destruct (N.eqb_spec c 0); [subst; tauto|]. destruct (N.eqb_spec c 9); [subst; tauto|]. destruct (N.eqb_spec c 13); [subst; tauto|].
  destruct (N.eqb_spec c 10); [subst; tauto|]. destruct (N.eqb_spec c 34); [subst; tauto|]. destruct (N.eqb_spec c 92); [subst; tauto|]. rewrite Hc. reflexivity.
Qed.
Lemma C73_shows_proof : forall plain n,
  code (debug_str plain) /\ code (debug_term plain) /\ code (debug_expression plain) /\ code (debug_production plain) /\ code (debug_grammar plain) /\
  code (Debug.debug_error plain) /\
  code (pretty_term plain n) /\ code (pretty_expression plain n) /\ code (pretty_production plain n) /\ code (pretty_grammar plain n).
Proof.
  intros plain n.
  exact (conj (debug_str_code plain) (conj (debug_term_code plain) (conj (debug_expression_code plain) (conj (debug_production_code plain)
    (conj (debug_grammar_code plain) (conj (debug_error_code plain) (conj (pretty_term_code plain n) (conj (pretty_expression_code plain n)
    (conj (pretty_production_code plain n) (pretty_grammar_code plain n)))))))))).
Qed.

Lemma spelled_inj k k' : spelled k = spelled k' -> k = k'.
Proof. destruct k, k'; cbn; intro E; try discriminate; reflexivity. Qed.
Lemma C73_message_proof : forall plain r k r' k', message (debug_str plain) r k = message (debug_str plain) r' k' -> r = r' /\ k = k'.
Proof.
  intros plain r k r' k' E. unfold message in E. apply app_inv_head in E. apply debug_str_code in E. destruct E as [-> E]. apply app_inv_head in E.
  apply app_inv_tail in E. apply spelled_inj in E. auto.
Qed.
Lemma C73_ranges_proof : forall g start input it ts it1 t,
  opens g start input it -> produces it ts it1 -> In t (tt_arena (s_tree (it_state it1))) ->
  exists before matched after, input = before ++ matched ++ after /\ range_next (t_range t) = after /\
    debug_range (t_range t) = lit "InputRange(" ++ [34%N] ++ before ++ lit "|" ++ matched ++ lit "|" ++ after ++ [34%N] ++ lit ")".
Proof.
  intros g start input it ts it1 t Ho Hp Hi. destruct (boundaries _ _ _ _ _ _ _ Ho Hp Hi) as (a & b & c & E & Ei & Es & El & En).
  exists a, b, c. split; [exact E|]. split; [exact En|]. destruct (t_range t) as [i s l]. cbn [r_input r_start r_len] in *. subst. apply debug_range_parts.
Qed.

(** ** Any range *)

(** [x] stands between the bytes [i] and [j] of [s]; the text shown for them is empty if there is no such [x]. *)
Definition between (s : str) (i j : nat) (x : str) : Prop :=
  exists a b, s = a ++ x ++ b /\ byte_len a = i /\ byte_len (a ++ x) = j.
Definition shown (s : str) (i j : nat) (x : str) : Prop :=
  between s i j x \/ x = [] /\ forall y, ~ between s i j y.

Lemma str_get_to_inv idx s r : str_get_to idx s = Some r -> exists b, s = r ++ b /\ byte_len r = idx.
Proof.
  revert idx r; induction s as [|c s IH]; intros idx r H.
  - destruct idx; cbn in H; [|discriminate]. injection H as <-. exists []; auto.
  - destruct idx as [|idx]; [cbn in H; injection H as <-; exists (c :: s); auto|].
    cbn [str_get_to] in H. destruct (Nat.leb_spec (utf8_len c) (S idx)) as [Hle|]; [|discriminate].
    destruct (str_get_to (S idx - utf8_len c) s) as [x|] eqn:E; [|discriminate]. cbn in H. injection H as <-.
    apply IH in E. destruct E as (b & -> & Hl). exists b. split; [reflexivity|]. cbn [byte_len]. change (byte_len (c :: x)) with (utf8_len c + byte_len x). lia.
Qed.

Lemma C73_any_range_proof : forall input start len, exists before matched after,
  shown input 0 start before /\ shown input start (start + len) matched /\
  shown input (start + len) (byte_len input) after /\
  debug_range (mkR input start len) = lit "InputRange(" ++ [34%N] ++ before ++ lit "|" ++ matched ++ lit "|" ++ after ++ [34%N] ++ lit ")".
Proof.
  intros input start len. unfold debug_range. cbn [r_start r_len r_input]. eexists _, _, _. repeat split.
  - destruct (str_get_to start input) as [x|] eqn:E; cbn [or_empty].
    + left. apply str_get_to_inv in E. destruct E as (b & -> & Hl). exists [], b. auto.
    + right. split; [reflexivity|]. intros y (a & b & -> & Ha & Hy). apply byte_len_0 in Ha. subst a.
      change (str_get_to start (y ++ b) = None) in E. change (byte_len y = start) in Hy. rewrite <- Hy, str_get_to_app in E. discriminate.
  - destruct (str_get_from start input) as [s|] eqn:E; [destruct (str_get_to len s) as [x|] eqn:E2|]; cbn [or_empty].
    + left. apply str_get_from_inv in E. destruct E as (a & -> & Ha). apply str_get_to_inv in E2. destruct E2 as (b & -> & Hl).
      exists a, b. rewrite byte_len_app. subst. auto.
    + right. split; [reflexivity|]. intros y (a & b & -> & Ha & Hy). subst start. rewrite str_get_from_app in E. injection E as <-.
      rewrite byte_len_app in Hy. assert (len = byte_len y) as -> by lia. rewrite str_get_to_app in E2. discriminate.
    + right. split; [reflexivity|]. intros y (a & b & -> & Ha & Hy). subst start. rewrite str_get_from_app in E. discriminate.
  - destruct (str_get_from (start + len) input) as [s|] eqn:E; cbn [or_empty].
    + left. apply str_get_from_inv in E. destruct E as (a & -> & Ha). exists a, []. rewrite app_nil_r. auto.
    + right. split; [reflexivity|]. intros y (a & b & -> & Ha & Hy). rewrite <- Ha, str_get_from_app in E. discriminate.
Qed.
