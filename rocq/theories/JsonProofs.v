(** Proofs about Json.v: the reader against [json_text], the writers, and the derived code against
    [grammar_value]. *)
From Verif Require Export JsonSpec.
From Coq Require String.
Import String.StringSyntax.

(** ** Space *)

Lemma json_space_In c : json_space c = true <-> In c [32; 9; 10; 13]%N.
Proof.
  unfold json_space. rewrite !orb_true_iff, !N.eqb_eq. cbn. split.
  - intros [[[->| ->]| ->]| ->]; auto 10.
  - intros [<-|[<-|[<-|[<-|[]]]]]; auto.
Qed.
Lemma space_nil : space [].
Proof. intros c []. Qed.
Lemma space_app a b : space a -> space b -> space (a ++ b).
Proof. intros Ha Hb c H. apply in_app_or in H. destruct H; auto. Qed.
Definition no_space (s : str) : Prop := match s with [] => True | c :: _ => json_space c = false end.
Lemma skip_space_app w s : space w -> no_space s -> skip_space (w ++ s) = s.
Proof.
  induction w as [|c w IH]; intros Hw Hs.
  - destruct s as [|c s]; cbn in *; [reflexivity|]. rewrite Hs. reflexivity.
  - cbn. rewrite (proj2 (json_space_In c)); [|apply Hw; left; reflexivity]. apply IH; [|assumption]. intros d Hd. apply Hw. right. assumption.
Qed.
Lemma skip_space_inv s : exists w, s = w ++ skip_space s /\ space w /\ no_space (skip_space s).
Proof.
  induction s as [|c s (w & E & Hw & Hn)]; [exists []; repeat split; intros c []|]. cbn [skip_space].
  destruct (json_space c) eqn:Ec.
  - exists (c :: w). split; [cbn; congruence|]. split; [|assumption]. intros d [<-|Hd]; [apply json_space_In; assumption|auto].
  - exists []. split; [reflexivity|]. split; [apply space_nil|assumption].
Qed.

(** ** Strings *)

Lemma hex_value_hex c n : hex_value c = Some n <-> hex c n.
Proof.
  unfold hex_value, hex.
  destruct (N.leb_spec 48 c), (N.leb_spec c 57), (N.leb_spec 65 c), (N.leb_spec c 70), (N.leb_spec 97 c), (N.leb_spec c 102); cbn;
    (split; [intro E; try discriminate; injection E as <-; lia|intros [[? ->]|[[? ->]|[? ->]]]; try reflexivity; exfalso; lia]).
Qed.
Lemma read_hex4_unit s u r : read_hex4 s = Some (u, r) <-> exists t, s = t ++ r /\ unit_text u (92%N :: 117%N :: t).
Proof.
  split.
  - destruct s as [|a [|b [|c [|d s]]]]; try discriminate. cbn.
    destruct (hex_value a) as [x|] eqn:Ea; [|discriminate]. destruct (hex_value b) as [y|] eqn:Eb; [|discriminate].
    destruct (hex_value c) as [z|] eqn:Ec; [|discriminate]. destruct (hex_value d) as [t|] eqn:Ed; [|discriminate].
    intro E; injection E as <- <-. exists [a; b; c; d]. split; [reflexivity|]. exists a, b, c, d, x, y, z, t.
    split; [reflexivity|]. repeat (split; [apply hex_value_hex; assumption|]). lia.
  - intros (t & -> & a & b & c & d & x & y & z & v & E & Ha & Hb & Hc & Hd & ->). cbn in E. injection E as ->. cbn.
    apply hex_value_hex in Ha, Hb, Hc, Hd. rewrite Ha, Hb, Hc, Hd. f_equal. f_equal. lia.
Qed.
Lemma high_spec u : high_surrogate u = true <-> high u.
Proof. unfold high_surrogate, high. rewrite andb_true_iff, N.leb_le, N.ltb_lt. tauto. Qed.
Lemma low_spec u : low_surrogate u = true <-> low u.
Proof. unfold low_surrogate, low. rewrite andb_true_iff, N.leb_le, N.ltb_lt. tauto. Qed.
Lemma high_no u : high_surrogate u = false <-> ~ high u.
Proof. rewrite <- high_spec. destruct (high_surrogate u); split; congruence. Qed.
Lemma low_no u : low_surrogate u = false <-> ~ low u.
Proof. rewrite <- low_spec. destruct (low_surrogate u); split; congruence. Qed.
Lemma simple_escape_In e c : simple_escape e = Some c <-> In (e, c) escapes.
Proof.
  unfold simple_escape, escapes. cbn [In].
  split.
  - repeat match goal with |- context [N.eqb e ?k] => destruct (N.eqb_spec e k) as [->|] end; intro E; try discriminate; injection E as <-; auto 20.
  - repeat (intros [H|H]; [injection H as <- <-; reflexivity|revert H]). intros [].
Qed.
Lemma escape_117 e c : In (e, c) escapes -> e <> 117%N.
Proof. intros H ->. apply simple_escape_In in H. discriminate. Qed.
Lemma unit_text_shape u t : unit_text u t -> exists h, t = 92%N :: 117%N :: h.
Proof. intros (a & b & c & d & x & y & z & v & -> & _). cbn. eauto. Qed.
Lemma unit_text_length u t : unit_text u t -> length t = 6.
Proof. intros (a & b & c & d & x & y & z & v & -> & _). reflexivity. Qed.
Lemma read_hex4_app u h r : unit_text u (92%N :: 117%N :: h) -> read_hex4 (h ++ r) = Some (u, r).
Proof. intro H. apply read_hex4_unit. eauto. Qed.

(** What a string begins with. *)
Lemma string_text_head o s : string_text o s ->
  s = [] \/ (exists c s', s = c :: s' /\ c <> 34%N /\ c <> 92%N) \/ (exists e s', s = 92%N :: e :: s' /\ e <> 117%N) \/
  exists u t s', s = t ++ s' /\ unit_text u t.
Proof.
  destruct 1; auto.
  - right; left. eauto.
  - right; right; left. eexists _, _. split; [reflexivity|]. eapply escape_117. eassumption.
  - right; right; right. eauto.
  - right; right; right. eexists _, _, _. split; [reflexivity|]. eassumption.
  - right; right; right. eauto.
Qed.

Lemma put_add c o r : put (Some c) (Some (o, r)) = Some (add c o, r).
Proof. destruct o; reflexivity. Qed.
Lemma put_some c o r : put c (Some (o, r)) = Some (match c with Some c => add c o | None => None end, r).
Proof. destruct c, o; reflexivity. Qed.

Lemma read_string_complete o s : string_text o s -> forall fuel r, length s < fuel -> read_string fuel (s ++ 34%N :: r) = Some (o, r).
Proof.
  induction 1 as [|c o s H1 H2 H3 H IH|e c o s He H IH|u t o s Hu Hh Hl H IH|u t u' t' o s Hu Hh Hu' Hl H IH|u t o s Hu Hs Hn H IH];
    intros fuel r Hf; (destruct fuel as [|fuel]; [cbn in Hf; lia|]); cbn [length] in Hf.
  - reflexivity.
  - cbn [app read_string]. rewrite (proj2 (N.eqb_neq _ _) H2), (proj2 (N.eqb_neq _ _) H3), (proj2 (N.ltb_ge _ _) H1), IH by lia. apply put_add.
  - cbn [app read_string]. change (N.eqb 92 34) with false. change (N.eqb 92 92) with true. cbn iota.
    rewrite (proj2 (N.eqb_neq _ _) (escape_117 _ _ He)), (proj2 (simple_escape_In _ _) He), IH by lia. apply put_add.
  - rewrite app_length in Hf. pose proof (unit_text_length _ _ Hu) as Hlen. destruct (unit_text_shape _ _ Hu) as [h ->].
    rewrite <- app_assoc. cbn [app read_string]. change (N.eqb 92 34) with false. change (N.eqb 92 92) with true. change (N.eqb 117 117) with true. cbn iota.
    rewrite (read_hex4_app u h _ Hu), (proj2 (high_no u) Hh), (proj2 (low_no u) Hl), IH by lia. apply put_add.
  - rewrite !app_length in Hf. pose proof (unit_text_length _ _ Hu) as Hlen. destruct (unit_text_shape _ _ Hu) as [h ->].
    destruct (unit_text_shape _ _ Hu') as [h' ->].
    rewrite <- !app_assoc. cbn [app read_string]. change (N.eqb 92 34) with false. change (N.eqb 92 92) with true. change (N.eqb 117 117) with true. cbn iota.
    rewrite (read_hex4_app u h _ Hu), (proj2 (high_spec u) Hh). cbn [andb].
    change (N.eqb 92 92) with true. change (N.eqb 117 117) with true. cbn [andb].
    rewrite (read_hex4_app u' h' _ Hu'), (proj2 (low_spec u') Hl), IH by lia. apply put_add.
  - rewrite !app_length in Hf. pose proof (unit_text_length _ _ Hu) as Hlen. destruct (unit_text_shape _ _ Hu) as [h ->].
    rewrite <- app_assoc. cbn [app read_string]. change (N.eqb 92 34) with false. change (N.eqb 92 92) with true. change (N.eqb 117 117) with true. cbn iota.
    rewrite (read_hex4_app u h _ Hu). specialize (IH fuel r ltac:(lia)).
    destruct (high_surrogate u) eqn:Eh.
    2:{ destruct Hs as [Hs|Hs]; [apply high_spec in Hs; congruence|]. rewrite (proj2 (low_spec u) Hs), IH. apply put_some. }
    apply high_spec in Eh. specialize (Hn Eh).
    assert (Hdone : put None (read_string fuel (s ++ 34%N :: r)) = Some (None, r)) by (rewrite IH; apply put_some).
    destruct (string_text_head _ _ H) as [->|[(c & s' & -> & Hc & Hc')|[(e & s' & -> & He)|(u' & t' & s' & -> & Hu')]]].
    + cbn [app] in *. destruct r; exact Hdone.
    + cbn [app] in *. destruct (s' ++ 34%N :: r) as [|e r']; [exact Hdone|]. rewrite (proj2 (N.eqb_neq _ _) Hc'). exact Hdone.
    + cbn [app] in *. rewrite (proj2 (N.eqb_neq _ _) He), andb_false_r. exact Hdone.
    + destruct (unit_text_shape _ _ Hu') as [h' ->]. rewrite <- app_assoc in *. cbn [app] in *.
      change (N.eqb 92 92) with true. change (N.eqb 117 117) with true. cbn [andb].
      rewrite (read_hex4_app u' h' _ Hu'), (proj2 (low_no u')); [exact Hdone|]. exact (Hn u' (92%N :: 117%N :: h') s' eq_refl Hu').
Qed.

Lemma put_inv c x o r : put c x = Some (o, r) -> exists o', x = Some (o', r) /\ o = match c with Some c => add c o' | None => None end.
Proof. destruct x as [[o' r']|]; cbn; [|discriminate]. intro E; injection E as <- <-. exists o'. split; [reflexivity|]. destruct c, o'; reflexivity. Qed.

Lemma read_string_sound fuel s o r : read_string fuel s = Some (o, r) -> exists t, s = t ++ 34%N :: r /\ string_text o t.
Proof.
  revert s o r. induction fuel as [|fuel IH]; intros s o r E; [discriminate|]. cbn [read_string] in E.
  destruct s as [|c s]; [discriminate|].
  destruct (N.eqb_spec c 34) as [->|H34]; [injection E as <- <-; exists []; split; [reflexivity|constructor]|].
  destruct (N.eqb_spec c 92) as [->|H92].
  2:{ destruct (N.ltb_spec c 32) as [|H32]; [discriminate|]. apply put_inv in E. destruct E as (o' & E & ->). apply IH in E.
      destruct E as (t & -> & Ht). exists (c :: t). split; [reflexivity|]. constructor; auto. }
  destruct s as [|e s]; [discriminate|]. destruct (N.eqb_spec e 117) as [->|H117].
  2:{ destruct (simple_escape e) as [c|] eqn:Ee; [|discriminate]. apply put_inv in E. destruct E as (o' & E & ->). apply IH in E.
      destruct E as (t & -> & Ht). exists (92%N :: e :: t). split; [reflexivity|]. constructor; [apply simple_escape_In|]; assumption. }
  destruct (read_hex4 s) as [[u s1]|] eqn:Eu; [|discriminate]. apply read_hex4_unit in Eu. destruct Eu as (h & -> & Hu).
  destruct (high_surrogate u) eqn:Eh.
  2:{ apply high_no in Eh. destruct (low_surrogate u) eqn:El; apply put_inv in E; destruct E as (o' & E & ->); apply IH in E; destruct E as (t & -> & Ht);
        exists ((92%N :: 117%N :: h) ++ t); (split; [cbn [app]; rewrite <- app_assoc; reflexivity|]).
      - apply low_spec in El. apply (string_lone u _ o'); auto; intro Hh; contradiction.
      - apply low_no in El. constructor; assumption. }
  apply high_spec in Eh.
  assert (Hlone : put None (read_string fuel s1) = Some (o, r) -> (forall u' t' s', s1 = t' ++ s' -> unit_text u' t' -> ~ low u') ->
            exists t, 92%N :: 117%N :: h ++ s1 = t ++ 34%N :: r /\ string_text o t).
  { intros E1 Hn. apply put_inv in E1. destruct E1 as (o' & E1 & ->). apply IH in E1. destruct E1 as (t & -> & Ht).
    exists ((92%N :: 117%N :: h) ++ t). split; [cbn [app]; rewrite <- app_assoc; reflexivity|]. apply (string_lone u _ o'); auto.
    intros _ u' t' s' -> Hu'. eapply Hn; [|exact Hu']. rewrite <- app_assoc. reflexivity. }
  destruct s1 as [|b [|e s2]].
  - apply Hlone; [exact E|]. intros u' t' s' E' Hu'. destruct (unit_text_shape _ _ Hu') as [h' ->]. discriminate.
  - apply Hlone; [exact E|]. intros u' t' s' E' Hu'. destruct (unit_text_shape _ _ Hu') as [h' ->]. discriminate.
  - destruct (N.eqb_spec b 92) as [->|Hb].
    2:{ apply Hlone; [exact E|]. intros u' t' s' E' Hu'. destruct (unit_text_shape _ _ Hu') as [h' ->]. injection E'. intros. contradiction. }
    destruct (N.eqb_spec e 117) as [->|He].
    2:{ apply Hlone; [exact E|]. intros u' t' s' E' Hu'. destruct (unit_text_shape _ _ Hu') as [h' ->]. injection E'. intros. contradiction. }
    cbn [andb] in E. destruct (read_hex4 s2) as [[w s3]|] eqn:Ew; [|discriminate].
    destruct (low_surrogate w) eqn:El.
    + apply read_hex4_unit in Ew. destruct Ew as (h' & -> & Hw). apply low_spec in El. apply put_inv in E. destruct E as (o' & E & ->). apply IH in E.
      destruct E as (t & -> & Ht). exists ((92%N :: 117%N :: h) ++ (92%N :: 117%N :: h') ++ t).
      split; [cbn [app]; rewrite <- !app_assoc; cbn [app]; rewrite <- app_assoc; reflexivity|]. constructor; assumption.
    + apply Hlone; [exact E|]. intros u' t' s' E' Hu'. destruct (unit_text_shape _ _ Hu') as [h' ->]. injection E' as ->.
      rewrite (read_hex4_app u' h' _ Hu') in Ew. injection Ew as <- <-. apply low_no. assumption.
Qed.

(** ** Numbers *)

Lemma json_digit_spec c : json_digit c = true <-> digit c.
Proof. unfold json_digit, digit. rewrite andb_true_iff, !N.leb_le. tauto. Qed.
Definition no_digit (s : str) : Prop := match s with [] => True | c :: _ => ~ digit c end.
Lemma read_digits_inv s : s = fst (read_digits s) ++ snd (read_digits s) /\ Forall digit (fst (read_digits s)).
Proof.
  induction s as [|c s [E H]]; [cbn; auto|]. cbn. destruct (json_digit c) eqn:Ec; [|cbn; auto].
  apply json_digit_spec in Ec. destruct (read_digits s) as [d r]. cbn in *. split; [congruence|constructor; assumption].
Qed.
Lemma read_digits_app d r : Forall digit d -> no_digit r -> read_digits (d ++ r) = (d, r).
Proof.
  induction 1 as [|c d Hc Hd IH]; intro Hr; cbn.
  - destruct r as [|c r]; [reflexivity|]. cbn in *. destruct (json_digit c) eqn:E; [|reflexivity]. apply json_digit_spec in E. contradiction.
  - rewrite (proj2 (json_digit_spec c) Hc), IH by assumption. reflexivity.
Qed.
Lemma read_digits1_app d r : digits d -> no_digit r -> read_digits1 (d ++ r) = Some (d, r).
Proof. intros [Hn Hd] Hr. unfold read_digits1. rewrite read_digits_app by assumption. destruct d; [contradiction|reflexivity]. Qed.
Lemma read_digits1_inv s d r : read_digits1 s = Some (d, r) -> s = d ++ r /\ digits d.
Proof.
  unfold read_digits1. pose proof (read_digits_inv s) as [E H]. destruct (read_digits s) as [[|c d'] r']; [discriminate|].
  cbn in *. intro E'; injection E' as <- <-. split; [assumption|]. split; [discriminate|assumption].
Qed.

(** What may follow a value. *)
Definition stop (s : str) : Prop := match s with [] => True | c :: _ => In c [32; 9; 10; 13; 44; 93; 125]%N end.
Lemma stop_no_digit s : stop s -> no_digit s.
Proof. destruct s as [|c s]; cbn; [auto|]. unfold digit. intros H. intuition lia. Qed.

Lemma digits_head d r : digits d -> exists c d', d ++ r = c :: d' /\ digit c.
Proof. intros [Hn Hd]. destruct d as [|c d]; [contradiction|]. inversion Hd; subst. cbn. eauto. Qed.

Lemma read_number_complete t r : number_text t -> stop r -> read_number (t ++ r) = Some (t, r).
Proof.
  intros (sg & i & f & e & -> & Hsg & Hi & Hf & He) Hr.
  assert (HE : read_exp (e ++ r) = Some (e, r) /\ no_digit (e ++ r) /\ match e ++ r with c :: _ => c <> 46%N | [] => True end).
  { destruct He as [->|(x & g & s & -> & Hx & Hg & Hs)].
    - cbn [app]. split; [|split; [apply stop_no_digit; assumption|destruct r as [|c r]; cbn in *; [auto|intuition lia]]].
      destruct r as [|c r]; [reflexivity|]. cbn. replace (N.eqb c 101 || N.eqb c 69)%bool with false; [reflexivity|].
      symmetry. apply orb_false_iff. rewrite !N.eqb_neq. cbn in Hr. intuition lia.
    - cbn [app]. assert (Hx' : (N.eqb x 101 || N.eqb x 69)%bool = true /\ ~ digit x /\ x <> 46%N).
      { cbn in Hx. unfold digit. destruct Hx as [<-|[<-|[]]]; cbn; split; auto; lia. }
      destruct Hx' as [Hx' [Hnd Hn46]]. split; [|split; assumption]. cbn [read_exp]. rewrite Hx'. rewrite <- app_assoc.
      destruct Hg as [<-|[<-|[<-|[]]]]; cbn [app lit].
      + destruct (digits_head s r Hs) as (c & d' & Ed & Hc). rewrite Ed.
        replace (N.eqb c 43 || N.eqb c 45)%bool with false.
        * rewrite <- Ed, read_digits1_app; [reflexivity|assumption|apply stop_no_digit; assumption].
        * symmetry. apply orb_false_iff. rewrite !N.eqb_neq. unfold digit in Hc. lia.
      + cbn. rewrite read_digits1_app; [reflexivity|assumption|apply stop_no_digit; assumption].
      + cbn. rewrite read_digits1_app; [reflexivity|assumption|apply stop_no_digit; assumption]. }
  destruct HE as (HE & HEd & HE46).
  assert (HF : read_frac (f ++ e ++ r) = Some (f, e ++ r) /\ no_digit (f ++ e ++ r)).
  { destruct Hf as [->|(s & -> & Hs)].
    - cbn [app]. split; [|assumption]. destruct (e ++ r) as [|c x]; [reflexivity|]. cbn. rewrite (proj2 (N.eqb_neq _ _) HE46). reflexivity.
    - cbn [app lit]. split; [|cbn; unfold digit; lia]. cbn. rewrite read_digits1_app by assumption. reflexivity. }
  destruct HF as [HF HFd].
  assert (HU : read_unsigned (i ++ f ++ e ++ r) = Some (i ++ f ++ e, r) /\ match i ++ f ++ e ++ r with c :: _ => c <> 45%N | [] => False end).
  { unfold read_unsigned. destruct Hi as [->|(c & s & -> & Hd & Hc)].
    - change (lit "0") with [48%N]. cbn [app]. split; [|lia]. cbn [read_int]. change (N.eqb 48 48) with true. cbn iota. rewrite HF, HE. reflexivity.
    - split; [|cbn; destruct Hd as [_ Hd]; inversion Hd; subst; unfold digit in *; lia]. cbn [app read_int]. rewrite (proj2 (N.eqb_neq _ _) Hc).
      change (c :: s ++ f ++ e ++ r) with ((c :: s) ++ f ++ e ++ r). rewrite read_digits1_app by assumption. rewrite HF, HE. reflexivity. }
  destruct HU as [HU H45]. rewrite <- !app_assoc. destruct Hsg as [->| ->].
  - cbn [app]. unfold read_number. destruct (i ++ f ++ e ++ r) as [|c x]; [contradiction|]. rewrite (proj2 (N.eqb_neq _ _) H45). assumption.
  - change (lit "-") with [45%N]. cbn [app read_number]. change (N.eqb 45 45) with true. cbn iota. rewrite HU. reflexivity.
Qed.

Lemma read_unsigned_sound s t r : read_unsigned s = Some (t, r) -> s = t ++ r /\ exists i f e, t = i ++ f ++ e /\
  (i = lit "0" \/ exists c d, i = c :: d /\ digits i /\ c <> 48%N) /\
  (f = [] \/ exists s, f = lit "." ++ s /\ digits s) /\
  (e = [] \/ exists x g s, e = x :: g ++ s /\ In x (lit "eE") /\ In g [[]; lit "+"; lit "-"] /\ digits s).
Proof.
  unfold read_unsigned. destruct (read_int s) as [[i r1]|] eqn:Ei; [|discriminate]. destruct (read_frac r1) as [[f r2]|] eqn:Ef; [|discriminate].
  destruct (read_exp r2) as [[e r3]|] eqn:Ee; [|discriminate]. intro E; injection E as <- <-.
  assert (Hi : s = i ++ r1 /\ (i = lit "0" \/ exists c d, i = c :: d /\ digits i /\ c <> 48%N)).
  { destruct s as [|c s]; [discriminate|]. cbn [read_int] in Ei. destruct (N.eqb_spec c 48) as [->|Hc].
    - injection Ei as <- <-. split; [reflexivity|]. left. reflexivity.
    - apply read_digits1_inv in Ei. destruct Ei as [E Hd]. split; [assumption|]. right. destruct i as [|c' i]; [destruct Hd; contradiction|].
      injection E as -> ->. eauto. }
  assert (Hf : r1 = f ++ r2 /\ (f = [] \/ exists s, f = lit "." ++ s /\ digits s)).
  { destruct r1 as [|c r1]; [injection Ef as <- <-; auto|]. cbn [read_frac] in Ef. destruct (N.eqb_spec c 46) as [->|Hc]; [|injection Ef as <- <-; auto].
    destruct (read_digits1 r1) as [[d r']|] eqn:Ed; [|discriminate]. injection Ef as <- <-. apply read_digits1_inv in Ed. destruct Ed as [-> Hd].
    split; [reflexivity|]. right. exists d. split; [reflexivity|assumption]. }
  assert (He : r2 = e ++ r3 /\ (e = [] \/ exists x g s, e = x :: g ++ s /\ In x (lit "eE") /\ In g [[]; lit "+"; lit "-"] /\ digits s)).
  { destruct r2 as [|c r2]; [injection Ee as <- <-; auto|]. cbn [read_exp] in Ee. destruct (N.eqb c 101 || N.eqb c 69)%bool eqn:Ec; [|injection Ee as <- <-; auto].
    assert (Hc : In c (lit "eE")). { apply orb_true_iff in Ec. rewrite !N.eqb_eq in Ec. destruct Ec as [->| ->]; cbn; auto. }
    destruct r2 as [|g r2]; [discriminate|]. destruct (N.eqb g 43 || N.eqb g 45)%bool eqn:Eg.
    - destruct (read_digits1 r2) as [[d r']|] eqn:Ed; [|discriminate]. injection Ee as <- <-. apply read_digits1_inv in Ed. destruct Ed as [-> Hd].
      split; [reflexivity|]. right. exists c, [g], d. repeat split; try apply Hd; [assumption|].
      apply orb_true_iff in Eg. rewrite !N.eqb_eq in Eg. destruct Eg as [->| ->]; cbn; auto.
    - destruct (read_digits1 (g :: r2)) as [[d r']|] eqn:Ed; [|discriminate]. injection Ee as <- <-. apply read_digits1_inv in Ed. destruct Ed as [-> Hd].
      split; [reflexivity|]. right. exists c, [], d. repeat split; try apply Hd; [assumption|]. cbn; auto. }
  destruct Hi as [-> Hi], Hf as [-> Hf], He as [-> He]. split; [rewrite <- !app_assoc; reflexivity|]. exists i, f, e. auto.
Qed.
Lemma read_number_sound s t r : read_number s = Some (t, r) -> s = t ++ r /\ number_text t.
Proof.
  intro E. destruct s as [|c s]; [discriminate|]. unfold read_number in E. destruct (N.eqb_spec c 45) as [->|Hc].
  - destruct (read_unsigned s) as [[u r']|] eqn:Eu; [|discriminate]. injection E as <- <-. apply read_unsigned_sound in Eu.
    destruct Eu as (-> & i & f & e & -> & H). split; [reflexivity|]. exists (lit "-"), i, f, e. split; [reflexivity|]. split; [right; reflexivity|exact H].
  - apply read_unsigned_sound in E. destruct E as (E & i & f & e & -> & H). split; [assumption|]. exists [], i, f, e. split; [reflexivity|]. split; [left; reflexivity|exact H].
Qed.

(** ** Values *)

Lemma number_head t : number_text t -> exists c s, t = c :: s /\ (c = 45%N \/ digit c).
Proof.
  intros (sg & i & f & e & -> & Hsg & Hi & _). destruct Hsg as [->| ->]; [|cbn; eauto]. cbn [app].
  destruct Hi as [->|(c & s & -> & [_ Hd] & _)]; cbn; [|inversion Hd; subst; eauto].
  eexists _, _. split; [reflexivity|]. right. unfold digit. lia.
Qed.
Lemma json_head v t : json_text v t -> exists c s, t = c :: s /\ json_space c = false /\ c <> 93%N /\ c <> 125%N.
Proof.
  assert (Hc : forall c s, ~ In c [32; 9; 10; 13; 93; 125]%N -> exists c' s', c :: s = c' :: s' /\ json_space c' = false /\ c' <> 93%N /\ c' <> 125%N).
  { intros c s H. exists c, s. split; [reflexivity|]. split; [|cbn in H; split; intros ->; tauto].
    destruct (json_space c) eqn:E; [|reflexivity]. apply json_space_In in E. cbn in *. tauto. }
  destruct 1; try (cbn [lit app]; apply Hc; cbn; lia).
  destruct (number_head _ H) as (c & s & -> & H1). apply Hc. unfold digit in H1. cbn. lia.
Qed.
Lemma read_lit_app t s : read_lit t (t ++ s) = Some s.
Proof. induction t as [|c t IH]; cbn; [reflexivity|]. rewrite N.eqb_refl. exact IH. Qed.
Lemma read_lit_inv t s r : read_lit t s = Some r -> s = t ++ r.
Proof.
  revert s; induction t as [|c t IH]; intros s H; cbn in *; [congruence|]. destruct s as [|d s]; [discriminate|].
  destruct (N.eqb_spec c d) as [->|]; [|discriminate]. rewrite (IH _ H). reflexivity.
Qed.
Lemma stop_app w c r : space w -> In c [44; 93; 125]%N -> stop (w ++ c :: r).
Proof.
  intros Hw Hc. destruct w as [|d w]; cbn [app stop]; [cbn in *; tauto|].
  specialize (Hw d (or_introl eq_refl)). cbn in *. tauto.
Qed.
Lemma no_space_c c r : In c [44; 93; 125; 58; 34]%N -> no_space (c :: r).
Proof. cbn. intros [<-|[<-|[<-|[<-|[<-|[]]]]]]; reflexivity. Qed.
Lemma json_no_space v t r : json_text v t -> no_space (t ++ r).
Proof. intro H. destruct (json_head _ _ H) as (c & s & -> & Hc & _). exact Hc. Qed.

Lemma items_head l s r : items_text l s -> exists c x, skip_space (s ++ r) = c :: x /\ c <> 93%N.
Proof.
  intro H. assert (H' : exists w v t y, s ++ r = w ++ t ++ y /\ space w /\ json_text v t).
  { destruct H; [exists w, v, s, (w' ++ r)|exists w, v, s, (w' ++ lit "," ++ s' ++ r)]; rewrite <- !app_assoc; auto. }
  destruct H' as (w & v & t & y & -> & Hw & Ht). rewrite skip_space_app; [|assumption|eapply json_no_space; eassumption].
  destruct (json_head _ _ Ht) as (c & x & -> & _ & H1 & _). cbn. eauto.
Qed.
Lemma member_head m s r : member_text m s -> exists w x, s ++ r = w ++ 34%N :: x /\ space w.
Proof.
  destruct 1. exists w1. rewrite <- app_assoc. cbn [app]. eauto.
Qed.
Lemma members_head l s r : members_text l s -> exists c x, skip_space (s ++ r) = c :: x /\ c <> 125%N.
Proof.
  intro H. assert (H' : exists w x, s ++ r = w ++ 34%N :: x /\ space w).
  { destruct H; [eapply member_head; eassumption|]. rewrite <- app_assoc. eapply member_head. eassumption. }
  destruct H' as (w & x & -> & Hw). rewrite skip_space_app; [|assumption|reflexivity]. eexists _, _. split; [reflexivity|lia].
Qed.

(** The value reader on the text of each kind of value, in the form that the completeness proof
    uses. *)
Lemma read_value_eq fuel s : read_value (S fuel) s =
      match skip_space s with
      | [] => Ok None
      | c :: r =>
          if N.eqb c 34 then Ok (match read_string (S (length r)) r with Some (o, r) => Some (JString o, r) | None => None end)
          else if N.eqb c 91 then
            match skip_space r with
            | d :: r' =>
                if N.eqb d 93 then Ok (Some (JArray [], r'))
                else let* x := read_items fuel r in Ok (match x with Some (l, r) => Some (JArray l, r) | None => None end)
            | [] => Ok None
            end
          else if N.eqb c 123 then
            match skip_space r with
            | d :: r' =>
                if N.eqb d 125 then Ok (Some (JObject [], r'))
                else let* x := read_members fuel r in Ok (match x with Some (l, r) => Some (JObject l, r) | None => None end)
            | [] => Ok None
            end
          else if N.eqb c 110 then Ok (match read_lit (lit "ull") r with Some r => Some (JNull, r) | None => None end)
          else if N.eqb c 116 then Ok (match read_lit (lit "rue") r with Some r => Some (JBool true, r) | None => None end)
          else if N.eqb c 102 then Ok (match read_lit (lit "alse") r with Some r => Some (JBool false, r) | None => None end)
          else Ok (match read_number (c :: r) with Some (t, r) => Some (JNumber t, r) | None => None end)
      end.
Proof. reflexivity. Qed.
Lemma read_items_eq fuel s : read_items (S fuel) s =
      let* x := read_value fuel s in
      match x with
      | None => Ok None
      | Some (v, r) =>
          match skip_space r with
          | c :: r =>
              if N.eqb c 93 then Ok (Some ([v], r))
              else if N.eqb c 44 then
                let* y := read_items fuel r in Ok (match y with Some (l, r) => Some (v :: l, r) | None => None end)
              else Ok None
          | [] => Ok None
          end
      end.
Proof. reflexivity. Qed.
(** What follows the value of a member. *)
Definition member_rest fuel (k : option str) (x : option (json * str)) : res (option (list (option str * json) * str)) :=
                      match x with
                      | None => Ok None
                      | Some (v, r) =>
                          match skip_space r with
                          | c :: r =>
                              if N.eqb c 125 then Ok (Some ([(k, v)], r))
                              else if N.eqb c 44 then
                                let* y := read_members fuel r in Ok (match y with Some (l, r) => Some ((k, v) :: l, r) | None => None end)
                              else Ok None
                          | [] => Ok None
                          end
                      end.
Lemma read_members_eq fuel s : read_members (S fuel) s =
      match skip_space s with
      | [] => Ok None
      | c :: r =>
          if N.eqb c 34 then
            match read_string (S (length r)) r with
            | None => Ok None
            | Some (k, r) =>
                match skip_space r with
                | [] => Ok None
                | c :: r => if N.eqb c 58 then let* x := read_value fuel r in member_rest fuel k x else Ok None
                end
            end
          else Ok None
      end.
Proof. reflexivity. Qed.

Definition reads_value v (t : str) := forall (w r : str) fuel, space w -> stop r -> 2 * length (w ++ t) + 1 <= fuel ->
  read_value fuel (w ++ t ++ r) = Ok (Some (v, r)).
Definition reads_items l (t : str) := forall (r : str) fuel, 2 * length t + 2 <= fuel -> read_items fuel (t ++ @cons char 93%N r) = Ok (Some (l, r)).
Definition reads_members l (t : str) := forall (r : str) fuel, 2 * length t + 2 <= fuel -> read_members fuel (t ++ @cons char 125%N r) = Ok (Some (l, r)).
Definition reads_member (m : option str * json) (t : str) := forall (r : str) fuel, 2 * length t + 2 <= S fuel -> stop r -> (r = [] \/ exists c x, r = c :: x /\ In c [44; 125]%N) ->
  exists w, read_members (S fuel) (t ++ r) = member_rest fuel (fst m) (Some (snd m, w ++ r)) /\ space w.

Lemma read_complete :
  (forall v t, json_text v t -> reads_value v t) /\ (forall l t, items_text l t -> reads_items l t) /\
  (forall l t, members_text l t -> reads_members l t) /\ (forall m t, member_text m t -> reads_member m t).
Proof.
  apply json_text_mutind.
  - intros w r fuel Hw Hr Hf. destruct fuel as [|fuel]; [lia|]. rewrite read_value_eq, skip_space_app by (assumption || reflexivity). reflexivity.
  - intros w r fuel Hw Hr Hf. destruct fuel as [|fuel]; [lia|]. rewrite read_value_eq, skip_space_app by (assumption || reflexivity). reflexivity.
  - intros w r fuel Hw Hr Hf. destruct fuel as [|fuel]; [lia|]. rewrite read_value_eq, skip_space_app by (assumption || reflexivity). reflexivity.
  - intros t Ht w r fuel Hw Hr Hf. destruct fuel as [|fuel]; [lia|]. rewrite read_value_eq, skip_space_app.
    2:{ assumption. } 2:{ apply (json_no_space (JNumber t)). constructor. assumption. }
    destruct (number_head t Ht) as (c & s & E & Hc). rewrite E. cbn [app].
    assert (Hn : c <> 34%N /\ c <> 91%N /\ c <> 123%N /\ c <> 110%N /\ c <> 116%N /\ c <> 102%N) by (unfold digit in Hc; lia).
    destruct Hn as (H1 & H2 & H3 & H4 & H5 & H6). rewrite (proj2 (N.eqb_neq _ _) H1), (proj2 (N.eqb_neq _ _) H2), (proj2 (N.eqb_neq _ _) H3),
      (proj2 (N.eqb_neq _ _) H4), (proj2 (N.eqb_neq _ _) H5), (proj2 (N.eqb_neq _ _) H6). change (c :: s ++ r) with ((c :: s) ++ r). rewrite <- E.
    rewrite read_number_complete by assumption. reflexivity.
  - intros o s Hs w r fuel Hw Hr Hf. destruct fuel as [|fuel]; [lia|]. rewrite read_value_eq, skip_space_app by (assumption || reflexivity).
    rewrite <- !app_assoc. cbn [app]. change (N.eqb 34 34) with true. cbn iota. rewrite (read_string_complete o s Hs) by (rewrite app_length; cbn; lia). reflexivity.
  - intros l s Hl IH w r fuel Hw Hr Hf. destruct fuel as [|fuel]; [lia|]. rewrite read_value_eq, skip_space_app by (assumption || reflexivity).
    change (lit "[") with [91%N] in *. change (lit "]") with [93%N] in *. rewrite <- !app_assoc. cbn [app]. change (N.eqb 91 34) with false. change (N.eqb 91 91) with true. cbn iota.
    destruct (items_head l s (@cons char 93%N r) Hl) as (c & x & E & Hc). rewrite E, (proj2 (N.eqb_neq _ _) Hc), IH; [reflexivity|].
    rewrite !app_length in Hf. cbn in Hf. lia.
  - intros s Hs w r fuel Hw Hr Hf. destruct fuel as [|fuel]; [lia|]. rewrite read_value_eq, skip_space_app by (assumption || reflexivity).
    change (lit "[") with [91%N] in *. change (lit "]") with [93%N] in *. rewrite <- !app_assoc. cbn [app]. change (N.eqb 91 34) with false. change (N.eqb 91 91) with true. cbn iota.
    rewrite skip_space_app by (assumption || reflexivity). reflexivity.
  - intros l s Hl IH w r fuel Hw Hr Hf. destruct fuel as [|fuel]; [lia|]. rewrite read_value_eq, skip_space_app by (assumption || reflexivity).
    change (lit "{") with [123%N] in *. change (lit "}") with [125%N] in *. rewrite <- !app_assoc. cbn [app].
    change (N.eqb 123 34) with false. change (N.eqb 123 91) with false. change (N.eqb 123 123) with true. cbn iota.
    destruct (members_head l s (@cons char 125%N r) Hl) as (c & x & E & Hc). rewrite E, (proj2 (N.eqb_neq _ _) Hc), IH; [reflexivity|].
    rewrite !app_length in Hf. cbn in Hf. lia.
  - intros s Hs w r fuel Hw Hr Hf. destruct fuel as [|fuel]; [lia|]. rewrite read_value_eq, skip_space_app by (assumption || reflexivity).
    change (lit "{") with [123%N] in *. change (lit "}") with [125%N] in *. rewrite <- !app_assoc. cbn [app].
    change (N.eqb 123 34) with false. change (N.eqb 123 91) with false. change (N.eqb 123 123) with true. cbn iota.
    rewrite skip_space_app by (assumption || reflexivity). reflexivity.
  - intros v s w w' Hw Hw' Hv IH r fuel Hf. destruct fuel as [|fuel]; [lia|]. rewrite read_items_eq. rewrite <- !app_assoc.
    rewrite !app_length in Hf.
    rewrite (IH w (w' ++ 93%N :: r)); [|assumption|apply stop_app; cbn; auto|rewrite app_length; lia].
    cbn [rbind]. rewrite skip_space_app by (assumption || reflexivity). reflexivity.
  - intros v s w w' l s' Hw Hw' Hv IH Hl IHl r fuel Hf. destruct fuel as [|fuel]; [lia|]. rewrite read_items_eq.
    change (lit ",") with [44%N] in *. rewrite <- !app_assoc. rewrite !app_length in Hf. cbn [length] in Hf. cbn [app].
    rewrite (IH w (w' ++ 44%N :: s' ++ 93%N :: r)); [|assumption|apply stop_app; cbn; auto|rewrite app_length; lia].
    cbn [rbind]. rewrite skip_space_app by (assumption || reflexivity). change (N.eqb 44 93) with false. change (N.eqb 44 44) with true. cbn iota.
    rewrite IHl by lia. reflexivity.
  - intros m s Hm IH r fuel Hf. destruct fuel as [|fuel]; [lia|]. destruct (IH (@cons char 125%N r) fuel Hf) as (w & E & Hw).
    { cbn; tauto. } { right. eexists _, _. split; [reflexivity|]. cbn; auto. }
    rewrite E. unfold member_rest. rewrite skip_space_app by (assumption || reflexivity). destruct m. reflexivity.
  - intros m s l s' Hm IH Hl IHl r fuel Hf. destruct fuel as [|fuel]; [lia|].
    change (lit ",") with [44%N] in *. rewrite <- !app_assoc. rewrite !app_length in Hf. cbn [length] in Hf. cbn [app].
    destruct (IH (@cons char 44%N (s' ++ @cons char 125%N r)) fuel) as (w & E & Hw).
    { lia. } { cbn; tauto. } { right. eexists _, _. split; [reflexivity|]. cbn; auto. }
    rewrite E. unfold member_rest. rewrite skip_space_app by (assumption || reflexivity). change (N.eqb 44 125) with false. change (N.eqb 44 44) with true. cbn iota.
    rewrite IHl by lia. destruct m. reflexivity.
  - intros k v s s' w1 w2 w3 w4 H1 H2 H3 H4 Hk Hv IH r fuel Hf Hr Hr'. exists w4. split; [|assumption].
    change (lit ":") with [58%N] in *. rewrite <- !app_assoc. cbn [app]. rewrite !app_length in Hf. cbn [length] in Hf.
    rewrite read_members_eq, skip_space_app by (assumption || reflexivity). change (N.eqb 34 34) with true. cbn iota.
    rewrite (read_string_complete k s Hk) by (rewrite app_length; cbn; lia).
    rewrite skip_space_app by (assumption || reflexivity). change (N.eqb 58 58) with true. cbn iota.
    rewrite (IH w3 (w4 ++ r)); [reflexivity|assumption| |rewrite app_length; lia].
    destruct Hr' as [->|(c & x & -> & Hc)]; [|apply stop_app; [assumption|cbn in *; tauto]].
    rewrite app_nil_r. destruct w4 as [|d w4]; [exact I|]. specialize (H4 d (or_introl eq_refl)). cbn in *. tauto.
Qed.

Lemma read_sound fuel :
  (forall s v r, read_value fuel s = Ok (Some (v, r)) -> exists w t, s = w ++ t ++ r /\ space w /\ json_text v t) /\
  (forall s l r, read_items fuel s = Ok (Some (l, r)) -> exists t, s = t ++ 93%N :: r /\ items_text l t) /\
  (forall s l r, read_members fuel s = Ok (Some (l, r)) -> exists t, s = t ++ 125%N :: r /\ members_text l t).
Proof.
  induction fuel as [|fuel (IHv & IHi & IHm)]; [repeat split; discriminate|]. split; [|split].
  - intros s v r E. rewrite read_value_eq in E. destruct (skip_space_inv s) as (w & Es & Hw & _).
    assert (G : forall t, skip_space s = t ++ r -> json_text v t -> exists w t, s = w ++ t ++ r /\ space w /\ json_text v t).
    { intros t Et Ht. exists w, t. split; [congruence|auto]. }
    destruct (skip_space s) as [|c s1]; [discriminate|].
    destruct (N.eqb_spec c 34) as [->|].
    { destruct (read_string _ s1) as [[o r']|] eqn:E1; [|discriminate]. injection E as <- <-. apply read_string_sound in E1. destruct E1 as (t & -> & Ht).
      apply (G ([34%N] ++ t ++ [34%N])); [cbn; rewrite <- app_assoc; reflexivity|]. constructor. assumption. }
    destruct (N.eqb_spec c 91) as [->|].
    { destruct (skip_space_inv s1) as (w1 & Es1 & Hw1 & _). destruct (skip_space s1) as [|d s2]; [discriminate|].
      destruct (N.eqb_spec d 93) as [->|].
      - injection E as <- <-. apply (G (lit "[" ++ w1 ++ lit "]")); [rewrite Es1; cbn; rewrite <- app_assoc; reflexivity|]. apply text_array_empty. assumption.
      - destruct (read_items fuel s1) as [[[l r']|]| |] eqn:E1; try discriminate. cbn in E. injection E as <- <-. apply IHi in E1. destruct E1 as (t & -> & Ht).
        apply (G (lit "[" ++ t ++ lit "]")); [cbn; rewrite <- app_assoc; reflexivity|]. constructor. assumption. }
    destruct (N.eqb_spec c 123) as [->|].
    { destruct (skip_space_inv s1) as (w1 & Es1 & Hw1 & _). destruct (skip_space s1) as [|d s2]; [discriminate|].
      destruct (N.eqb_spec d 125) as [->|].
      - injection E as <- <-. apply (G (lit "{" ++ w1 ++ lit "}")); [rewrite Es1; cbn; rewrite <- app_assoc; reflexivity|]. apply text_object_empty. assumption.
      - destruct (read_members fuel s1) as [[[l r']|]| |] eqn:E1; try discriminate. cbn in E. injection E as <- <-. apply IHm in E1. destruct E1 as (t & -> & Ht).
        apply (G (lit "{" ++ t ++ lit "}")); [cbn; rewrite <- app_assoc; reflexivity|]. constructor. assumption. }
    destruct (N.eqb_spec c 110) as [->|].
    { destruct (read_lit _ s1) as [r'|] eqn:E1; [|discriminate]. injection E as <- <-. apply read_lit_inv in E1. subst s1.
      apply (G (lit "null")); [reflexivity|constructor]. }
    destruct (N.eqb_spec c 116) as [->|].
    { destruct (read_lit _ s1) as [r'|] eqn:E1; [|discriminate]. injection E as <- <-. apply read_lit_inv in E1. subst s1.
      apply (G (lit "true")); [reflexivity|constructor]. }
    destruct (N.eqb_spec c 102) as [->|].
    { destruct (read_lit _ s1) as [r'|] eqn:E1; [|discriminate]. injection E as <- <-. apply read_lit_inv in E1. subst s1.
      apply (G (lit "false")); [reflexivity|constructor]. }
    destruct (read_number (c :: s1)) as [[t r']|] eqn:E1; [|discriminate]. injection E as <- <-. apply read_number_sound in E1. destruct E1 as [E1 Ht].
    apply (G t); [assumption|]. constructor. assumption.
  - intros s l r E. rewrite read_items_eq in E. destruct (read_value fuel s) as [[[v r1]|]| |] eqn:E1; try discriminate. cbn [rbind] in E.
    apply IHv in E1. destruct E1 as (w & t & -> & Hw & Ht). destruct (skip_space_inv r1) as (w1 & Er1 & Hw1 & _). destruct (skip_space r1) as [|c r2]; [discriminate|].
    destruct (N.eqb_spec c 93) as [->|].
    + injection E as <- <-. exists (w ++ t ++ w1). split; [rewrite Er1, <- !app_assoc; reflexivity|]. constructor; assumption.
    + destruct (N.eqb_spec c 44) as [->|]; [|discriminate]. destruct (read_items fuel r2) as [[[l' r3]|]| |] eqn:E2; try discriminate. cbn in E. injection E as <- <-.
      apply IHi in E2. destruct E2 as (t' & -> & Ht'). exists (w ++ t ++ w1 ++ lit "," ++ t'). split; [rewrite Er1, <- !app_assoc; reflexivity|]. constructor; assumption.
  - intros s l r E. rewrite read_members_eq in E. destruct (skip_space_inv s) as (w1 & Es & Hw1 & _). destruct (skip_space s) as [|c s1]; [discriminate|].
    destruct (N.eqb_spec c 34) as [->|]; [|discriminate]. destruct (read_string _ s1) as [[k s2]|] eqn:E1; [|discriminate]. apply read_string_sound in E1.
    destruct E1 as (tk & -> & Hk). destruct (skip_space_inv s2) as (w2 & Es2 & Hw2 & _). destruct (skip_space s2) as [|c s3]; [discriminate|].
    destruct (N.eqb_spec c 58) as [->|]; [|discriminate]. destruct (read_value fuel s3) as [[[v s4]|]| |] eqn:E2; try discriminate. cbn [rbind member_rest] in E.
    apply IHv in E2. destruct E2 as (w3 & t & -> & Hw3 & Ht). destruct (skip_space_inv s4) as (w4 & Es4 & Hw4 & _). destruct (skip_space s4) as [|c s5]; [discriminate|].
    assert (Hm : member_text (k, v) (w1 ++ [34%N] ++ tk ++ [34%N] ++ w2 ++ lit ":" ++ w3 ++ t ++ w4)) by (constructor; assumption).
    destruct (N.eqb_spec c 125) as [->|].
    + injection E as <- <-. eexists. split; [|apply members_one, Hm]. rewrite Es, Es2, Es4. rewrite <- !app_assoc. cbn. rewrite <- ?app_assoc. reflexivity.
    + destruct (N.eqb_spec c 44) as [->|]; [|discriminate]. destruct (read_members fuel s5) as [[[l' s6]|]| |] eqn:E3; try discriminate. cbn in E. injection E as <- <-.
      apply IHm in E3. destruct E3 as (t' & -> & Ht'). eexists. split; [|eapply members_more; [apply Hm|apply Ht']].
      rewrite Es, Es2, Es4. rewrite <- !app_assoc. cbn. rewrite <- ?app_assoc. reflexivity.
Qed.

Lemma skip_space_length s : length (skip_space s) <= length s.
Proof. induction s as [|c s IH]; cbn; [lia|]. destruct (json_space c); cbn; lia. Qed.

Lemma read_total fuel :
  (forall s, 2 * length s + 1 <= fuel -> exists o, read_value fuel s = Ok o) /\
  (forall s, 2 * length s + 2 <= fuel -> exists o, read_items fuel s = Ok o) /\
  (forall s, 2 * length s + 2 <= fuel -> exists o, read_members fuel s = Ok o).
Proof.
  induction fuel as [|fuel (IHv & IHi & IHm)]; [repeat split; intros; lia|].
  assert (Hshort : forall s v r, read_value fuel s = Ok (Some (v, r)) -> length (skip_space r) < length s).
  { intros s v r E. apply (proj1 (read_sound fuel)) in E. destruct E as (w & t & -> & _ & Ht). destruct (json_head _ _ Ht) as (c & x & -> & _).
    pose proof (skip_space_length r). rewrite !app_length. cbn. lia. }
  split; [|split].
  - intros s Hf. rewrite read_value_eq. pose proof (skip_space_length s) as Hl. destruct (skip_space s) as [|c r]; [eauto|]. cbn in Hl.
    destruct (N.eqb c 34); [eauto|]. destruct (N.eqb c 91).
    { destruct (skip_space r) as [|d r']; [eauto|]. destruct (N.eqb d 93); [eauto|]. destruct (IHi r) as [o ->]; [lia|]. cbn. eauto. }
    destruct (N.eqb c 123).
    { destruct (skip_space r) as [|d r']; [eauto|]. destruct (N.eqb d 125); [eauto|]. destruct (IHm r) as [o ->]; [lia|]. cbn. eauto. }
    destruct (N.eqb c 110); [eauto|]. destruct (N.eqb c 116); [eauto|]. destruct (N.eqb c 102); eauto.
  - intros s Hf. rewrite read_items_eq. destruct (IHv s) as [[[v r]|] E]; [lia| |rewrite E; cbn; eauto]. rewrite E. cbn [rbind]. apply Hshort in E.
    destruct (skip_space r) as [|c r']; [eauto|]. cbn in E. destruct (N.eqb c 93); [eauto|]. destruct (N.eqb c 44); [|eauto].
    destruct (IHi r') as [o ->]; [lia|]. cbn. eauto.
  - intros s Hf. rewrite read_members_eq. pose proof (skip_space_length s) as Hl. destruct (skip_space s) as [|c r]; [eauto|]. cbn in Hl.
    destruct (N.eqb c 34); [|eauto]. destruct (read_string _ r) as [[k r1]|] eqn:E1; [|eauto]. apply read_string_sound in E1. destruct E1 as (t & -> & _).
    rewrite app_length in Hl. cbn [length] in Hl. pose proof (skip_space_length r1) as Hl1. destruct (skip_space r1) as [|d r2]; [eauto|]. cbn [length] in Hl1. destruct (N.eqb d 58); [|eauto].
    destruct (IHv r2) as [[[v r3]|] E]; [unfold char in *; lia| |rewrite E; cbn; eauto]. rewrite E. cbn [rbind member_rest]. apply Hshort in E.
    destruct (skip_space r3) as [|e r4]; [eauto|]. cbn in E. destruct (N.eqb e 125); [eauto|]. destruct (N.eqb e 44); [|eauto].
    destruct (IHm r4) as [o ->]; [unfold char in *; lia|]. cbn. eauto.
Qed.

Lemma space_stop w : space w -> stop w.
Proof. intro H. destruct w as [|c w]; [exact I|]. specialize (H c (or_introl eq_refl)). cbn in *. tauto. Qed.
Lemma skip_space_nil w : skip_space w = [] <-> space w.
Proof.
  split.
  - intro E. destruct (skip_space_inv w) as (w' & E' & Hw' & _). rewrite E, app_nil_r in E'. subst. assumption.
  - intro H. rewrite <- (app_nil_r w). apply skip_space_app; [assumption|exact I].
Qed.

Lemma read_json_total s : exists o, read_json s = Ok o.
Proof.
  unfold read_json. destruct (proj1 (read_total (json_fuel s)) s) as [o E]; [unfold json_fuel; lia|]. rewrite E. cbn. eauto.
Qed.
Lemma read_json_document s v : read_json s = Ok (Some v) <-> document v s.
Proof.
  unfold read_json. split.
  - destruct (read_value (json_fuel s) s) as [[[v' r]|]| |] eqn:E; try discriminate. cbn.
    destruct (skip_space r) eqn:Er; [|discriminate]. intro H; injection H as ->. apply (proj1 (read_sound _)) in E. destruct E as (w & t & -> & Hw & Ht).
    exists w, t, r. repeat split; try assumption. apply skip_space_nil. assumption.
  - intros (w & t & w' & -> & Hw & Hw' & Ht). rewrite (proj1 read_complete v t Ht w w' _ Hw (space_stop _ Hw')).
    + cbn. rewrite (proj2 (skip_space_nil w') Hw'). reflexivity.
    + unfold json_fuel. rewrite !app_length. lia.
Qed.

(** ** Writing *)

(** Values made of texts only. *)
Inductive textual : json -> Prop :=
| textual_string s : textual (JString (Some s))
| textual_array l : Forall textual l -> textual (JArray l)
| textual_object l : Forall (fun kv => exists k, fst kv = Some k) l -> Forall textual (map snd l) -> textual (JObject l).

Section TextualInd.
Variable P : json -> Prop.
Hypothesis Hs : forall s, P (JString (Some s)).
Hypothesis Ha : forall l, Forall P l -> P (JArray l).
Hypothesis Ho : forall l, Forall (fun kv => exists k, fst kv = Some k) l -> Forall P (map snd l) -> P (JObject l).
Fixpoint textual_rect' v (H : textual v) {struct H} : P v :=
  match H in textual v return P v with
  | textual_string s => Hs s
  | textual_array l Hl =>
      Ha l ((fix go l (Hl : Forall textual l) : Forall P l :=
        match Hl in Forall _ l return Forall P l with
        | Forall_nil _ => Forall_nil P
        | Forall_cons v Hv Hl => Forall_cons v (textual_rect' v Hv) (go _ Hl)
        end) l Hl)
  | textual_object l Hk Hl =>
      Ho l Hk ((fix go l (Hl : Forall textual l) : Forall P l :=
        match Hl in Forall _ l return Forall P l with
        | Forall_nil _ => Forall_nil P
        | Forall_cons v Hv Hl => Forall_cons v (textual_rect' v Hv) (go _ Hl)
        end) (map snd l) Hl)
  end.
End TextualInd.

Lemma hex_digit_hex n : (n < 16)%N -> hex (hex_digit n) n.
Proof. intro H. unfold hex, hex_digit. destruct (N.ltb_spec n 10); lia. Qed.
Lemma write_char_text c o s : string_text o s -> string_text (add c o) (write_char c ++ s).
Proof.
  intro H. unfold write_char.
  destruct (N.eqb_spec c 34) as [->|H34]; [apply (string_escape 34%N); [cbn; auto|assumption]|].
  destruct (N.eqb_spec c 92) as [->|H92]; [apply (string_escape 92%N); [cbn; auto|assumption]|].
  destruct (N.eqb_spec c 8) as [->|]; [apply (string_escape 98%N); [cbn; auto 10|assumption]|].
  destruct (N.eqb_spec c 9) as [->|]; [apply (string_escape 116%N); [cbn; auto 10|assumption]|].
  destruct (N.eqb_spec c 10) as [->|]; [apply (string_escape 110%N); [cbn; auto 10|assumption]|].
  destruct (N.eqb_spec c 12) as [->|]; [apply (string_escape 102%N); [cbn; auto 10|assumption]|].
  destruct (N.eqb_spec c 13) as [->|]; [apply (string_escape 114%N); [cbn; auto 10|assumption]|].
  destruct (N.ltb_spec c 32) as [Hc|Hc]; [|cbn; constructor; assumption].
  apply string_unit; [|unfold high; lia|unfold low; lia|assumption].
  exists 48%N, 48%N, (hex_digit (c / 16)), (hex_digit (c mod 16)), 0%N, 0%N, (c / 16)%N, (c mod 16)%N.
  split; [reflexivity|]. split; [unfold hex; lia|]. split; [unfold hex; lia|].
  split; [apply hex_digit_hex; apply N.div_lt_upper_bound; lia|]. split; [apply hex_digit_hex, N.mod_lt; lia|].
  pose proof (N.div_mod c 16). lia.
Qed.
Lemma write_string_text s : string_text (Some s) (flat_map write_char s).
Proof. induction s as [|c s IH]; cbn; [constructor|]. apply (write_char_text c (Some s)). assumption. Qed.

Lemma write_sep_cons sep s s' l : write_sep sep (s :: s' :: l) = s ++ sep ++ write_sep sep (s' :: l).
Proof. reflexivity. Qed.

(** Elements and members with space around them. *)
Lemma write_items w w' l ts : space w -> space w' -> l <> [] -> Forall2 json_text l ts ->
  items_text l (w ++ write_sep (lit "," ++ w) ts ++ w').
Proof.
  intros Hw Hw' Hn H. revert Hn. induction H as [|v t l ts Hv Hl IH]; [congruence|]. intros _.
  destruct Hl as [|v' t' l ts Hv' Hl]; [apply items_one; assumption|].
  rewrite write_sep_cons. specialize (IH ltac:(discriminate)).
  match goal with |- items_text _ ?x =>
    replace x with (w ++ t ++ [] ++ lit "," ++ (w ++ write_sep (lit "," ++ w) (t' :: ts) ++ w')) by (rewrite <- !app_assoc; reflexivity) end.
  apply items_more; [assumption|apply space_nil|assumption|assumption].
Qed.
Lemma write_members w w' w'' l ts : space w -> space w' -> space w'' -> l <> [] ->
  Forall2 (fun kv t => exists k s, fst kv = Some k /\ json_text (snd kv) s /\ t = write_key (fst kv) ++ lit ":" ++ w'' ++ s) l ts ->
  members_text l (w ++ write_sep (lit "," ++ w) ts ++ w').
Proof.
  intros Hw Hw' Hw'' Hn H. revert Hn.
  assert (Hm : forall kv t w', space w' -> (exists k s, fst kv = Some k /\ json_text (snd kv) s /\ t = write_key (fst kv) ++ lit ":" ++ w'' ++ s) ->
            member_text kv (w ++ t ++ w')).
  { intros [k0 v] t w0 H0 (k & s & E & Hs & ->). cbn in E. subst k0. cbn [fst snd write_key] in *. unfold write_string.
    match goal with |- member_text _ ?x =>
      replace x with (w ++ [34%N] ++ flat_map write_char k ++ [34%N] ++ [] ++ lit ":" ++ w'' ++ s ++ w0) by (rewrite <- !app_assoc; reflexivity) end.
    apply member; try assumption; [apply space_nil|apply write_string_text]. }
  induction H as [|v t l ts Hv Hl IH]; [congruence|]. intros _.
  destruct Hl as [|v' t' l ts Hv' Hl]; [apply members_one, Hm; assumption|].
  rewrite write_sep_cons. specialize (IH ltac:(discriminate)).
  match goal with |- members_text _ ?x =>
    replace x with ((w ++ t ++ []) ++ lit "," ++ (w ++ write_sep (lit "," ++ w) (t' :: ts) ++ w')) by (rewrite app_nil_r, <- !app_assoc; reflexivity) end.
  apply members_more; [apply Hm; [apply space_nil|assumption]|assumption].
Qed.

Lemma Forall2_map_self {A B} (R : A -> B -> Prop) (f : A -> B) l : Forall (fun a => R a (f a)) l -> Forall2 R l (map f l).
Proof. induction 1; cbn; constructor; assumption. Qed.
Lemma Forall_map_snd {A B} (P : B -> Prop) (l : list (A * B)) : Forall P (map snd l) -> Forall (fun x => P (snd x)) l.
Proof. induction l as [|x l IH]; cbn; intro H; inversion H; subst; constructor; auto. Qed.
Lemma Forall_and2 {A} (P Q : A -> Prop) l : Forall P l -> Forall Q l -> Forall (fun x => P x /\ Q x) l.
Proof. induction 1; intro H1; inversion H1; subst; constructor; auto. Qed.

Lemma write_json_text v : textual v -> json_text v (write_json v).
Proof.
  revert v. apply textual_rect'.
  - intro s. cbn. unfold write_string. apply text_string, write_string_text.
  - intros l H. cbn [write_json]. destruct l as [|v l]; [apply (text_array_empty []), space_nil|]. apply text_array.
    replace (write_sep (lit ",") (map write_json (v :: l))) with ([] ++ write_sep (lit "," ++ []) (map write_json (v :: l)) ++ []) by (rewrite !app_nil_r; reflexivity).
    apply write_items; [apply space_nil|apply space_nil|discriminate|]. apply Forall2_map_self. assumption.
  - intros l Hk H. cbn [write_json]. destruct l as [|v l]; [apply (text_object_empty []), space_nil|]. apply text_object.
    match goal with |- members_text _ (write_sep _ ?x) => replace (write_sep (lit ",") x) with ([] ++ write_sep (lit "," ++ []) x ++ []) by (rewrite !app_nil_r; reflexivity) end.
    apply (write_members [] [] []); try apply space_nil; [discriminate|]. apply Forall2_map_self. apply Forall_map_snd in H.
    eapply Forall_impl; [|apply (Forall_and2 _ _ _ Hk H)]. intros [k0 w] [[k E] Hw]. cbn in *. exists k, (write_json w). auto.
Qed.

Lemma indent_space n : space (indent n).
Proof.
  induction n as [|n IH]; intros c H; cbn in H; [destruct H as [<-|[]]; cbn; auto|]. apply in_app_or in H. destruct H as [H|[<-|[<-|[]]]]; [auto|cbn; auto|cbn; auto].
Qed.
Lemma pretty_json_text v : textual v -> forall n, json_text v (write_pretty n v).
Proof.
  revert v. apply (textual_rect' (fun v => forall n, json_text v (write_pretty n v))).
  - intros s n. cbn. unfold write_string. apply text_string, write_string_text.
  - intros l H n. cbn [write_pretty]. destruct l as [|v l]; [apply (text_array_empty []), space_nil|].
    change (json_text (JArray (v :: l)) (lit "[" ++ indent (S n) ++ write_sep (lit "," ++ indent (S n)) (map (write_pretty (S n)) (v :: l)) ++ indent n ++ lit "]")).
    replace (lit "[" ++ indent (S n) ++ write_sep (lit "," ++ indent (S n)) (map (write_pretty (S n)) (v :: l)) ++ indent n ++ lit "]")
      with (lit "[" ++ (indent (S n) ++ write_sep (lit "," ++ indent (S n)) (map (write_pretty (S n)) (v :: l)) ++ indent n) ++ lit "]") by (rewrite <- !app_assoc; reflexivity).
    apply text_array. apply write_items; [apply indent_space|apply indent_space|discriminate|]. apply Forall2_map_self.
    eapply Forall_impl; [|exact H]. cbn. auto.
  - intros l Hk H n. cbn [write_pretty]. destruct l as [|v l]; [apply (text_object_empty []), space_nil|].
    set (f := fun kv => write_key (fst kv) ++ lit ": " ++ write_pretty (S n) (snd kv)).
    change (json_text (JObject (v :: l)) (lit "{" ++ indent (S n) ++ write_sep (lit "," ++ indent (S n)) (map f (v :: l)) ++ indent n ++ lit "}")).
    replace (lit "{" ++ indent (S n) ++ write_sep (lit "," ++ indent (S n)) (map f (v :: l)) ++ indent n ++ lit "}")
      with (lit "{" ++ (indent (S n) ++ write_sep (lit "," ++ indent (S n)) (map f (v :: l)) ++ indent n) ++ lit "}") by (rewrite <- !app_assoc; reflexivity).
    apply text_object. apply (write_members _ _ (lit " ")); [apply indent_space|apply indent_space|intros c [<-|[]]; cbn; auto|discriminate|].
    apply Forall2_map_self. apply Forall_map_snd in H.
    eapply Forall_impl; [|apply (Forall_and2 _ _ _ Hk H)]. intros [k0 w] [[k E] Hw]. cbn in *. exists k, (write_pretty (S n) w).
    split; [assumption|]. split; [apply Hw|]. reflexivity.
Qed.

(** *** The compact text is the shortest *)

Lemma write_char_length c : length (write_char c) <= 6 /\ ((65536 <= c)%N -> length (write_char c) = 1).
Proof.
  unfold write_char. split.
  - repeat (match goal with |- context [if ?b then _ else _] => destruct b end); cbn; lia.
  - intro H. repeat match goal with |- context [N.eqb c ?k] => destruct (N.eqb_spec c k); [lia|] end. destruct (N.ltb_spec c 32); [lia|reflexivity].
Qed.
Lemma string_shortest o s : string_text o s -> forall x, o = Some x -> length (flat_map write_char x) <= length s.
Proof.
  induction 1 as [|c o s H1 H2 H3 H IH|e c o s He H IH|u t o s Hu Hh Hl H IH|u t u' t' o s Hu Hh Hu' Hl H IH|u t o s Hu Hs Hn H IH]; intros x E;
    try discriminate; try (destruct o as [y|]; [|discriminate]; injection E as <-; specialize (IH y eq_refl); cbn [flat_map]; rewrite app_length).
  - injection E as <-. cbn. lia.
  - cbn [length]. enough (length (write_char c) = 1) by lia. unfold write_char.
    rewrite (proj2 (N.eqb_neq _ _) H2), (proj2 (N.eqb_neq _ _) H3).
    repeat match goal with |- context [N.eqb c ?k] => destruct (N.eqb_spec c k); [lia|] end. destruct (N.ltb_spec c 32); [lia|reflexivity].
  - cbn [length]. enough (length (write_char c) <= 2) by lia. cbn in He. decompose [or] He; try contradiction;
      match goal with H : (_, _) = (_, _) |- _ => injection H as <- <- end; cbn; lia.
  - rewrite app_length, (unit_text_length _ _ Hu). pose proof (proj1 (write_char_length u)). lia.
  - rewrite !app_length, (unit_text_length _ _ Hu).
    assert (H65 : (65536 <= 65536 + (u - 55296) * 1024 + (u' - 56320))%N) by (rewrite <- N.add_assoc; apply N.le_add_r).
    match goal with |- context [write_char ?c] => change c with (65536 + (u - 55296) * 1024 + (u' - 56320))%N end.
    rewrite (proj2 (write_char_length _) H65). unfold char in *; lia.
Qed.
Lemma write_key_shortest o s : string_text o s -> length (write_key o) <= 2 + length s.
Proof.
  intro H. destruct o as [x|]; cbn [write_key length]; [|lia]. unfold write_string. rewrite !app_length.
  pose proof (string_shortest _ _ H x eq_refl). cbn [length]. lia.
Qed.
Lemma json_shortest :
  (forall v t, json_text v t -> length (write_json v) <= length t) /\
  (forall l t, items_text l t -> length (write_sep (lit ",") (map write_json l)) <= length t) /\
  (forall l t, members_text l t ->
     length (write_sep (lit ",") (map (fun kv => write_key (fst kv) ++ lit ":" ++ write_json (snd kv)) l)) <= length t) /\
  (forall m t, member_text m t -> length (write_key (fst m) ++ lit ":" ++ write_json (snd m)) <= length t).
Proof.
  apply json_text_mutind.
  - reflexivity.
  - reflexivity.
  - reflexivity.
  - intros t _. reflexivity.
  - intros o s H. apply write_key_shortest in H. cbn [write_json]. rewrite !app_length. cbn [length]. lia.
  - intros l s _ IH. cbn [write_json]. rewrite !app_length. lia.
  - intros w _. cbn [write_json map write_sep app]. rewrite !app_length. cbn. lia.
  - intros l s _ IH. cbn [write_json]. rewrite !app_length. lia.
  - intros w _. cbn [write_json map write_sep app]. rewrite !app_length. cbn. lia.
  - intros v s w w' _ _ _ IH. cbn [map write_sep]. rewrite !app_length. lia.
  - intros v s w w' l s' _ _ _ IH Hl IHl. cbn [map]. destruct (map write_json l) as [|t ts] eqn:E.
    + cbn [write_sep]. rewrite !app_length. lia.
    + rewrite write_sep_cons. rewrite !app_length in *. lia.
  - intros m s _ IH. cbn [map write_sep]. exact IH.
  - intros m s l s' _ IH Hl IHl. cbn [map]. destruct (map _ l) as [|t ts] eqn:E.
    + cbn [write_sep]. rewrite (app_length s). lia.
    + rewrite write_sep_cons. rewrite !app_length in *. unfold str, char in *; lia.
  - intros k v s s' w1 w2 w3 w4 _ _ _ _ Hk _ IH. apply write_key_shortest in Hk. cbn [fst snd]. rewrite !app_length. cbn [length]. lia.
Qed.

(** No control characters are written. *)
Lemma write_char_printable c : Forall (fun x => 32 <= x)%N (write_char c).
Proof.
  unfold write_char.
  repeat match goal with |- context [N.eqb c ?k] => destruct (N.eqb_spec c k); [subst; cbn; repeat constructor; lia|] end.
  destruct (N.ltb_spec c 32); [|repeat constructor; assumption]. 
  assert (Hh : forall n, (32 <= hex_digit n)%N) by (intro; unfold hex_digit; destruct (N.ltb _ 10); lia).
  cbn [lit app]. repeat (apply Forall_cons; [first [apply Hh|cbn; lia]|]). apply Forall_nil.
Qed.
Lemma write_string_printable s : Forall (fun x => 32 <= x)%N (write_string s).
Proof.
  unfold write_string. apply Forall_app. split; [repeat constructor; lia|]. apply Forall_app. split; [|repeat constructor; lia].
  induction s as [|c s IH]; cbn; [constructor|]. apply Forall_app. split; [apply write_char_printable|assumption].
Qed.
Lemma write_sep_printable sep l : Forall (fun x => 32 <= x)%N sep -> Forall (Forall (fun x => 32 <= x)%N) l -> Forall (fun x => 32 <= x)%N (write_sep sep l).
Proof.
  intros Hs H. induction H as [|s l H1 Hl IH]; [constructor|]. destruct l as [|s' l]; [assumption|]. rewrite write_sep_cons. apply Forall_app. split; [assumption|].
  apply Forall_app. split; assumption.
Qed.
Lemma write_json_printable v : textual v -> Forall (fun x => 32 <= x)%N (write_json v).
Proof.
  revert v. apply textual_rect'.
  - intro s. cbn. apply write_string_printable.
  - intros l H. cbn [write_json]. apply Forall_app. split; [repeat constructor; cbn; lia|]. apply Forall_app. split; [|repeat constructor; cbn; lia].
    apply write_sep_printable; [repeat constructor; cbn; lia|]. apply Forall_map. assumption.
  - intros l Hk H. cbn [write_json]. apply Forall_app. split; [repeat constructor; cbn; lia|]. apply Forall_app. split; [|repeat constructor; cbn; lia].
    apply write_sep_printable; [repeat constructor; cbn; lia|]. apply Forall_map. apply Forall_map_snd in H.
    eapply Forall_impl; [|apply (Forall_and2 _ _ _ Hk H)]. intros [k0 w] [[k E] Hw]. cbn [fst snd] in *. subst k0. cbn [write_key].
    apply Forall_app. split; [apply write_string_printable|]. apply Forall_app. split; [repeat constructor; cbn; lia|assumption].
Qed.

(** ** The derived code *)

Lemma de_list_Forall2 {A} (de : json -> option A) (R : A -> json -> Prop) : (forall v a, de v = Some a <-> R a v) ->
  forall l l', de_list de l = Some l' <-> Forall2 R l' l.
Proof.
  intros H l. induction l as [|v l IH]; intros l'; cbn.
  - split; [intro E; injection E as <-; constructor|intro E; inversion E; reflexivity].
  - split.
    + destruct (de v) as [a|] eqn:Ev; [|discriminate]. destruct (de_list de l) as [l1|] eqn:El; [|discriminate]. intro E; injection E as <-.
      constructor; [apply H; assumption|apply IH; reflexivity].
    + intro E. inversion E as [|a v' l1 l2 Ha Hl]; subst. apply H in Ha. apply IH in Hl. rewrite Ha, Hl. reflexivity.
Qed.
Lemma de_term_value v t : de_term v = Some t <-> term_value t v.
Proof.
  split.
  - destruct v as [| | | | |l]; try discriminate. destruct l as [|[[k|] [| | |[s|]| |]] [|]]; try discriminate. cbn [de_term].
    destruct (str_eqb k (lit "Terminal")) eqn:E1; [apply str_eqb_eq in E1; subst k; intro E; injection E as <-; constructor|].
    destruct (str_eqb k (lit "Nonterminal")) eqn:E2; [apply str_eqb_eq in E2; subst k; intro E; injection E as <-; constructor|discriminate].
  - destruct 1; reflexivity.
Qed.

(** The keys of an object without the field [name]. *)
Definition without (name : str) (l : list (option str * json)) : Prop := forall kv, In kv l -> fst kv <> None /\ fst kv <> Some name.
Lemma field_cons_other name k v l w : k <> name -> (field name ((Some k, v) :: l) w <-> field name l w).
Proof.
  intro Hk. split.
  - intros [Ht (l1 & l2 & E & Hn)]. split; [intros kv H; apply Ht; right; assumption|]. destruct l1 as [|kv l1]; [injection E as -> _ _; congruence|].
    injection E as <- ->. exists l1, l2. split; [reflexivity|]. intros kv H. apply Hn. right. assumption.
  - intros [Ht (l1 & l2 & -> & Hn)]. split; [intros kv [<-|H]; [discriminate|auto]|]. exists ((Some k, v) :: l1), l2. split; [reflexivity|].
    intros kv [<-|H]; [cbn; congruence|auto].
Qed.
Lemma field_cons_here name v l w : field name ((Some name, v) :: l) w <-> w = v /\ without name l.
Proof.
  split.
  - intros [Ht (l1 & l2 & E & Hn)]. destruct l1 as [|kv l1].
    + injection E as <- <-. split; [reflexivity|]. intros kv H. split; [apply Ht; right; assumption|apply Hn; assumption].
    + injection E as <- _. exfalso. apply (Hn (Some name, v)); [left; reflexivity|reflexivity].
  - intros [-> Hw]. split; [intros kv [<-|H]; [discriminate|apply Hw; assumption]|]. exists [], l. split; [reflexivity|]. intros kv H. apply Hw. assumption.
Qed.
Lemma field_cons_none name v l w : ~ field name ((None, v) :: l) w.
Proof. intros [Ht _]. apply (Ht (None, v)); [left|]; reflexivity. Qed.
Lemma field_nil name w : ~ field name [] w.
Proof. intros [_ (l1 & l2 & E & _)]. destruct l1; discriminate. Qed.
Lemma without_cons_other name k v l : k <> name -> (without name ((Some k, v) :: l) <-> without name l).
Proof.
  intro Hk. split; intros H kv Hin; [apply H; right; assumption|]. destruct Hin as [<-|Hin]; [cbn; split; congruence|auto].
Qed.
Lemma without_cons_here name v l : ~ without name ((Some name, v) :: l).
Proof. intro H. destruct (H (Some name, v)) as [_ H1]; [left; reflexivity|]. apply H1. reflexivity. Qed.
Lemma without_cons_none name v l : ~ without name ((None, v) :: l).
Proof. intro H. destruct (H (None, v)) as [H1 _]; [left; reflexivity|]. apply H1. reflexivity. Qed.
Lemma without_nil name : without name [].
Proof. intros kv []. Qed.

Section Struct.
Context {A B : Type}.
Variables (n1 n2 : str) (de1 : json -> option A) (de2 : json -> option B).
Lemma visit_map1_some l a b : visit_map1 n1 de1 l (Some a) = Some b <-> a = b /\ without n1 l.
Proof.
  induction l as [|[[k|] v] l IH]; cbn [visit_map1].
  - split; [intro E; injection E as ->; split; [reflexivity|apply without_nil]|intros [-> _]; reflexivity].
  - destruct (str_eqb k n1) eqn:E; [apply str_eqb_eq in E; subst k|apply str_eqb_neq in E].
    + split; [discriminate|]. intros [_ H]. apply without_cons_here in H. destruct H.
    + rewrite IH, (without_cons_other n1 k v l E). reflexivity.
  - split; [discriminate|]. intros [_ H]. apply without_cons_none in H. destruct H.
Qed.
Lemma visit_map1_none l a : visit_map1 n1 de1 l None = Some a <-> exists v, field n1 l v /\ de1 v = Some a.
Proof.
  induction l as [|[[k|] v] l IH]; cbn [visit_map1].
  - split; [discriminate|]. intros (v & H & _). apply field_nil in H. destruct H.
  - destruct (str_eqb k n1) eqn:E; [apply str_eqb_eq in E; subst k|apply str_eqb_neq in E].
    + split.
      * destruct (de1 v) as [b|] eqn:Ev; [|discriminate]. intro H. apply visit_map1_some in H. destruct H as [-> H]. exists v. split; [apply field_cons_here; auto|assumption].
      * intros (w & H & Hw). apply field_cons_here in H. destruct H as [-> H]. rewrite Hw. apply visit_map1_some. auto.
    + rewrite IH. split; intros (w & H & Hw); exists w; (split; [|assumption]); apply (field_cons_other n1 k v l w E); assumption.
  - split; [discriminate|]. intros (w & H & _). apply field_cons_none in H. destruct H.
Qed.

Hypothesis n12 : n1 <> n2.
Definition found {T} (name : str) (de : json -> option T) (l : list (option str * json)) (f : option T) (a : T) : Prop :=
  match f with Some b => b = a /\ without name l | None => exists v, field name l v /\ de v = Some a end.
Lemma found_other {T} (name : str) (de : json -> option T) k v l f a : k <> name -> (found name de ((Some k, v) :: l) f a <-> found name de l f a).
Proof.
  intro Hk. destruct f as [b|]; cbn.
  - rewrite (without_cons_other name k v l Hk). reflexivity.
  - split; intros (w & H & Hw); exists w; (split; [|assumption]); apply (field_cons_other name k v l w Hk); assumption.
Qed.
Lemma found_here {T} (name : str) (de : json -> option T) v l f a : found name de ((Some name, v) :: l) f a <-> f = None /\ exists b, de v = Some b /\ found name de l (Some b) a.
Proof.
  destruct f as [b|]; cbn.
  - split; [intros [_ H]; apply without_cons_here in H; destruct H|intros [H _]; discriminate].
  - split.
    + intros (w & H & Hw). apply field_cons_here in H. destruct H as [-> H]. split; [reflexivity|]. exists a. auto.
    + intros [_ (b & Hb & -> & H)]. exists v. split; [apply field_cons_here; auto|assumption].
Qed.
Lemma found_none {T} (name : str) (de : json -> option T) v l f a : ~ found name de ((None, v) :: l) f a.
Proof.
  destruct f as [b|]; cbn.
  - intros [_ H]. apply without_cons_none in H. destruct H.
  - intros (w & H & _). apply field_cons_none in H. destruct H.
Qed.
Lemma visit_map2_spec l f1 f2 a b : visit_map2 n1 n2 de1 de2 l f1 f2 = Some (a, b) <-> found n1 de1 l f1 a /\ found n2 de2 l f2 b.
Proof.
  revert f1 f2. induction l as [|[[k|] v] l IH]; intros f1 f2; cbn [visit_map2].
  - destruct f1 as [x|], f2 as [y|]; cbn; split; try discriminate.
    + intro E; injection E as -> ->. split; (split; [reflexivity|apply without_nil]).
    + intros [[-> _] [-> _]]. reflexivity.
    + intros [_ (v & H & _)]. apply field_nil in H. destruct H.
    + intros [(v & H & _) _]. apply field_nil in H. destruct H.
    + intros [(v & H & _) _]. apply field_nil in H. destruct H.
  - destruct (str_eqb k n1) eqn:E; [apply str_eqb_eq in E; subst k|apply str_eqb_neq in E].
    { rewrite found_here, (found_other n2 de2 n1 v l f2 b n12). destruct f1 as [x|]; [split; [discriminate|intros [[H _] _]; discriminate]|].
      destruct (de1 v) as [y|]; [|split; [discriminate|intros [[_ (z & H & _)] _]; discriminate]]. rewrite IH. split.
      - intros [H1 H2]. split; [|assumption]. split; [reflexivity|]. exists y. auto.
      - intros [[_ (z & Ez & H1)] H2]. injection Ez as <-. auto. }
    destruct (str_eqb k n2) eqn:E2; [apply str_eqb_eq in E2; subst k|apply str_eqb_neq in E2].
    { rewrite found_here, (found_other n1 de1 n2 v l f1 a E). destruct f2 as [x|]; [split; [discriminate|intros [_ [H _]]; discriminate]|].
      destruct (de2 v) as [y|]; [|split; [discriminate|intros [_ [_ (z & H & _)]]; discriminate]]. rewrite IH. split.
      - intros [H1 H2]. split; [assumption|]. split; [reflexivity|]. exists y. auto.
      - intros [H1 [_ (z & Ez & H2)]]. injection Ez as <-. auto. }
    rewrite IH, (found_other n1 de1 k v l f1 a E), (found_other n2 de2 k v l f2 b E2). reflexivity.
  - split; [discriminate|]. intros [H _]. apply found_none in H. destruct H.
Qed.
End Struct.

Lemma de_struct_list {A} name (de : json -> option A) (R : A -> json -> Prop) : (forall v a, de v = Some a <-> R a v) ->
  forall v l, de_struct1 name (de_vec de) v = Some l <->
    exists vs, Forall2 R l vs /\ (v = JArray [JArray vs] \/ exists o, v = JObject o /\ field name o (JArray vs)).
Proof.
  intros H v l. pose proof (de_list_Forall2 de R H) as HL. split.
  - destruct v as [| | | |vs|o]; try discriminate.
    + destruct vs as [|[| | | |us|] [|]]; try discriminate. cbn. intro E. exists us. split; [apply HL; assumption|auto].
    + cbn. intro E. apply visit_map1_none in E. destruct E as (v & Hf & E). destruct v as [| | | |us|]; try discriminate.
      exists us. split; [apply HL; assumption|right; eauto].
  - intros (vs & Hvs & [->|(o & -> & Ho)]); cbn; [apply HL; assumption|]. apply visit_map1_none. exists (JArray vs). split; [assumption|apply HL; assumption].
Qed.
Lemma de_expression_value v e : de_expression v = Some e <-> expression_value e v.
Proof. apply (de_struct_list _ _ term_value de_term_value). Qed.
Lemma de_production_value v p : de_production v = Some p <-> production_value p v.
Proof.
  pose proof (de_list_Forall2 de_expression expression_value de_expression_value) as HL. unfold de_production, de_struct2. split.
  - destruct v as [| | | |vs|o]; try discriminate.
    + destruct vs as [|v1 [|v2 [|]]]; try discriminate. destruct (de_term v1) as [t|] eqn:E1; [|discriminate]. destruct v2 as [| | | |us|]; try discriminate.
      cbn [de_vec]. destruct (de_list de_expression us) as [es|] eqn:E2; [|discriminate]. cbn. intro E; injection E as <-.
      exists v1, us. cbn [p_lhs p_rhs]. split; [apply de_term_value; assumption|]. split; [apply HL; assumption|auto].
    + destruct (visit_map2 _ _ _ _ o None None) as [[t es]|] eqn:E; [|discriminate]. cbn. intro H; injection H as <-.
      apply visit_map2_spec in E; [|discriminate]. destruct E as [(v1 & F1 & E1) (v2 & F2 & E2)]. destruct v2 as [| | | |us|]; try discriminate.
      exists v1, us. cbn [p_lhs p_rhs]. split; [apply de_term_value; assumption|]. split; [apply HL; assumption|right; eauto].
  - intros (t & es & Ht & Hes & H). apply de_term_value in Ht. apply HL in Hes. destruct p as [a b]. cbn [p_lhs p_rhs] in *.
    destruct H as [->|(o & -> & F1 & F2)].
    + cbn [de_vec]. rewrite Ht, Hes. reflexivity.
    + assert (E : visit_map2 (lit "lhs") (lit "rhs") de_term (de_vec de_expression) o None None = Some (a, b)).
      { apply visit_map2_spec; [discriminate|]. split; [exists t; auto|exists (JArray es); auto]. }
      rewrite E. reflexivity.
Qed.
Lemma de_grammar_value v g : de_grammar v = Some g <-> grammar_value g v.
Proof. apply (de_struct_list _ _ production_value de_production_value). Qed.

Lemma ser_term_value t : term_value t (ser_term t).
Proof. destruct t; constructor. Qed.
Lemma field_single name v : field name [(Some name, v)] v.
Proof. apply field_cons_here. split; [reflexivity|apply without_nil]. Qed.
Lemma ser_expression_value e : expression_value e (ser_expression e).
Proof.
  exists (map ser_term e). split; [apply Forall2_map_self, Forall_forall; intros; apply ser_term_value|]. right. eexists. split; [reflexivity|apply field_single].
Qed.
Lemma ser_production_value p : production_value p (ser_production p).
Proof.
  exists (ser_term (p_lhs p)), (map ser_expression (p_rhs p)). split; [apply ser_term_value|].
  split; [apply Forall2_map_self, Forall_forall; intros; apply ser_expression_value|]. right. eexists. split; [reflexivity|]. split.
  - apply field_cons_here. split; [reflexivity|]. intros kv [<-|[]]. split; discriminate.
  - apply field_cons_other; [discriminate|apply field_single].
Qed.
Lemma ser_grammar_value g : grammar_value g (ser_grammar g).
Proof.
  exists (map ser_production g). split; [apply Forall2_map_self, Forall_forall; intros; apply ser_production_value|]. right. eexists. split; [reflexivity|apply field_single].
Qed.

Lemma textual_map {A} (f : A -> json) l : (forall a, textual (f a)) -> Forall textual (map f l).
Proof. intro H. apply Forall_map, Forall_forall. intros. apply H. Qed.
Lemma ser_term_textual t : textual (ser_term t).
Proof. destruct t; apply textual_object; repeat constructor; eexists; reflexivity. Qed.
Lemma ser_expression_textual e : textual (ser_expression e).
Proof. apply textual_object; repeat constructor; [eexists; reflexivity|]. apply textual_map, ser_term_textual. Qed.
Lemma ser_production_textual p : textual (ser_production p).
Proof.
  apply textual_object; [repeat constructor; eexists; reflexivity|]. constructor; [apply ser_term_textual|]. repeat constructor.
  apply textual_map, ser_expression_textual.
Qed.
Lemma ser_grammar_textual g : textual (ser_grammar g).
Proof. apply textual_object; repeat constructor; [eexists; reflexivity|]. apply textual_map, ser_production_textual. Qed.
