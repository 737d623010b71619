(** Rust strings as bytes.  The model of the crate treats a string as the list of its characters;
    the operations of [str] that the crate uses are defined in Rust on the bytes of the UTF-8
    encoding.  Here these byte operations are defined and shown to be the character operations
    of Base.v. *)
From Verif Require Export Base.
From Coq Require Import NArith Lia.
Open Scope nat_scope.
Open Scope list_scope.

(** The encoding of a character (core: [char::encode_utf8]). *)
Definition utf8 (c : char) : list N :=
  (if c <? 128 then [c]
   else if c <? 2048 then [192 + c / 64; 128 + c mod 64]
   else if c <? 65536 then [224 + c / 4096; 128 + (c / 64) mod 64; 128 + c mod 64]
   else [240 + c / 262144; 128 + (c / 4096) mod 64; 128 + (c / 64) mod 64; 128 + c mod 64])%N.
Definition bytes (s : str) : list N := flat_map utf8 s.

(** A Rust [char] is below U+110000. *)
Definition scalar (c : char) : Prop := (c < 1114112)%N.
Definition text (s : str) : Prop := Forall scalar s.

(** core: [u8::is_utf8_char_boundary]: not a continuation byte 10xxxxxx. *)
Definition boundary_byte (b : N) : bool := negb ((128 <=? b) && (b <? 192))%N.
(** core: [str::is_char_boundary] and [str::get(idx..)]. *)
Definition is_char_boundary (bs : list N) (idx : nat) : bool :=
  if Nat.eqb idx 0 then true
  else if Nat.leb (length bs) idx then Nat.eqb idx (length bs)
  else match nth_error bs idx with Some b => boundary_byte b | None => false end.
Definition bytes_get_from (idx : nat) (bs : list N) : option (list N) :=
  if is_char_boundary bs idx then Some (skipn idx bs) else None.

(** core: [str::starts_with(&str)]: comparison of bytes. *)
Fixpoint bytes_starts_with (bs p : list N) {struct p} : bool :=
  match p with
  | [] => true
  | x :: p => match bs with [] => false | y :: bs => N.eqb x y && bytes_starts_with bs p end
  end.

(** core: [PartialEq for str]: comparison of bytes. *)
Fixpoint bytes_eqb (a b : list N) : bool :=
  match a, b with
  | [], [] => true
  | x :: a, y :: b => N.eqb x y && bytes_eqb a b
  | _, _ => false
  end.

Lemma utf8_nonempty c : exists b r, utf8 c = b :: r.
Proof. unfold utf8. repeat destruct (N.ltb _ _); eauto. Qed.

Lemma utf8_length c : length (utf8 c) = utf8_len c.
Proof. unfold utf8, utf8_len. repeat destruct (N.ltb _ _); reflexivity. Qed.

Lemma bytes_length s : length (bytes s) = byte_len s.
Proof. induction s as [|c s IH]; cbn [bytes flat_map byte_len]; [reflexivity|]. rewrite app_length, utf8_length. f_equal. exact IH. Qed.

Lemma bytes_app a b : bytes (a ++ b) = bytes a ++ bytes b.
Proof. apply flat_map_app. Qed.

Lemma cons_inv {A} (x y : A) a b : x :: a = y :: b -> x = y /\ a = b.
Proof. intro E. injection E; auto. Qed.

(** The digits of a code point to the base 64. *)
Lemma digits (c : N) :
  (c = 64 * (c / 64) + c mod 64 /\ c mod 64 < 64 /\
   c / 64 = 64 * (c / 4096) + (c / 64) mod 64 /\ (c / 64) mod 64 < 64 /\
   c / 4096 = 64 * (c / 262144) + (c / 4096) mod 64 /\ (c / 4096) mod 64 < 64 /\
   (* for [lia] *)
   0 <= c mod 64 /\ 0 <= (c / 64) mod 64 /\ 0 <= (c / 4096) mod 64 /\ 0 <= c / 262144)%N.
Proof.
  change 4096%N with (64 * 64)%N. change 262144%N with (64 * 64 * 64)%N.
  rewrite <- !N.div_div by lia.
  repeat split; try (apply N.div_mod; lia); try apply N.le_0_l; apply N.mod_lt; lia.
Qed.

(** The leading byte tells the length, and the whole encoding tells the character: no encoding
    is a beginning of another. *)
Lemma utf8_prefix_free c d x y : scalar c -> scalar d -> utf8 c ++ x = utf8 d ++ y -> c = d /\ x = y.
Proof.
  unfold scalar. intros Hc Hd. unfold utf8.
  destruct (N.ltb_spec c 128); [|destruct (N.ltb_spec c 2048); [|destruct (N.ltb_spec c 65536)]];
  (destruct (N.ltb_spec d 128); [|destruct (N.ltb_spec d 2048); [|destruct (N.ltb_spec d 65536)]]);
  cbn [app]; intro E;
  repeat match goal with F : _ :: _ = _ :: _ |- _ => apply cons_inv in F; destruct F end;
  pose proof (digits c); pose proof (digits d); first [split; [lia|assumption]|exfalso; lia].
Qed.

Lemma bytes_inj a : forall b, text a -> text b -> bytes a = bytes b -> a = b.
Proof.
  induction a as [|c a IH]; intros [|d b] Ha Hb E; cbn [bytes flat_map] in E.
  - reflexivity.
  - destruct (utf8_nonempty d) as (x & r & F). rewrite F in E. discriminate.
  - destruct (utf8_nonempty c) as (x & r & F). rewrite F in E. discriminate.
  - inversion Ha; inversion Hb; subst. apply utf8_prefix_free in E; [|assumption|assumption].
    destruct E as [-> E]. f_equal. apply IH; assumption.
Qed.

Lemma bytes_eqb_eq a : forall b, bytes_eqb a b = true <-> a = b.
Proof.
  induction a as [|x a IH]; intros [|y b]; cbn; try (split; congruence).
  rewrite andb_true_iff, N.eqb_eq, IH. split; [intros [-> ->]; reflexivity|intro E; injection E; auto].
Qed.

Lemma bytes_eqb_str a b : text a -> text b -> bytes_eqb (bytes a) (bytes b) = str_eqb a b.
Proof.
  intros Ha Hb. destruct (str_eqb a b) eqn:E.
  - apply str_eqb_eq in E. subst. apply bytes_eqb_eq. reflexivity.
  - destruct (bytes_eqb (bytes a) (bytes b)) eqn:F; [|reflexivity]. apply bytes_eqb_eq, bytes_inj in F; [|assumption|assumption].
    subst. rewrite str_eqb_refl in E. discriminate.
Qed.

Lemma bytes_starts_spec p : forall bs, bytes_starts_with bs p = true <-> exists r, bs = p ++ r.
Proof.
  induction p as [|x p IH]; intros bs; cbn.
  - split; [intros _; exists bs; reflexivity|reflexivity].
  - destruct bs as [|y bs].
    + split; [discriminate|intros [r E]; discriminate].
    + rewrite andb_true_iff, N.eqb_eq, IH. split.
      * intros [-> [r ->]]. exists r. reflexivity.
      * intros [r E]. injection E as -> ->. split; [reflexivity|]. exists r. reflexivity.
Qed.

(** A beginning of the bytes that is itself text is a beginning of the characters. *)
Lemma bytes_prefix p : forall s r, text p -> text s -> bytes s = bytes p ++ r -> exists t, s = p ++ t /\ r = bytes t.
Proof.
  induction p as [|c p IH]; intros s r Hp Hs E.
  - exists s. split; [reflexivity|]. symmetry. exact E.
  - inversion Hp as [|? ? Hc Hp']; subst. destruct s as [|d s].
    + cbn [bytes flat_map] in E. destruct (utf8_nonempty c) as (x & q & F). rewrite F in E. discriminate.
    + inversion Hs as [|? ? Hd Hs']; subst. cbn [bytes flat_map] in E. rewrite <- app_assoc in E.
      apply utf8_prefix_free in E; [|assumption|assumption]. destruct E as [-> E].
      destruct (IH s r Hp' Hs' E) as (t & -> & ->). exists t. split; reflexivity.
Qed.

Lemma bytes_starts_str s p : text s -> text p -> bytes_starts_with (bytes s) (bytes p) = starts_with s p.
Proof.
  intros Hs Hp. destruct (starts_with s p) eqn:E.
  - apply starts_with_spec in E. destruct E as [r ->]. apply bytes_starts_spec. rewrite bytes_app. eauto.
  - destruct (bytes_starts_with (bytes s) (bytes p)) eqn:F; [|reflexivity]. apply bytes_starts_spec in F.
    destruct F as [r F]. apply bytes_prefix in F; [|assumption|assumption]. destruct F as (t & -> & _).
    assert (starts_with (p ++ t) p = true) by (apply starts_with_spec; eauto). congruence.
Qed.

(** The first byte of a character is a boundary byte and the others are not. *)
Lemma utf8_head c : exists b r, utf8 c = b :: r /\ (scalar c -> boundary_byte b = true) /\
  forall i, i < length r -> match nth_error r i with Some x => boundary_byte x = false | None => False end.
Proof.
  unfold utf8. assert (M : forall x, boundary_byte (128 + x mod 64) = false).
  { intro x. unfold boundary_byte. assert (x mod 64 < 64)%N by (apply N.mod_lt; discriminate). rewrite negb_false_iff, andb_true_iff, N.leb_le, N.ltb_lt. generalize dependent (x mod 64)%N. lia. }
  assert (B : forall a x, (192 <= a)%N -> boundary_byte (a + x) = true).
  { intros a x Ha. unfold boundary_byte. rewrite negb_true_iff, andb_false_iff, N.ltb_ge. right. lia. }
  destruct (N.ltb_spec c 128); [|destruct (N.ltb_spec c 2048); [|destruct (N.ltb_spec c 65536)]];
    eexists _, _; (split; [reflexivity|]); split.
  - intros _. unfold boundary_byte. rewrite negb_true_iff, andb_false_iff, N.leb_gt. left. assumption.
  - intros i Hi. cbn in Hi. lia.
  - intros _. apply B. lia.
  - intros [|i] Hi; cbn in *; [apply M|lia].
  - intros _. apply B. lia.
  - intros [|[|i]] Hi; cbn in *; [apply M|apply M|lia].
  - intros _. apply B. lia.
  - intros [|[|[|i]]] Hi; cbn in *; [apply M|apply M|apply M|lia].
Qed.

Lemma get_from_0 s : str_get_from 0 s = Some s.
Proof. destruct s; reflexivity. Qed.
Lemma get_from_pos idx c s : 0 < idx ->
  str_get_from idx (c :: s) = if Nat.leb (utf8_len c) idx then str_get_from (idx - utf8_len c) s else None.
Proof. destruct idx; [lia|reflexivity]. Qed.

Lemma is_char_boundary_0 bs : is_char_boundary bs 0 = true.
Proof. reflexivity. Qed.

Lemma bytes_get_str s : forall idx, text s ->
  bytes_get_from idx (bytes s) = option_map bytes (str_get_from idx s).
Proof.
  induction s as [|c s IH]; intros idx Hs.
  - unfold bytes_get_from, is_char_boundary. destruct idx; reflexivity.
  - inversion Hs as [|? ? Hc Hs']; subst. destruct (Nat.eq_dec idx 0) as [->|Hpos]; [reflexivity|].
    assert (Hp : (idx =? 0) = false) by (apply Nat.eqb_neq; exact Hpos).
    rewrite get_from_pos by lia. cbn [bytes flat_map].
    destruct (utf8_head c) as (b & r & E & Hb & Hr).
    pose proof (utf8_length c) as El. rewrite E in El. cbn [length] in El.
    destruct (Nat.leb_spec (utf8_len c) idx) as [Hle|Hlt].
    + rewrite <- IH by assumption. unfold bytes_get_from. fold (bytes s).
      assert (Ek : skipn idx (utf8 c ++ bytes s) = skipn (idx - utf8_len c) (bytes s)).
      { rewrite <- utf8_length. rewrite skipn_app. rewrite skipn_all2 by (rewrite utf8_length; lia). reflexivity. }
      rewrite Ek. replace (is_char_boundary (utf8 c ++ bytes s) idx) with (is_char_boundary (bytes s) (idx - utf8_len c)); [reflexivity|].
      unfold is_char_boundary at 2. rewrite Hp. rewrite app_length, utf8_length.
      unfold is_char_boundary. destruct (Nat.eqb_spec (idx - utf8_len c) 0) as [E0|E0].
      * assert (Es : idx = utf8_len c) by lia. rewrite Es.
        destruct (Nat.leb_spec (utf8_len c + length (bytes s)) (utf8_len c)) as [H1|H1].
        -- symmetry. apply Nat.eqb_eq. lia.
        -- rewrite nth_error_app2 by (rewrite utf8_length; lia). rewrite utf8_length, Nat.sub_diag.
           destruct s as [|d s]; [cbn in H1; lia|]. inversion Hs' as [|? ? Hd _]; subst. cbn [bytes flat_map].
           destruct (utf8_head d) as (b' & r' & E' & Hb' & _). rewrite E'. cbn. symmetry. apply Hb'. exact Hd.
      * destruct (Nat.leb_spec (length (bytes s)) (idx - utf8_len c)) as [H1|H1].
        -- destruct (Nat.leb_spec (utf8_len c + length (bytes s)) idx) as [H2|H2]; [|lia].
           destruct (Nat.eqb_spec (idx - utf8_len c) (length (bytes s))), (Nat.eqb_spec idx (utf8_len c + length (bytes s))); try reflexivity; lia.
        -- destruct (Nat.leb_spec (utf8_len c + length (bytes s)) idx) as [H2|H2]; [lia|].
           rewrite nth_error_app2 by (rewrite utf8_length; lia). rewrite utf8_length. reflexivity.
    + unfold bytes_get_from. replace (is_char_boundary (utf8 c ++ flat_map utf8 s) idx) with false; [reflexivity|].
      unfold is_char_boundary. rewrite Hp. rewrite app_length, utf8_length.
      destruct (Nat.leb_spec (utf8_len c + length (flat_map utf8 s)) idx) as [H2|H2]; [lia|].
      rewrite nth_error_app1 by (rewrite utf8_length; lia). rewrite E. destruct idx as [|idx]; [lia|]. cbn [nth_error].
      specialize (Hr idx). destruct (nth_error r idx) as [x|]; [symmetry; apply Hr; lia|reflexivity].
Qed.
