(** Base facts about the Rust runtime types the crate uses: [str], [Vec], [HashMap],
    and an explicit [Panic] result.  No proofs about the crate itself. *)
From Coq Require Export List Arith NArith Bool Lia.
From Coq Require Import Ascii String.
Export ListNotations.
Open Scope list_scope.
Open Scope nat_scope.

(** A Rust [char]: its code point. *)
Definition char := N.
(** A Rust [&str] / [String]: the sequence of its characters.  (UTF-8 validity is a type
    invariant of Rust strings, so a string is determined by its characters.) *)
Definition str := list char.

(** String literals of the source code (ASCII only). *)
Fixpoint lit (s : string) : str :=
  match s with
  | EmptyString => nil
  | String a r => N_of_ascii a :: lit r
  end.

Fixpoint str_eqb (a b : str) : bool :=
  match a, b with
  | nil, nil => true
  | x :: a', y :: b' => N.eqb x y && str_eqb a' b'
  | _, _ => false
  end.

Lemma str_eqb_eq a b : str_eqb a b = true <-> a = b.
Proof.
  revert b; induction a as [|x a IH]; intros [|y b]; simpl; split; intro H; try discriminate; auto.
  - apply andb_true_iff in H. destruct H as [H1 H2]. apply N.eqb_eq in H1. apply IH in H2. congruence.
  - injection H as -> ->. rewrite N.eqb_refl. simpl. apply IH. reflexivity.
Qed.

Lemma str_eqb_refl a : str_eqb a a = true.
Proof. apply str_eqb_eq; reflexivity. Qed.

Lemma str_eqb_neq a b : str_eqb a b = false <-> a <> b.
Proof.
  rewrite <- str_eqb_eq. destruct (str_eqb a b); split; intro H; congruence.
Qed.

Lemma str_eq_dec (a b : str) : {a = b} + {a <> b}.
Proof. apply list_eq_dec, N.eq_dec. Defined.

(** [char::len_utf8]: number of bytes of the UTF-8 encoding (core library). *)
Definition utf8_len (c : char) : nat :=
  if N.ltb c 128 then 1
  else if N.ltb c 2048 then 2
  else if N.ltb c 65536 then 3
  else 4.

Lemma utf8_len_pos c : 1 <= utf8_len c.
Proof. unfold utf8_len; repeat destruct (N.ltb _ _); lia. Qed.

(** [str::len]: length in bytes. *)
Fixpoint byte_len (s : str) : nat :=
  match s with
  | nil => 0
  | c :: r => utf8_len c + byte_len r
  end.

Lemma byte_len_app a b : byte_len (a ++ b) = byte_len a + byte_len b.
Proof. induction a as [|c a IH]; simpl; lia. Qed.

Lemma byte_len_0 s : byte_len s = 0 -> s = [].
Proof. destruct s as [|c s]; simpl; auto. pose proof (utf8_len_pos c). lia. Qed.

(** [str::get(idx..)]: the suffix starting at byte [idx], [None] if [idx] is past the end or
    not on a character boundary. *)
Fixpoint str_get_from (idx : nat) (s : str) : option str :=
  match idx with
  | 0 => Some s
  | _ => match s with
         | nil => None
         | c :: r => if Nat.leb (utf8_len c) idx then str_get_from (idx - utf8_len c) r else None
         end
  end.

Lemma str_get_from_app a b : str_get_from (byte_len a) (a ++ b) = Some b.
Proof.
  induction a as [|c a IH]; simpl.
  - destruct b; reflexivity.
  - pose proof (utf8_len_pos c).
    destruct (utf8_len c + byte_len a) as [|n] eqn:E; [lia|]. rewrite <- E.
    destruct (Nat.leb_spec (utf8_len c) (utf8_len c + byte_len a)); [|lia].
    replace (utf8_len c + byte_len a - utf8_len c) with (byte_len a) by lia. exact IH.
Qed.

Lemma str_get_from_inv idx s r : str_get_from idx s = Some r ->
  exists a, s = a ++ r /\ byte_len a = idx.
Proof.
  revert idx; induction s as [|c s IH]; intros idx H.
  - destruct idx; simpl in H; [|discriminate]. injection H as <-. exists []; auto.
  - destruct idx as [|idx].
    + simpl in H. injection H as <-. exists []; auto.
    + cbn [str_get_from] in H. destruct (Nat.leb_spec (utf8_len c) (S idx)) as [Hle|]; [|discriminate].
      apply IH in H. destruct H as (a & -> & Hl). exists (c :: a). split; [reflexivity|]. simpl. lia.
Qed.

Lemma app_byte_len_inj a a' b b' :
  a ++ b = a' ++ b' -> byte_len a = byte_len a' -> a = a' /\ b = b'.
Proof.
  revert a'; induction a as [|c a IH]; intros [|c' a'] H Hl; simpl in *.
  - auto.
  - pose proof (utf8_len_pos c'). lia.
  - pose proof (utf8_len_pos c). lia.
  - injection H as -> H. destruct (IH a' H) as [-> ->]; [lia|]. auto.
Qed.

(** [str::starts_with(&str)]. *)
Fixpoint starts_with (s p : str) {struct p} : bool :=
  match p with
  | nil => true
  | x :: p' => match s with
               | nil => false
               | y :: s' => N.eqb x y && starts_with s' p'
               end
  end.

Lemma starts_with_spec s p : starts_with s p = true <-> exists r, s = p ++ r.
Proof.
  revert s; induction p as [|x p IH]; intros s; simpl.
  - split; [intros _; exists s; reflexivity | intros _; destruct s; reflexivity].
  - destruct s as [|y s].
    + split; [discriminate|]. intros [r H]; discriminate.
    + rewrite andb_true_iff, N.eqb_eq, IH. split.
      * intros [-> [r ->]]. exists r. reflexivity.
      * intros [r H]. injection H as -> ->. split; [reflexivity|]. exists r. reflexivity.
Qed.

(** Result of code that may panic ([expect], [unwrap], arithmetic underflow, [unreachable!]).
    [OutOfFuel] only says that the model's recursion budget ran out: no claim is made about
    the real run in that case. *)
Inductive res (A : Type) : Type :=
| Ok (a : A)
| Panic
| OutOfFuel.
Arguments Ok {A} a.
Arguments Panic {A}.
Arguments OutOfFuel {A}.

Definition rbind {A B} (x : res A) (f : A -> res B) : res B :=
  match x with Ok a => f a | Panic => Panic | OutOfFuel => OutOfFuel end.
Notation "'let*' x ':=' e 'in' f" := (rbind e (fun x => f))
  (at level 200, x pattern, right associativity).

(** [Option::expect]. *)
Definition expect {A} (o : option A) : res A :=
  match o with Some a => Ok a | None => Panic end.

(** [hashbrown::HashMap], as an association list in which newer bindings shadow older ones.
    Only [get] and [insert]/[entry] are used by the code that is modelled with it. *)
Section HMap.
  Context {K V : Type} (eqb : K -> K -> bool).
  Definition hmap := list (K * V).
  Fixpoint hm_get (m : hmap) (k : K) : option V :=
    match m with
    | nil => None
    | (k', v) :: r => if eqb k' k then Some v else hm_get r k
    end.
  Definition hm_insert (m : hmap) (k : K) (v : V) : hmap := (k, v) :: m.

  Hypothesis eqb_eq : forall a b, eqb a b = true <-> a = b.
  Lemma hm_get_insert_same m k v : hm_get (hm_insert m k v) k = Some v.
  Proof. simpl. replace (eqb k k) with true; [reflexivity|]. symmetry; apply eqb_eq; reflexivity. Qed.
  Lemma hm_get_insert_other m k k' v : k <> k' -> hm_get (hm_insert m k v) k' = hm_get m k'.
  Proof. intro H. simpl. destruct (eqb k k') eqn:E; [|reflexivity]. apply eqb_eq in E; contradiction. Qed.
End HMap.
Arguments hmap : clear implicits.

(** Membership in a list by a boolean equality ([slice::contains], [HashSet::contains]). *)
Definition memb {A} (eqb : A -> A -> bool) (x : A) (l : list A) : bool := existsb (eqb x) l.

Lemma memb_In {A} (eqb : A -> A -> bool) (H : forall a b, eqb a b = true <-> a = b) x l :
  memb eqb x l = true <-> In x l.
Proof.
  unfold memb. rewrite existsb_exists. split.
  - intros (y & Hy & E). apply H in E. subst; assumption.
  - intro Hi. exists x. split; [assumption|]. apply H; reflexivity.
Qed.

Definition str_memb := memb str_eqb.
Lemma str_memb_In x l : str_memb x l = true <-> In x l.
Proof. apply memb_In, str_eqb_eq. Qed.
