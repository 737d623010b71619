(** [dec] and [dec_N] write numbers in decimal. *)
From Coq Require Import Decimal DecimalNat DecimalN DecimalFacts.
From Verif Require Import TreeSpec.

Fixpoint dval (d : Decimal.uint) (acc : N) : N :=
  match d with
  | Decimal.Nil => acc
  | D0 d => dval d (10 * acc) | D1 d => dval d (10 * acc + 1) | D2 d => dval d (10 * acc + 2) | D3 d => dval d (10 * acc + 3)
  | D4 d => dval d (10 * acc + 4) | D5 d => dval d (10 * acc + 5) | D6 d => dval d (10 * acc + 6) | D7 d => dval d (10 * acc + 7)
  | D8 d => dval d (10 * acc + 8) | D9 d => dval d (10 * acc + 9)
  end%N.
Lemma dval_acc d : forall p, N.pos (Pos.of_uint_acc d p) = dval d (N.pos p).
Proof. induction d; intro p; cbn [Pos.of_uint_acc dval]; [reflexivity|..]; rewrite IHd; f_equal; lia. Qed.
Lemma dval_of d : N.of_uint d = dval d 0.
Proof. unfold N.of_uint. induction d; cbn [Pos.of_uint dval]; [reflexivity|exact IHd|..]; rewrite dval_acc; reflexivity. Qed.
Lemma uint_str_decimal d : forall h v, decimal h v -> (0 < v)%N -> decimal (h ++ uint_str d) (dval d v).
Proof.
  assert (Hone : forall (h t : str) (c : char), h ++ c :: t = (h ++ [c]) ++ t) by (intros; rewrite <- List.app_assoc; reflexivity).
  induction d; intros h v H Hv; cbn [uint_str dval]; [rewrite List.app_nil_r; exact H|..]; rewrite Hone; apply IHd; try lia;
    match goal with |- decimal (h ++ [?c]) ?x => replace x with (10 * v + (c - 48))%N by (cbn; lia) end; apply decimal_more; try assumption; lia.
Qed.
Lemma dec_N_decimal n : decimal (dec_N n) n.
Proof.
  unfold dec_N. pose proof (DecimalN.Unsigned.of_to n) as E. rewrite dval_of in E.
  pose proof (DecimalN.Unsigned.to_of (N.to_uint n)) as U. rewrite (DecimalN.Unsigned.of_to n) in U.
  set (d := N.to_uint n) in *. clearbody d. subst n.
  assert (Hd : forall (c : char) d v, (48 < c <= 57)%N -> v = (c - 48)%N -> decimal (c :: uint_str d) (dval d v)).
  { intros c d0 v Hc ->. change (c :: uint_str d0) with ([c] ++ uint_str d0). apply uint_str_decimal; [apply decimal_digit|]; lia. }
  destruct d; cbn [uint_str dval]; try (apply Hd; [lia|reflexivity]).
  - unfold unorm in U. cbn in U. discriminate.
  - unfold unorm in U. cbn in U. destruct (nzhead d) eqn:Ez; try discriminate.
    + injection U as ->. cbn. apply (decimal_digit 48). lia.
    + exfalso. clear - Ez. induction d; cbn in Ez; try discriminate. auto.
Qed.
Lemma decimal_fun s v : decimal s v -> forall s' v', decimal s' v' -> v' = v -> s' = s.
Proof.
  intro H. induction H as [c Hc|s v c H IH Hv Hc]; intros s' v' H' E; destruct H' as [d Hd|s1 v1 d H1 Hv1 Hd]; unfold char in *.
  - f_equal. lia.
  - lia.
  - lia.
  - rewrite (IH s1 v1 H1) by lia. do 2 f_equal. lia.
Qed.
Lemma dval_nat d : forall a, N.of_nat (Nat.of_uint_acc d a) = dval d (N.of_nat a).
Proof. induction d; intro a; cbn [Nat.of_uint_acc dval]; [reflexivity|..]; rewrite IHd; f_equal; rewrite Nat.tail_mul_spec; lia. Qed.
Lemma dec_dec_N n : dec n = dec_N (N.of_nat n).
Proof.
  unfold dec, dec_N. f_equal. pose proof (DecimalNat.Unsigned.of_to n) as E. pose proof (DecimalNat.Unsigned.to_of (Nat.to_uint n)) as U.
  rewrite E in U. rewrite <- E at 2. unfold Nat.of_uint. rewrite dval_nat. change (N.of_nat 0) with 0%N. rewrite <- (dval_of (Nat.to_uint n)), DecimalN.Unsigned.to_of. exact U.
Qed.
Lemma dec_decimal n : decimal (dec n) (N.of_nat n).
Proof. rewrite dec_dec_N. apply dec_N_decimal. Qed.
Lemma C41_numbers_proof : forall s n, (decimal s n <-> s = dec_N n) /\ (forall m, n = N.of_nat m -> dec m = dec_N n).
Proof.
  intros s n. split; [|intros m ->; apply dec_dec_N]. split; [|intros ->; apply dec_N_decimal].
  intro H. exact (decimal_fun _ _ (dec_N_decimal n) _ _ H eq_refl).
Qed.
