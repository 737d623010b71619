(** Decimal notation of unsigned integers ([Display] of [usize] and [u32]). *)
From Verif Require Export Base.
From Coq Require Import Decimal DecimalNat DecimalN.

(** The digits of a number in the standard library's decimal representation. *)
Fixpoint uint_str (d : Decimal.uint) : str :=
  match d with
  | Decimal.Nil => []
  | Decimal.D0 d => 48%N :: uint_str d
  | Decimal.D1 d => 49%N :: uint_str d
  | Decimal.D2 d => 50%N :: uint_str d
  | Decimal.D3 d => 51%N :: uint_str d
  | Decimal.D4 d => 52%N :: uint_str d
  | Decimal.D5 d => 53%N :: uint_str d
  | Decimal.D6 d => 54%N :: uint_str d
  | Decimal.D7 d => 55%N :: uint_str d
  | Decimal.D8 d => 56%N :: uint_str d
  | Decimal.D9 d => 57%N :: uint_str d
  end.

(** [usize] and [u32] values written in decimal. *)
Definition dec (n : nat) : str := uint_str (Nat.to_uint n).
Definition dec_N (n : N) : str := uint_str (N.to_uint n).

Definition is_digit (c : char) : bool := N.leb 48 c && N.leb c 57.

Lemma uint_str_digits d : Forall (fun c => is_digit c = true) (uint_str d).
Proof. induction d; cbn; constructor; auto. Qed.

Lemma uint_str_inj d d' : uint_str d = uint_str d' -> d = d'.
Proof.
  revert d'; induction d; intros [] H; cbn in H; try discriminate; try (injection H as H; f_equal; auto); reflexivity.
Qed.

Lemma dec_inj n m : dec n = dec m -> n = m.
Proof.
  intro H. apply uint_str_inj in H. rewrite <- (DecimalNat.Unsigned.of_to n), <- (DecimalNat.Unsigned.of_to m), H. reflexivity.
Qed.

Lemma dec_digits n : Forall (fun c => is_digit c = true) (dec n).
Proof. apply uint_str_digits. Qed.
Lemma dec_N_digits n : Forall (fun c => is_digit c = true) (dec_N n).
Proof. apply uint_str_digits. Qed.

Example dec_examples : dec 0 = [48%N] /\ dec 10 = [49%N; 48%N] /\ dec_N 34 = [51%N; 52%N].
Proof. repeat split. Qed.
