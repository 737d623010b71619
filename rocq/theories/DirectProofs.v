(** Direct recursion: from the number of self-references to an estimate (C85). *)
From Verif Require Export DirectSpec ExpectProofs.
From Coq Require Import Lia.

Section Direct.
  Variable g : grammar.
  Variable alts : nat -> production -> list expression.
  Hypothesis Hsame : forall d p, alts d p = alts 0 p.
  Hypothesis Hin : forall p e, In e (alts 0 p) -> In e (p_rhs p).
  Variable rank : str -> nat.
  Hypothesis Hrank : forall n p e m, first_for g n p -> In e (p_rhs p) -> In (Nonterminal m) e -> m = n \/ rank m < rank n.
  Hypothesis Hsub : forall n p, first_for g n p -> choosable p -> self_references n (alts 0 p) < length (alts 0 p).

  (** The load of the other nonterminals. *)
  Definition others (n : str) (W : str -> nat) (e : expression) : nat := load (fun m => if str_eqb m n then 0 else W m) e.

  Fixpoint weight (k : nat) (n : str) : nat :=
    match k with
    | 0 => 0
    | S k => match rule_of g n with
             | None => 0
             | Some p => length (alts 0 p) * (1 + list_sum (map (others n (weight k)) (alts 0 p)))
             end
    end.

  Lemma load_ext W W' e : (forall m, In (Nonterminal m) e -> W m = W' m) -> load W e = load W' e.
  Proof.
    intro H. unfold load. f_equal. apply map_ext_in. intros [s|m] Ht; [reflexivity|]. apply H, Ht.
  Qed.

  Lemma load_split n W e : load W e = others n W e + occurrences n e * W n.
  Proof.
    unfold load, others, load, occurrences. induction e as [|[s|m] e IH]; [reflexivity|exact IH|]. cbn [map filter list_sum fold_right].
    unfold list_sum in *. rewrite IH. destruct (str_eqb m n) eqn:E; [apply str_eqb_eq in E; subst m|]; cbn [length]; lia.
  Qed.

  Lemma weight_stable k : forall k' n, rank n < k -> k <= k' -> weight k' n = weight k n.
  Proof.
    induction k as [|k IH]; intros k' n Hr Hk; [lia|]. destruct k' as [|k']; [lia|]. cbn [weight]. destruct (rule_of g n) as [p|] eqn:E; [|reflexivity].
    apply rule_some in E. f_equal. f_equal. f_equal. apply map_ext_in. intros e He. unfold others. apply load_ext. intros m Hm.
    destruct (str_eqb m n) eqn:Em; [reflexivity|]. assert (m <> n) by (intro; subst; rewrite str_eqb_refl in Em; discriminate).
    destruct (Hrank n p e m E (Hin p e He) Hm) as [?|Hlt]; [congruence|]. apply IH; lia.
  Qed.

  Definition final (n : str) : nat := weight (S (rank n)) n.

  Lemma final_estimate : estimate g alts 1 (fun _ => final).
  Proof.
    intros d n p Hf Hc. rewrite Hsame. pose proof (Hsub n p Hf Hc) as Hs. set (A := alts 0 p) in *.
    assert (HW : final n = length A * (1 + list_sum (map (others n final) A))).
    { unfold final at 1. cbn [weight]. rewrite (proj2 (rule_some g n p) Hf). f_equal. f_equal. f_equal. apply map_ext_in. intros e He. unfold others. apply load_ext. intros m Hm.
      destruct (str_eqb m n) eqn:Em; [reflexivity|]. assert (m <> n) by (intro; subst; rewrite str_eqb_refl in Em; discriminate).
      destruct (Hrank n p e m Hf (Hin p e He) Hm) as [?|Hlt]; [congruence|]. unfold final. apply weight_stable; lia. }
    rewrite (map_ext _ (fun e => others n final e + occurrences n e * final n)) by (intro; apply load_split).
    rewrite sum_add, sum_scale. fold (self_references n A).
    set (o := list_sum (map (others n final) A)) in *. set (s := self_references n A) in *. set (w := final n) in *. clearbody o s w. clearbody A.
    set (a := length A) in *. clearbody a. assert (Hx : exists r, a = s + 1 + r) by (exists (a - s - 1); lia). destruct Hx as [r ->]. nia.
  Qed.
End Direct.
