(** The length of the texts DepthBounded generates (C52): at most [c] characters for each expanded
    nonterminal, and a tree of [h] levels in which no node has more than [k] nonterminals below
    it has at most [1 + k + .. + k^(h-1)] of them. *)
From Verif Require Import ParseExamples.
From Verif Require Export StrategyExact SizeSpec.

Definition nonterminals_in (e : expression) : nat := weight_expr (fun t => match t with Terminal _ => 0 | Nonterminal _ => 1 end) e.
(** [1 + k + k^2 + .. + k^(h-1)]. *)
Definition nodes (k h : nat) : nat := list_sum (map (Nat.pow k) (seq 0 h)).

(** Every alternative has at most [c] characters of its own and at most [k] nonterminals; the
    names of undefined nonterminals, which are generated as they stand, have at most [c]
    characters. *)
Definition small_alternatives (g : grammar) (c k : nat) : Prop :=
  (forall p e, In p g -> In e (p_rhs p) -> weight_expr terminal_chars e <= c /\ nonterminals_in e <= k) /\
  (forall n, refers g n -> has_lhs g n \/ length n <= c).

Lemma nodes_S k h : nodes k (S h) = 1 + k * nodes k h.
Proof.
  unfold nodes. cbn [seq map]. rewrite <- seq_shift, map_map. unfold list_sum. cbn [fold_right Nat.pow]. f_equal.
  generalize (seq 0 h) as l. induction l as [|i l IH]; cbn [map fold_right]; [lia|]. rewrite IH. cbn [Nat.pow]. lia.
Qed.

Lemma expansions_length g ok c k : small_alternatives g c k -> forall h,
  (forall t w, bounded_expansion g ok h t w -> (forall n, t = Nonterminal n -> has_lhs g n \/ length n <= c) ->
     length w <= terminal_chars t + match t with Terminal _ => 0 | Nonterminal _ => c * nodes k h end).
Proof.
  intros [Hs Hu] h. induction h as [|h IH]; intros t w H Ht.
  - inversion H; subst. cbn. unfold str, char in *. lia.
  - assert (Hes : forall e w, bounded_expansions g ok h e w -> (forall n, In (Nonterminal n) e -> has_lhs g n \/ length n <= c) ->
      length w <= weight_expr terminal_chars e + nonterminals_in e * (c * nodes k h)).
    { intro e. induction e as [|t' e IHe]; intros w' H' He; inversion H'; subst; [cbn; lia|].
      rewrite app_length. unfold nonterminals_in, weight_expr, list_sum in *. cbn [map fold_right].
      match goal with A : bounded_expansion g ok h t' ?a, B : bounded_expansions g ok h e ?b |- _ =>
        pose proof (IH _ _ A (fun n E => He n (or_introl E))); pose proof (IHe _ B (fun n E => He n (or_intror E))) end.
      unfold str, char, expression in *. destruct t'; lia. }
    inversion H as [|? n Hd|? n p e ? Hf He Hx]; subst.
    + cbn. unfold str, char in *. lia.
    + destruct (Ht _ eq_refl) as [|L]; [contradiction|]. cbn [terminal_chars]. rewrite nodes_S. unfold str, char in *. nia.
    + apply first_for_In in Hf. destruct Hf as [Hin _]. destruct (Hs _ _ Hin He) as [Hc Hk].
      specialize (Hes _ _ Hx (fun n' Hn => Hu n' (ex_intro _ p (ex_intro _ e (conj Hin (conj He Hn)))))). cbn [terminal_chars]. rewrite nodes_S.
      assert (nonterminals_in e * (c * nodes k h) <= k * (c * nodes k h)) by (apply Nat.mul_le_mono_r; exact Hk).
      replace (c * (1 + k * nodes k h)) with (c + k * (c * nodes k h)) by lia.
      unfold str, char, expression in *. lia.
Qed.

Lemma depth_bounded_length : forall R (rng : rng_ops R) max accept g fuel st w st' c k,
  (forall q, In q g -> exists e, In e (p_rhs q) /\ forall n, ~ In (Nonterminal n) e) ->
  small_alternatives g c k ->
  generate (depth_bounded rng max) accept g fuel st = Ok (ROk w, st') ->
  length w <= c * nodes k (S max).
Proof.
  intros R rng max accept g fuel st w st' c k Ht Hs H.
  destruct (depth_bounded_sound rng max accept (fun _ _ => True) g fuel st w st' Ht (fun _ _ _ _ _ => I) H)
    as (n & p & rest & -> & El & Hb).
  apply (expansions_length _ _ _ _ Hs) in Hb; [exact Hb|].
  intros n' E. injection E as <-. left. exists p. split; [left; reflexivity|exact El].
Qed.

(** The bound is reached: <s> ::= 'aa..a' <s> .. <s> | 'aa..a'. *)
Definition bushy (c k : nat) : grammar :=
  let a := Terminal (repeat 97%N c) in [mkProd (N_ "s") [a :: repeat (N_ "s") k; [a]]].

Lemma bushy_expansion c k h : exists w,
  bounded_expansion (bushy c k) (fun _ _ => True) (S h) (N_ "s") w /\ length w = c * nodes k (S h).
Proof.
  assert (Hf : first_for (bushy c k) (lit "s") (mkProd (N_ "s") [Terminal (repeat 97%N c) :: repeat (N_ "s") k; [Terminal (repeat 97%N c)]])).
  { exists [], []. split; [reflexivity|]. split; [reflexivity|]. intros q []. }
  induction h as [|h (w & Hw & Lw)].
  - exists (repeat 97%N c ++ []). split.
    + eapply bx_rule; [exact Hf|right; left; reflexivity| |exact I]. constructor; constructor.
    + rewrite app_nil_r, repeat_length. unfold nodes. cbn. lia.
  - exists (repeat 97%N c ++ concat (repeat w k)). split.
    + eapply bx_rule; [exact Hf|left; reflexivity| |exact I]. constructor; [constructor|].
      clear Hf Lw. assert (G : forall j, bounded_expansions (bushy c k) (fun _ _ => True) (S h) (repeat (N_ "s") j) (concat (repeat w j))).
      { induction j; cbn; constructor; assumption. }
      apply G.
    + rewrite app_length, repeat_length, nodes_S, Nat.mul_add_distr_l, Nat.mul_1_r.
      f_equal. clear Hf Hw. assert (G : forall j, length (concat (repeat w j)) = j * length w).
      { induction j; cbn; [reflexivity|]. rewrite app_length. unfold str, char in *. lia. }
      rewrite G. unfold str, char in *. rewrite Lw. lia.
Qed.

Lemma bushy_small c k : (forall q, In q (bushy c k) -> exists e, In e (p_rhs q) /\ forall n, ~ In (Nonterminal n) e) /\
  small_alternatives (bushy c k) c k.
Proof.
  split; [|split].
  - intros q [<-|[]]. exists [Terminal (repeat 97%N c)]. split; [right; left; reflexivity|]. intros n [E|[]]. discriminate.
  - assert (G : forall j, weight_expr terminal_chars (repeat (N_ "s") j) = 0 /\ nonterminals_in (repeat (N_ "s") j) = j).
    { induction j as [|j [A B]]; [split; reflexivity|]. unfold nonterminals_in, weight_expr, list_sum in *. cbn [repeat map fold_right].
      rewrite A, B. split; reflexivity. }
    destruct (G k) as [A B]. intros p e [<-|[]] [<-|[<-|[]]]; unfold nonterminals_in, weight_expr, list_sum in *; cbn [map fold_right terminal_chars];
      rewrite repeat_length; [rewrite A, B|]; lia.
  - intros n (p & e & [<-|[]] & He & Hn). left. exists (mkProd (N_ "s") [Terminal (repeat 97%N c) :: repeat (N_ "s") k; [Terminal (repeat 97%N c)]]).
    split; [left; reflexivity|]. destruct He as [<-|[<-|[]]].
    + destruct Hn as [E|Hn]; [discriminate|]. apply repeat_spec in Hn. cbn. symmetry. exact Hn.
    + destruct Hn as [E|[]]; discriminate.
Qed.

Lemma depth_bounded_length_reached : forall c k max, exists g,
  (forall q, In q g -> exists e, In e (p_rhs q) /\ forall n, ~ In (Nonterminal n) e) /\
  small_alternatives g c k /\
  exists R (rng : rng_ops R) fuel st w st',
    generate_with_strategy (depth_bounded rng max) g fuel st = Ok (ROk w, st') /\ length w = c * nodes k (S max).
Proof.
  intros c k max. exists (bushy c k). destruct (bushy_small c k) as [Ht Hs]. split; [exact Ht|]. split; [exact Hs|].
  destruct (bushy_expansion c k max) as (w & Hw & Lw).
  apply (depth_bounded_language max (bushy c k) (lit "s") _ [] w eq_refl eq_refl) in Hw;
    [|intros q [<-|[]]; discriminate|exact Ht].
  destruct Hw as (R & rng & fuel & st & st' & H). exists R, rng, fuel, st, w, st'. split; [exact H|exact Lw].
Qed.
