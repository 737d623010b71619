(** What a random generator may come to, specified independently of the generator model. *)
From Verif Require Export WalkSpec.
From Coq Require Import Relations.

(** [drawn g ok alts d e w]: the terms [e] can be expanded to [w] at nesting depth [d], using only
    alternatives that may be drawn there, of productions with something to choose, and with texts
    that the callback accepts. *)
Inductive drawn (g : grammar) (ok : str -> str -> bool) (alts : nat -> production -> list expression) : nat -> expression -> str -> Prop :=
| dr_nil d : drawn g ok alts d [] []
| dr_terminal d s e w : drawn g ok alts d e w -> drawn g ok alts d (Terminal s :: e) (s ++ w)
| dr_undefined d n e w : ~ has_lhs g n -> drawn g ok alts d e w -> drawn g ok alts d (Nonterminal n :: e) (n ++ w)
| dr_rule d n p e0 v e w : first_for g n p -> choosable p -> In e0 (alts d p) -> drawn g ok alts (d + 1) e0 v -> ok n v = true ->
    drawn g ok alts d e w -> drawn g ok alts d (Nonterminal n :: e) (v ++ w).

(** The expansion of a nonterminal at some depth may come to that of another: it occurs in an
    alternative that may be drawn, after terms that can be expanded. *)
Definition comes_to (g : grammar) (ok : str -> str -> bool) (alts : nat -> production -> list expression) (x y : nat * str) : Prop :=
  exists p before after w, first_for g (snd x) p /\ choosable p /\ fst y = fst x + 1 /\
    In (before ++ Nonterminal (snd y) :: after) (alts (fst x) p) /\ drawn g ok alts (fst y) before w.

(** It may come to a production with nothing to choose. *)
Definition dead_end_below (g : grammar) (ok : str -> str -> bool) (alts : nat -> production -> list expression) (x : nat * str) : Prop :=
  exists y q, clos_refl_trans _ (comes_to g ok alts) x y /\ first_for g (snd y) q /\ ~ choosable q.
