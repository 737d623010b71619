(** How far into the input the parser gets. *)
From Verif Require Export EarleySpec AmbiguitySpec.

(** The texts of the leaves of a tree, from left to right. *)
Fixpoint leaves {L} (t : tree L) : list str :=
  match t with Node _ ks => flat_map leaves_node ks end
with leaves_node {L} (k : node L) : list str :=
  match k with Leaf s => [s] | Sub t => leaves t end.

(** [w] is the text of the first leaves of some tree for [start]. *)
Definition leads (g : grammar) (start : term) (w : str) : Prop :=
  exists t before after, derives g t /\ root t = start /\ leaves t = before ++ after /\ w = concat before.

(** [w] is the beginning of a text that has a parse. *)
Definition viable (g : grammar) (start : term) (w : str) : Prop := exists z t, parses g start (w ++ z) t.

(** The iterator has stored a traversal whose part of the input ends at byte [k]. *)
Definition arrives (it : piter) (k : nat) : Prop :=
  exists t, In t (tt_arena (s_tree (it_state it))) /\ total_len (t_range t) = k.

(** All terminals have one character or none. *)
Definition short_terminals (g : grammar) : Prop :=
  forall p e s, In p g -> In e (p_rhs p) -> In (Terminal s) e -> length s <= 1.

(** After [w] the text [x] goes wrong with its first terminal: no tree begins with [w] and a part of [x]. *)
Definition wrong_after (g : grammar) (start : term) (w x : str) : Prop :=
  forall x1 x2, x = x1 ++ x2 -> leads g start (w ++ x1) -> x1 = [].
