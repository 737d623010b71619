(** Specification of grammars put together from others: alternation, sequence, repetition, reversal. *)
From Verif Require Export ExtendSpec GrammarSpec GenProofs.

(** [n] is the name [start] or occurs in a right hand side of [g]. *)
Definition called (start : str) (g : grammar) (n : str) : Prop :=
  n = start \/ refers g n.

(** No rule of [h] is for a name that matters to [start] in [g]. *)
Definition foreign (start : str) (g h : grammar) : Prop := forall n, called start g n -> ~ has_lhs h n.

(** A new rule in front of the rules of two grammars (or of one). *)
Definition either (n a b : str) (g h : grammar) : grammar :=
  mkProd (Nonterminal n) [[Nonterminal a]; [Nonterminal b]] :: g ++ h.
Definition in_sequence (n a b : str) (g h : grammar) : grammar :=
  mkProd (Nonterminal n) [[Nonterminal a; Nonterminal b]] :: g ++ h.
Definition repeated (n a : str) (g : grammar) : grammar :=
  mkProd (Nonterminal n) [[Terminal []]; [Nonterminal a; Nonterminal n]] :: g.

(** The names are chosen so that no rule gets into the other grammar; [n] is new. *)
Definition separate (n a b : str) (g h : grammar) : Prop :=
  foreign a g h /\ foreign b h g /\ ~ called a g n /\ ~ called b h n /\ ~ has_lhs (g ++ h) n.

(** Everything from right to left. *)
Definition mirror_term (t : term) : term := match t with Terminal s => Terminal (rev s) | Nonterminal n => Nonterminal n end.
Definition mirror_expression (e : expression) : expression := rev (map mirror_term e).
Definition mirror (g : grammar) : grammar := map (fun p => mkProd (p_lhs p) (map mirror_expression (p_rhs p))) g.
Fixpoint mirror_tree (t : ptree) : ptree := match t with Node l ks => Node l (rev (map mirror_node ks)) end
with mirror_node (k : pnode) : pnode := match k with Leaf s => Leaf (rev s) | Sub t => Sub (mirror_tree t) end.

(** [ts] is all that an iterator for [input] returns, in its order. *)
Definition all_trees (g : grammar) (start : str) (input : str) (ts : list ptree) : Prop :=
  exists it itf, opens g (Nonterminal start) input it /\ produces it ts itf /\ exhausted itf.
(** Some iterator for [input] returns a tree. *)
Definition accepts (g : grammar) (start : str) (input : str) : Prop :=
  exists it t, opens g (Nonterminal start) input it /\ returns it t.

(** A parser can be built of it. *)
Definition sound (g : grammar) : Prop := forall ho, exists p, build_parser ho g = ROk p.

(** With some choices the default strategy generates [w]. *)
Definition makes (g : grammar) (w : str) : Prop :=
  exists script fuel, generate_random script_rng (fun _ _ => true) g fuel script = Ok (ROk w, []).
(** The first rule is for [start], every name has a rule and none has two, and no rule is empty. *)
Definition tidy (start : str) (g : grammar) : Prop :=
  (exists p rest, g = p :: rest /\ p_lhs p = Nonterminal start) /\ distinct_lhs g /\ no_lone_epsilon g /\
  forall x, refers g x -> has_lhs g x.
