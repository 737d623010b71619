(** The derived implementations of [Hash]: what is fed to the hasher.

    [#[derive(Hash)]] feeds the discriminant of an enum as an [isize] and then the fields; a [Vec] its length
    as a [usize] and then the elements; a [String] or [&str] its bytes and then the byte 0xff; a reference
    what it refers to.  Numbers are [w] bytes each, low-order first (a big-endian machine reverses
    them).  The hashing function itself (hashbrown's default hasher) is an arbitrary function of the bytes. *)
From Verif Require Export Earley Utf8 Syntax.

(** A [usize] or a non-negative [isize]. *)
Fixpoint word (w : nat) (n : N) : list N :=
  match w with 0 => [] | S w => (n mod 256)%N :: word w (n / 256)%N end.

Section Hash.
  Variable w : nat.
  Definition hash_usize (n : nat) : list N := word w (N.of_nat n).
  Definition hash_str (s : str) : list N := bytes s ++ [255%N].
  Definition hash_vec {A} (f : A -> list N) (l : list A) : list N := hash_usize (length l) ++ flat_map f l.

  (** src/term.rs:21-28 *)
  Definition hash_term (t : term) : list N :=
    match t with
    | Terminal s => hash_usize 0 ++ hash_str s
    | Nonterminal s => hash_usize 1 ++ hash_str s
    end.
  (** src/expression.rs:14-18 *)
  Definition hash_expression (e : expression) : list N := hash_vec hash_term e.
  (** src/production.rs:17-23 *)
  Definition hash_production (p : production) : list N := hash_term (p_lhs p) ++ hash_vec hash_expression (p_rhs p).
  (** src/grammar.rs:312-316 *)
  Definition hash_grammar (g : grammar) : list N := hash_vec hash_production g.

  (** src/earley/traversal.rs:12-18 [TermMatch], 45-49 [TraversalEdge], 52-56 [TraversalRoot];
      the ids are [usize] (src/append_vec.rs:5-6). *)
  Definition hash_tmatch (m : tmatch) : list N :=
    match m with
    | MTerminal s => hash_usize 0 ++ hash_str s
    | MNonterminal id => hash_usize 1 ++ hash_usize id
    end.
  Definition hash_tedge (e : tedge) : list N := hash_tmatch (fst e) ++ hash_usize (snd e).
  Definition hash_troot (r : troot) : list N := hash_usize (fst r) ++ hash_usize (snd r).
  (** src/earley/mod.rs:240-244 [CompletionKey]. *)
  Definition hash_ckey (k : ckey) : list N := hash_term (fst k) ++ hash_usize (snd k).
End Hash.

(** A table of buckets, found by the hash of the key; within a bucket the keys are compared.  It stands for the maps of
    the crate, which insert, replace and look up, and never remove. *)
Section Table.
  Context {K V : Type}.
  Variables (eqb : K -> K -> bool) (bucket : K -> N).
  Definition table : Type := N -> list (K * V).
  Definition table_get (t : table) (k : K) : option V := hm_get eqb (t (bucket k)) k.
  Fixpoint replace_in (l : list (K * V)) (k : K) (v : V) : list (K * V) :=
    match l with
    | nil => [(k, v)]
    | (k', v') :: l => if eqb k' k then (k', v) :: l else (k', v') :: replace_in l k v
    end.
  Definition table_insert (t : table) (k : K) (v : V) : table :=
    fun b => if N.eqb b (bucket k) then replace_in (t b) k v else t b.
  (** The table and the association list of Base.v after the same insertions. *)
  Definition table_after (l : list (K * V)) : table := fold_left (fun t x => table_insert t (fst x) (snd x)) l (fun _ => []).
  Definition list_after (l : list (K * V)) : hmap K V := fold_left (fun m x => hm_insert m (fst x) (snd x)) l [].
End Table.
