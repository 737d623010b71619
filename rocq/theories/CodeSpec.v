(** Specification of writing a grammar and its input in another alphabet. *)
From Verif Require Export IterateSpec RenameSpec.

(** Every character is replaced by its code word. *)
Definition encode (c : char -> str) (s : str) : str := flat_map c s.

(** A code for the characters in [A]: no code word is empty or the beginning of another one. *)
Definition prefix_code (A : char -> Prop) (c : char -> str) : Prop :=
  (forall a, A a -> c a <> []) /\ (forall a b r, A a -> A b -> c b = c a ++ r -> a = b).

(** The terminals of the grammar consist of characters in [A]. *)
Definition written_in (A : char -> Prop) (g : grammar) : Prop :=
  forall p e s, In p g -> In e (p_rhs p) -> In (Terminal s) e -> Forall A s.

(** What a call of [next] returned, with encoded leaves. *)
Definition encode_outcome (c : char -> str) (o : res (option ptree)) : res (option ptree) :=
  match o with
  | Ok (Some t) => Ok (Some (map_leaves (encode c) t))
  | Ok None => Ok None
  | Panic => Panic
  | OutOfFuel => OutOfFuel
  end.

(** Encoded texts can be read back. *)
Definition decodable (A : char -> Prop) (c : char -> str) : Prop :=
  forall s t, Forall A s -> Forall A t -> encode c s = encode c t -> s = t.

(** The tree is among those the iterator returns. *)
Definition returns (it : piter) (t : ptree) : Prop := exists ts itf, produces it ts itf /\ In t ts.
