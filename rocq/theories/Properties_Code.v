(** Property C113: grammars and inputs in another alphabet. *)
From Verif Require Import Facts_Code.
From Coq Require Import String.
Import String.StringSyntax.
Open Scope string_scope.
Open Scope list_scope.

(** Call by call, with the same number of loop iterations, when every character of terminals and input is
    replaced by its word in a prefix code. *)
Theorem C113_same_calls : forall A c g start input it it' fuels,
  prefix_code A c -> written_in A g -> Forall A input ->
  opens g start input it -> opens (map_terminals (encode c) g) start (encode c input) it' ->
  solo it' fuels = map (encode_outcome c) (solo it fuels).
Proof. exact C113_same_calls_proof. Qed.
Print Assumptions C113_same_calls.

(** The same trees in the same order, ending, or not, at the same place, with the same work. *)
Theorem C113_same_trees : forall A c g start input it it' ts itf,
  prefix_code A c -> written_in A g -> Forall A input ->
  opens g start input it -> opens (map_terminals (encode c) g) start (encode c input) it' ->
  produces it ts itf ->
  exists itf', produces it' (map (map_leaves (encode c)) ts) itf' /\
    (exhausted itf <-> exhausted itf') /\ (diverges itf <-> diverges itf') /\ traversals itf' = traversals itf.
Proof. exact C113_same_trees_proof. Qed.
Print Assumptions C113_same_trees.

(** A grammar of bytes parses the bytes of a text as the grammar of characters parses its characters. *)
Theorem C113_utf8 : forall g start input it it' fuels, written_in scalar g -> text input ->
  opens g start input it -> opens (map_terminals bytes g) start (bytes input) it' ->
  solo it' fuels = map (encode_outcome utf8) (solo it fuels).
Proof. exact C113_utf8_proof. Qed.
Print Assumptions C113_utf8.

(** Other letters. *)
Theorem C113_letters : forall (A : char -> Prop) f g start input it it' fuels,
  (forall a b, A a -> A b -> f a = f b -> a = b) -> written_in A g -> Forall A input ->
  opens g start input it -> opens (map_terminals (map f) g) start (map f input) it' ->
  solo it' fuels = map (encode_outcome (fun a => [f a])) (solo it fuels).
Proof. exact C113_letters_proof. Qed.
Print Assumptions C113_letters.

(** For any code that can be decoded the encoded trees are returned, each from one tree. *)
Theorem C113_decodable : forall A c g start input it it',
  decodable A c -> written_in A g -> Forall A input ->
  opens g start input it -> opens (map_terminals (encode c) g) start (encode c input) it' ->
  (forall t', returns it' t' <-> exists t, returns it t /\ t' = map_leaves (encode c) t) /\
  (forall t1 t2, returns it t1 -> returns it t2 -> map_leaves (encode c) t1 = map_leaves (encode c) t2 -> t1 = t2).
Proof. exact C113_decodable_proof. Qed.
Print Assumptions C113_decodable.

(** But if it is not a prefix code the work may be more. *)
Theorem C113_work_refuted : exists (A : char -> Prop) c g start input it it' ts itf ts' itf',
  decodable A c /\ written_in A g /\ Forall A input /\
  opens g start input it /\ opens (map_terminals (encode c) g) start (encode c input) it' /\
  produces it ts itf /\ exhausted itf /\ produces it' ts' itf' /\ exhausted itf' /\ ts' = map (map_leaves (encode c)) ts /\
  traversals itf < traversals itf'.
Proof. exact C113_work_refuted_proof. Qed.
Print Assumptions C113_work_refuted.

(** With different code words that cannot be decoded there may be more trees. *)
Theorem C113_undecodable_refuted : exists (A : char -> Prop) c g start input it it' ts itf ts' itf',
  (forall a b, A a -> A b -> c a = c b -> a = b) /\ (forall a, A a -> c a <> []) /\ written_in A g /\ Forall A input /\
  opens g start input it /\ opens (map_terminals (encode c) g) start (encode c input) it' /\
  produces it ts itf /\ exhausted itf /\ produces it' ts' itf' /\ exhausted itf' /\ List.length ts < List.length ts'.
Proof. exact C113_undecodable_refuted_proof. Qed.
Print Assumptions C113_undecodable_refuted.

(** The bases of DNA as two binary digits each. *)
Example C113_example :
  prefix_code (alphabet bases) (code_of bases) /\ written_in (alphabet bases) bases_grammar /\ Forall (alphabet bases) (lit "CAT") /\
  encode (code_of bases) (lit "CAT") = lit "010011" /\
  map_terminals (encode (code_of bases)) bases_grammar =
    [mkProd (N_ "dna") [[N_ "base"]; [N_ "base"; N_ "dna"]];
     mkProd (N_ "base") [[T_ "00"]; [T_ "01"]; [T_ "10"]; [T_ "11"]]] /\
  (exists t, trees_of bases_grammar (N_ "dna") "CAT" 3 = [t] /\
     trees_of (map_terminals (encode (code_of bases)) bases_grammar) (N_ "dna") "010011" 3 = [map_leaves (encode (code_of bases)) t] /\
     leaves t = [lit "C"; lit "A"; lit "T"]) /\
  traversals (final_of (map_terminals (encode (code_of bases)) bases_grammar) (N_ "dna") "010011" 3) =
    traversals (final_of bases_grammar (N_ "dna") "CAT" 3) /\
  prefix_code scalar utf8 /\ bytes [97; 233; 8364]%N = [97; 195; 169; 226; 130; 172]%N.
Proof.
  split; [exact bases_code|]. split; [exact bases_written|]. split; [letters|]. split; [reflexivity|]. split; [reflexivity|].
  split; [eexists; split; [vm_compute; reflexivity|]; split; vm_compute; reflexivity|].
  split; [vm_compute; reflexivity|]. split; [exact utf8_code|]. reflexivity.
Qed.
