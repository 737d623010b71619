(** C102: the derived [Hash] implementations.  [code_on] and the conditions on sizes are in HashSpec.v; [w] is the number
    of bytes of a [usize]. *)
From Verif Require Import ParseExamples HashProofs.
From Coq Require String.
Import String.StringSyntax.

(** Values of each type can be read off the bytes that are fed to the hasher, also when other values follow. *)
Theorem C102_codes : forall w, 0 < w ->
  code_on term_ok (hash_term w) /\ code_on (expression_ok w) (hash_expression w) /\
  code_on (production_ok w) (hash_production w) /\ code_on (grammar_ok w) (hash_grammar w) /\
  code_on (tedge_ok w) (hash_tedge w) /\ code_on (troot_ok w) (hash_troot w) /\ code_on (ckey_ok w) (hash_ckey w).
Proof. exact all_codes. Qed.
Print Assumptions C102_codes.

(** [==] holds exactly when the bytes are the same. *)
Theorem C102_equality : forall w, 0 < w ->
  (forall x y, term_ok x -> term_ok y -> (term_eqb x y = true <-> hash_term w x = hash_term w y)) /\
  (forall x y, expression_ok w x -> expression_ok w y -> (expression_eqb x y = true <-> hash_expression w x = hash_expression w y)) /\
  (forall x y, production_ok w x -> production_ok w y -> (production_eqb x y = true <-> hash_production w x = hash_production w y)) /\
  (forall x y, grammar_ok w x -> grammar_ok w y -> (list_eqb production_eqb x y = true <-> hash_grammar w x = hash_grammar w y)) /\
  (forall x y, tedge_ok w x -> tedge_ok w y -> (tedge_eqb x y = true <-> hash_tedge w x = hash_tedge w y)) /\
  (forall x y, troot_ok w x -> troot_ok w y -> (troot_eqb x y = true <-> hash_troot w x = hash_troot w y)) /\
  (forall x y, ckey_ok w x -> ckey_ok w y -> (ckey_eqb x y = true <-> hash_ckey w x = hash_ckey w y)).
Proof. exact equal_iff_bytes. Qed.
Print Assumptions C102_equality.

(** Whatever the hashing function and the number of buckets, a table answers as the association lists of the model do. *)
Theorem C102_tables : forall K V (eqb : K -> K -> bool) (bucket : K -> N), (forall a b, eqb a b = true <-> a = b) ->
  forall (l : list (K * V)) k, table_get eqb bucket (table_after eqb bucket l) k = hm_get eqb (list_after l) k.
Proof. exact @tables_agree. Qed.
Print Assumptions C102_tables.

Example C102_example :
  expression_ok 8 [T_ "ab"; N_ "c"] /\
  hash_expression 8 [T_ "ab"; N_ "c"] =
    ([2;0;0;0;0;0;0;0] ++ [0;0;0;0;0;0;0;0; 97;98;255] ++ [1;0;0;0;0;0;0;0; 99;255])%N /\
  hash_expression 8 [T_ "a"; N_ "bc"] <> hash_expression 8 [T_ "ab"; N_ "c"] /\
  (let bucket t := (N.of_nat (List.length (hash_term 8 t)) mod 2)%N in
   table_get term_eqb bucket (table_after term_eqb bucket [(T_ "a", 1); (N_ "a", 2); (T_ "a", 3)]) (T_ "a") = Some 3).
Proof.
  split; [split; [vm_compute; reflexivity|repeat constructor]|]. split; [reflexivity|]. split; [discriminate|reflexivity].
Qed.
