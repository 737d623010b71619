(** Property C67: the derived orders. *)
From Verif Require Import Order ParseExamples.
Open Scope list_scope.

(** Comparing strings by the bytes of their UTF-8 encoding is comparing them by code points. *)
Theorem C67_byte_order : forall a b, text a -> text b ->
  lex N.compare (bytes a) (bytes b) = lex N.compare a b.
Proof. exact bytes_order. Qed.
Print Assumptions C67_byte_order.

Theorem C67_term_order : total_order term_text term_cmp term_before.
Proof. exact term_order. Qed.
Print Assumptions C67_term_order.

Theorem C67_expression_order : total_order expression_text expression_cmp (before term_before).
Proof. exact expression_order. Qed.
Print Assumptions C67_expression_order.

(** A terminal before a nonterminal whatever the text; a beginning before the whole; U+FFFD before
    U+10000 (three bytes before four; UTF-16 would order them the other way round); "Z" before "a". *)
Example C67_example :
  term_cmp (T_ "z") (N_ "a") = Lt /\ term_cmp (T_ "ab") (T_ "a") = Gt /\
  term_cmp (Terminal [65533%N]) (Terminal [65536%N]) = Lt /\ bytes [65533%N] = [239; 191; 189]%N /\
  bytes [65536%N] = [240; 144; 128; 128]%N /\ term_cmp (N_ "Z") (N_ "a") = Lt /\
  expression_cmp [T_ "a"] [T_ "a"; T_ ""] = Lt /\ expression_cmp [N_ "a"] [T_ "b"; T_ "c"] = Gt /\
  expression_text [T_ "a"; Terminal [65536%N]].
Proof. do 8 (split; [vm_compute; reflexivity|]). repeat constructor. Qed.
