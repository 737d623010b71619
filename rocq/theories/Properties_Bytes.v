(** Property C68: the operations on strings that the parser uses, defined on UTF-8 bytes as in
    Rust's core library, are the operations on lists of characters of the model. *)
From Verif Require Import Utf8 ParseExamples.
Open Scope list_scope.

(** [str::len] *)
Theorem C68_len : forall s, List.length (bytes s) = byte_len s.
Proof. exact bytes_length. Qed.
Print Assumptions C68_len.

(** [str == str] *)
Theorem C68_eq : forall a b, text a -> text b -> bytes_eqb (bytes a) (bytes b) = str_eqb a b.
Proof. exact bytes_eqb_str. Qed.
Print Assumptions C68_eq.

(** [str::starts_with] *)
Theorem C68_starts_with : forall s p, text s -> text p ->
  bytes_starts_with (bytes s) (bytes p) = starts_with s p.
Proof. exact bytes_starts_str. Qed.
Print Assumptions C68_starts_with.

(** [str::get(idx..)], including offsets inside a character and behind the end *)
Theorem C68_get_from : forall s idx, text s ->
  bytes_get_from idx (bytes s) = option_map bytes (str_get_from idx s).
Proof. exact bytes_get_str. Qed.
Print Assumptions C68_get_from.

(** The two-byte character U+00E9 between "a" and "b": offset 2 is inside it, 3 after it, 4 the end. *)
Example C68_example : let s := [97; 233; 98]%N in text s /\ bytes s = [97; 195; 169; 98]%N /\
  bytes_get_from 1 (bytes s) = Some [195; 169; 98]%N /\ bytes_get_from 2 (bytes s) = None /\
  bytes_get_from 3 (bytes s) = Some [98]%N /\ bytes_get_from 4 (bytes s) = Some [] /\
  bytes_get_from 5 (bytes s) = None /\ str_get_from 2 s = None /\ str_get_from 3 s = Some [98]%N.
Proof. split; [repeat constructor|]. do 7 (split; [vm_compute; reflexivity|]). vm_compute. reflexivity. Qed.
