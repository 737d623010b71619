(** Last steps to the theorems of Properties_Json.v. *)
From Verif Require Export JsonProofs.
From Coq Require String.
Import String.StringSyntax.

Lemma C71_round_trip_proof :
  (forall t, de_term (ser_term t) = Some t) /\ (forall e, de_expression (ser_expression e) = Some e) /\
  (forall p, de_production (ser_production p) = Some p) /\ (forall g, de_grammar (ser_grammar g) = Some g).
Proof.
  split; [intro t; apply de_term_value, ser_term_value|]. split; [intro e; apply de_expression_value, ser_expression_value|].
  split; [intro p; apply de_production_value, ser_production_value|intro g; apply de_grammar_value, ser_grammar_value].
Qed.
Lemma C71_values_proof : forall v,
  (forall t, de_term v = Some t <-> term_value t v) /\ (forall e, de_expression v = Some e <-> expression_value e v) /\
  (forall p, de_production v = Some p <-> production_value p v) /\ (forall g, de_grammar v = Some g <-> grammar_value g v).
Proof.
  intro v. split; [intro t; apply de_term_value|]. split; [intro e; apply de_expression_value|].
  split; [intro p; apply de_production_value|intro g; apply de_grammar_value].
Qed.
Lemma C72_reads_proof : forall s, (exists o, read_json s = Ok o) /\ forall v, read_json s = Ok (Some v) <-> document v s.
Proof. intro s. split; [apply read_json_total|intro v; apply read_json_document]. Qed.
Lemma grammar_from_json_total s : exists o, grammar_from_json s = Ok o.
Proof. unfold grammar_from_json. destruct (read_json_total s) as [o ->]. cbn. eauto. Qed.
Lemma grammar_from_json_spec s g : grammar_from_json s = Ok (Some g) <-> exists v, document v s /\ grammar_value g v.
Proof.
  unfold grammar_from_json. split.
  - destruct (read_json s) as [[v|]| |] eqn:E; try discriminate. cbn. intro H. injection H as H. exists v.
    split; [apply read_json_document; assumption|apply de_grammar_value; assumption].
  - intros (v & Hv & Hg). apply read_json_document in Hv. rewrite Hv. cbn. apply de_grammar_value in Hg. rewrite Hg. reflexivity.
Qed.
Lemma C72_grammars_proof : forall s, (exists o, grammar_from_json s = Ok o) /\
  forall g, grammar_from_json s = Ok (Some g) <-> exists v, document v s /\ grammar_value g v.
Proof. intro s. split; [apply grammar_from_json_total|intro g; apply grammar_from_json_spec]. Qed.
Lemma text_document v t : json_text v t -> document v t.
Proof. intro H. exists [], t, []. rewrite app_nil_r. repeat split; auto using space_nil. Qed.
Lemma C72_written_proof : forall g,
  document (ser_grammar g) (grammar_to_json g) /\ document (ser_grammar g) (grammar_to_json_pretty g) /\
  (forall c, In c (grammar_to_json g) -> (32 <= c)%N) /\
  (forall s, document (ser_grammar g) s -> length (grammar_to_json g) <= length s).
Proof.
  intro g. split; [apply text_document, write_json_text, ser_grammar_textual|].
  split; [apply text_document, pretty_json_text, ser_grammar_textual|].
  split; [apply Forall_forall, write_json_printable, ser_grammar_textual|].
  intros s (w & t & w' & -> & _ & _ & Ht). apply (proj1 json_shortest) in Ht. rewrite !app_length. unfold grammar_to_json, str, char in *. lia.
Qed.
Lemma C72_round_trip_proof : forall g,
  grammar_from_json (grammar_to_json g) = Ok (Some g) /\ grammar_from_json (grammar_to_json_pretty g) = Ok (Some g).
Proof.
  intro g. destruct (C72_written_proof g) as (H1 & H2 & _). split; apply grammar_from_json_spec; exists (ser_grammar g); (split; [assumption|apply ser_grammar_value]).
Qed.
Lemma write_char_escaped c : write_char c = escaped c.
Proof.
  destruct (N.ltb_spec c 32) as [H|H].
  - assert (Hc : In c (map N.of_nat (seq 0 32))).
    { apply in_map_iff. exists (N.to_nat c). split; [apply N2Nat.id|]. apply in_seq. lia. }
    cbn in Hc. repeat (destruct Hc as [<-|Hc]; [reflexivity|]). destruct Hc.
  - unfold escaped. rewrite (proj2 (nth_error_None _ _)); [|cbn; lia]. unfold write_char.
    destruct (N.eqb_spec c 34); [reflexivity|]. destruct (N.eqb_spec c 92); [reflexivity|].
    repeat match goal with |- context [N.eqb c ?k] => destruct (N.eqb_spec c k); [lia|] end.
    destruct (N.ltb_spec c 32); [lia|reflexivity].
Qed.
Lemma C72_escapes_proof : forall s,
  write_json (ser_term (Terminal s)) = lit "{""Terminal"":""" ++ flat_map escaped s ++ lit """}" /\
  write_json (ser_term (Nonterminal s)) = lit "{""Nonterminal"":""" ++ flat_map escaped s ++ lit """}".
Proof.
  intro s. rewrite <- (flat_map_ext _ _ write_char_escaped s). split;
    cbn -[write_char]; unfold write_string; cbn; rewrite <- ?app_assoc; reflexivity.
Qed.
