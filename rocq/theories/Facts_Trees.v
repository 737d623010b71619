(** Proofs of the theorems of Properties_Trees.v that are not instances of a single lemma. *)
From Verif Require Import ParseExamples TreeProofs.

Lemma C40_tree_display_proof : forall t, exists lines,
  drawing [] (Sub t) lines /\
  display_tree t = concat (map (fun x => glyphs (fst x) ++ snd x ++ [10%N]) lines) /\
  forall lines', drawing [] (Sub t) lines' -> lines' = lines.
Proof.
  intro t. destruct (display_tree_spec t) as (lines & H1 & H2). exists lines. split; [assumption|]. split; [exact H2|].
  intros lines' H. symmetry. exact (proj1 drawing_unique _ _ _ H1 _ H).
Qed.

Lemma C42_decoding_unique_proof : forall s t t', decodes s t -> decodes s t' -> t = t'.
Proof. intros s t t' H. exact (decodes_det s t H t'). Qed.

Lemma C43_no_panic_proof : forall g start input it ts it' t,
  (forall p, In p g -> exists n, p_lhs p = Nonterminal n) ->
  opens g start input it -> produces it ts it' -> In t ts ->
  exists s, display_mermaid t = Ok s.
Proof.
  intros g start input it ts it' t Hg Ho Hp Hin. apply mermaid_no_panic.
  apply (derives_all_nonterminal g); [assumption|].
  destruct (soundness g start input it ts it' t Ho Hp Hin) as [H _]. exact H.
Qed.

Lemma C43_terminal_lhs_refuted_proof : exists g p it t it', build_parser id_order g = ROk p /\
  parse_input p (lit "b") = Ok it /\ iter_next 100 it = Ok (Some t, it') /\ display_mermaid t = Panic.
Proof.
  exists [mkProd (T_ "a") [[T_ "b"]]]. eexists _, _, _, _. split; [reflexivity|]. split; [reflexivity|].
  split; [vm_compute; reflexivity|]. reflexivity.
Qed.

