(** More facts about recognition, for C03. *)
From Verif Require Export EarleyMain.

Lemma recognition_any g start input it : opens g start input it ->
  (exists fuel t it', iter_next fuel it = Ok (Some t, it')) <-> exists t, parses g start input t.
Proof.
  intro Ho. split.
  - intros (f & t & it' & H). exists t. apply (soundness g start input it [t] it' t Ho); [|left; reflexivity].
    econstructor; [exact H|constructor].
  - intros (t & Ht). destruct (completeness _ _ _ _ _ Ho Ht) as (ts & it' & Hp & Hin). inversion Hp; subst; [destruct Hin|]. eauto.
Qed.

Lemma rejection g n input it fuel it' : opens g (Nonterminal n) input it ->
  iter_next fuel it = Ok (None, it') -> ~ generates g n input.
Proof.
  intros Ho Hn Hg. apply (recognition g n input it Ho) in Hg. destruct Hg as (f & t & it1 & H).
  pose proof (iter_next_det _ _ _ _ _ Hn H). discriminate.
Qed.

(** A rule <t> for the terminal 't', as only hand-built grammars have it. *)
Definition terminal_rule : grammar := [mkProd (Terminal [116%N]) [[Terminal [120%N]]]].
Lemma terminal_rule_parses : parses terminal_rule (Terminal [116%N]) [120%N] (Node (Terminal [116%N]) [Leaf [120%N]]).
Proof.
  split; [|split; reflexivity]. apply (derives_node terminal_rule (mkProd (Terminal [116%N]) [[Terminal [120%N]]]) [Terminal [120%N]]);
    [left; reflexivity|left; reflexivity|]. apply km_term. apply km_nil.
Qed.
