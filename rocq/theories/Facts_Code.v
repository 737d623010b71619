(** Proofs of the statements of Properties_Code.v. *)
From Verif Require Export CodeProofs Utf8 ParseExamples.
From Verif Require Export Facts_Iterate PrefixSpec.
From Coq Require Import String.
Import String.StringSyntax.
Open Scope string_scope.
Open Scope list_scope.

Lemma C113_same_calls_proof : forall A c g start input it it' fuels,
  prefix_code A c -> written_in A g -> Forall A input ->
  opens g start input it -> opens (map_terminals (encode c) g) start (encode c input) it' ->
  solo it' fuels = map (encode_outcome c) (solo it fuels).
Proof.
  intros A c g start input it it' fuels Hc Hg Hi Ho Ho'.
  destruct (opens_corresponds _ _ _ _ _ _ _ Hc Hg Hi Ho Ho') as (Hco & Hby & Hpr).
  eapply corresponds_solo; eassumption.
Qed.

Lemma C113_same_trees_proof : forall A c g start input it it' ts itf,
  prefix_code A c -> written_in A g -> Forall A input ->
  opens g start input it -> opens (map_terminals (encode c) g) start (encode c input) it' ->
  produces it ts itf ->
  exists itf', produces it' (map (map_leaves (encode c)) ts) itf' /\
    (exhausted itf <-> exhausted itf') /\ (diverges itf <-> diverges itf') /\ traversals itf' = traversals itf.
Proof.
  intros A c g start input it it' ts itf Hc Hg Hi Ho Ho' Hp.
  destruct (opens_corresponds _ _ _ _ _ _ _ Hc Hg Hi Ho Ho') as (Hco & Hby & Hpr).
  destruct (corresponds_produces _ _ Hc _ Hi _ _ Hby Hpr _ _ _ Hp _ Hco) as (itf' & Hp' & Hco').
  exists itf'. split; [exact Hp'|].
  split; [exact (corresponds_exhausted _ _ Hc _ Hi _ _ Hby Hpr _ _ Hco')|].
  split; [exact (corresponds_diverges _ _ Hc _ Hi _ _ Hby Hpr _ _ Hco')|].
  eapply corresponds_traversals; exact Hco'.
Qed.

Lemma utf8_code : prefix_code scalar utf8.
Proof.
  split.
  - intros a _ E. destruct (utf8_nonempty a) as (b & r & F). congruence.
  - intros a b r Ha Hb E. assert (H : utf8 b ++ [] = utf8 a ++ r) by (rewrite app_nil_r; exact E).
    apply utf8_prefix_free in H; [|assumption|assumption]. symmetry. apply H.
Qed.

Lemma C113_utf8_proof : forall g start input it it' fuels, written_in scalar g -> text input ->
  opens g start input it -> opens (map_terminals bytes g) start (bytes input) it' ->
  solo it' fuels = map (encode_outcome utf8) (solo it fuels).
Proof. intros g start input it it' fuels. exact (C113_same_calls_proof scalar utf8 g start input it it' fuels utf8_code). Qed.

Lemma encode_letters f s : encode (fun a => [f a]) s = map f s.
Proof. induction s as [|a s IH]; cbn; [reflexivity|]. f_equal; exact IH. Qed.

Lemma letters_code (A : char -> Prop) f : (forall a b, A a -> A b -> f a = f b -> a = b) -> prefix_code A (fun a => [f a]).
Proof. intro H. split; [discriminate|]. intros a b r Ha Hb E. injection E as E _. apply H; auto. Qed.

Lemma map_terminals_ext h h' g : (forall s, h s = h' s) -> map_terminals h g = map_terminals h' g.
Proof.
  intro H. apply map_ext. intro p. unfold map_production. f_equal. apply map_ext. intro e. apply map_ext.
  intros [s|n]; cbn; [rewrite H|]; reflexivity.
Qed.

Lemma C113_letters_proof : forall (A : char -> Prop) f g start input it it' fuels,
  (forall a b, A a -> A b -> f a = f b -> a = b) -> written_in A g -> Forall A input ->
  opens g start input it -> opens (map_terminals (map f) g) start (map f input) it' ->
  solo it' fuels = map (encode_outcome (fun a => [f a])) (solo it fuels).
Proof.
  intros A f g start input it it' fuels Hf Hg Hi Ho Ho'.
  apply (C113_same_calls_proof A _ g start input it it' fuels (letters_code A f Hf) Hg Hi Ho).
  rewrite encode_letters, (map_terminals_ext _ (map f)) by apply encode_letters. exact Ho'.
Qed.

(** ** Codes that can be decoded *)
Lemma prefix_decodable A c : prefix_code A c -> decodable A c.
Proof. intros Hc s t. apply encode_inj. exact Hc. Qed.

Lemma map_leaves_Node h l ks : map_leaves h (Node l ks) = Node l (map (map_leaves_node h) ks).
Proof. reflexivity. Qed.
Lemma leaves_Node {L} (l : L) ks : leaves (Node l ks) = flat_map leaves_node ks.
Proof. reflexivity. Qed.

Lemma leaves_in (A : char -> Prop) g : written_in A g ->
  (forall t, derives g t -> Forall (Forall A) (leaves t)) /\
  (forall e ks, kids_match g e ks -> (forall s, In (Terminal s) e -> Forall A s) -> Forall (Forall A) (flat_map leaves_node ks)).
Proof.
  intro Hg. apply (IterateProofs.derives_mutind g (fun t => Forall (Forall A) (leaves t))
    (fun e ks => (forall s, In (Terminal s) e -> Forall A s) -> Forall (Forall A) (flat_map leaves_node ks))).
  - intros p rhs kids Hp Hr _ IH. rewrite leaves_Node. apply IH. intros s Hs. exact (Hg p rhs s Hp Hr Hs).
  - constructor.
  - intros s r ks _ IH H. cbn [flat_map]. change (leaves_node (@Leaf term s)) with [s]. constructor.
    + apply H. left; reflexivity.
    + apply IH. intros x Hx. apply H. right; exact Hx.
  - intros n t r ks _ _ IHt _ IH H. cbn [flat_map]. apply Forall_app. split; [exact IHt|].
    apply IH. intros x Hx. apply H. right; exact Hx.
Qed.

Lemma yield_leaves (t : ptree) : yield t = List.concat (leaves t).
Proof.
  induction t as [l ks IH] using tree_ind'. rewrite leaves_Node. cbn [yield].
  induction ks as [|k ks IHk]; [reflexivity|]. cbn [flat_map]. rewrite concat_app, IHk by (intros; apply IH; right; assumption).
  f_equal. destruct k as [s|t]; [cbn; rewrite app_nil_r; reflexivity|]. apply (IH t). left; reflexivity.
Qed.

Lemma leaves_map h (t : ptree) : leaves (map_leaves h t) = map h (leaves t).
Proof.
  induction t as [l ks IH] using tree_ind'. rewrite map_leaves_Node, !leaves_Node.
  induction ks as [|k ks IHk]; [reflexivity|]. cbn [flat_map map]. rewrite map_app, IHk by (intros; apply IH; right; assumption).
  f_equal. destruct k as [s|t]; [reflexivity|]. apply (IH t). left; reflexivity.
Qed.

Lemma concat_encode c l : List.concat (map (encode c) l) = encode c (List.concat l).
Proof. induction l as [|s l IH]; cbn; [reflexivity|]. rewrite IH. symmetry. apply encode_app. Qed.

Lemma Forall_concat' {X} (P : X -> Prop) l : Forall (Forall P) l -> Forall P (List.concat l).
Proof. induction 1; cbn; [constructor|]. apply Forall_app. auto. Qed.

Lemma map_leaves_inj A c (t : ptree) : decodable A c -> forall t', Forall (Forall A) (leaves t) -> Forall (Forall A) (leaves t') ->
  map_leaves (encode c) t = map_leaves (encode c) t' -> t = t'.
Proof.
  intro Hc. induction t as [l ks IH] using tree_ind'. intros [l' ks']. rewrite !map_leaves_Node, !leaves_Node.
  intros H H' E. injection E as -> E. f_equal. revert ks' H' E.
  induction ks as [|k ks IHk]; intros [|k' ks'] H' E; try discriminate; [reflexivity|].
  cbn [map flat_map] in *. injection E as E1 E2. apply Forall_app in H, H'. destruct H as [H1 H2]. destruct H' as [H1' H2'].
  f_equal; [|apply IHk; auto; intros; apply IH; [right; assumption|assumption..]].
  destruct k as [s|t], k' as [s'|t']; try discriminate.
  - cbn in E1. injection E1 as E1. f_equal. inversion H1; inversion H1'; subst. apply Hc; assumption.
  - injection E1 as E1. f_equal. apply (IH t); [left; reflexivity|exact H1|exact H1'|exact E1].
Qed.

Lemma C113_decodable_proof : forall A c g start input it it',
  decodable A c -> written_in A g -> Forall A input ->
  opens g start input it -> opens (map_terminals (encode c) g) start (encode c input) it' ->
  (forall t', returns it' t' <-> exists t, returns it t /\ t' = map_leaves (encode c) t) /\
  (forall t1 t2, returns it t1 -> returns it t2 -> map_leaves (encode c) t1 = map_leaves (encode c) t2 -> t1 = t2).
Proof.
  intros A c g start input it it' Hc Hg Hi Ho Ho'.
  assert (R : forall t, returns it t <-> parses g start input t).
  { intro t. split.
    - intros (ts & itf & Hp & Ht). exact (soundness _ _ _ _ _ _ _ Ho Hp Ht).
    - intro Hp. exact (completeness _ _ _ _ _ Ho Hp). }
  split.
  - intro t'. unfold returns at 1. rewrite (C80_trees_proof (encode c) g start (encode c input) it' Ho' t'). split.
    + intros (t & Hd & Hr & -> & Hy). exists t. split; [|reflexivity]. apply R. split; [exact Hd|]. split; [exact Hr|].
      rewrite yield_leaves, leaves_map, concat_encode in Hy. rewrite yield_leaves. apply Hc; [|assumption|exact Hy].
      apply Forall_concat', (proj1 (leaves_in A g Hg)), Hd.
    + intros (t & Ht & ->). apply R in Ht. destruct Ht as (Hd & Hr & Hy). exists t. repeat split; try assumption.
      rewrite yield_leaves, leaves_map, concat_encode, <- yield_leaves, Hy. reflexivity.
  - intros t1 t2 H1 H2. apply R in H1, H2.
    apply (map_leaves_inj A c t1 Hc); apply (proj1 (leaves_in A g Hg)); [apply H1|apply H2].
Qed.

(** ** Examples *)
Definition code_of (l : list (char * String.string)) (a : char) : str :=
  match find (fun x => N.eqb (fst x) a) l with Some x => lit (snd x) | None => [] end.
Definition alphabet (l : list (char * String.string)) (a : char) : Prop := In a (map fst l).

Definition bases : list (char * String.string) := [(65%N, "00"); (67%N, "01"); (71%N, "10"); (84%N, "11")].
Definition bases_grammar : grammar :=
  [mkProd (N_ "dna") [[N_ "base"]; [N_ "base"; N_ "dna"]];
   mkProd (N_ "base") [[T_ "A"]; [T_ "C"]; [T_ "G"]; [T_ "T"]]].

(** Code words of which one is the beginning of another, but no two texts have the same encoding. *)
Definition suffix_code : list (char * String.string) := [(97%N, "0"); (98%N, "01"); (120%N, "2")].
Definition suffix_grammar : grammar := [mkProd (N_ "s") [[T_ "a"; N_ "t"]; [T_ "b"]]; mkProd (N_ "t") [[T_ "x"]]].
(** Two texts with the same encoding. *)
Definition unary_code : list (char * String.string) := [(97%N, "1"); (98%N, "11")].
Definition unary_grammar : grammar := [mkProd (N_ "s") [[T_ "a"; T_ "a"]; [T_ "b"]]].

Lemma bases_code : prefix_code (alphabet bases) (code_of bases).
Proof.
  split.
  - intros a Ha. cbn in Ha. destruct Ha as [<-|[<-|[<-|[<-|[]]]]]; discriminate.
  - intros a b r Ha Hb. cbn in Ha, Hb.
    destruct Ha as [<-|[<-|[<-|[<-|[]]]]], Hb as [<-|[<-|[<-|[<-|[]]]]]; vm_compute; intro E; first [reflexivity|discriminate].
Qed.

Ltac letters := repeat (apply Forall_cons || apply Forall_nil); cbn; tauto.

Lemma bases_written : written_in (alphabet bases) bases_grammar.
Proof.
  intros p e s Hp He Hs. cbn in Hp. destruct Hp as [<-|[<-|[]]]; cbn in He;
    repeat (destruct He as [<-|He]; [cbn in Hs; repeat (destruct Hs as [Hs|Hs]; [try discriminate; injection Hs as <-; letters|]); destruct Hs|]); destruct He.
Qed.

Lemma suffix_decodable : decodable (alphabet suffix_code) (code_of suffix_code).
Proof.
  intros s. induction s as [|a s IH]; intros t Hs Ht E.
  - destruct t as [|b t]; [reflexivity|]. inversion Ht as [|? ? Hb _]; subst. cbn in Hb.
    destruct Hb as [<-|[<-|[<-|[]]]]; discriminate.
  - inversion Hs as [|? ? Ha Hs']; subst. destruct t as [|b t].
    + cbn in Ha. destruct Ha as [<-|[<-|[<-|[]]]]; discriminate.
    + inversion Ht as [|? ? Hb Ht']; subst. cbn in Ha, Hb.
      assert (N : forall u, Forall (alphabet suffix_code) u -> forall r, encode (code_of suffix_code) u <> 49%N :: r).
      { intros u Hu r. destruct u as [|d u]; [discriminate|]. inversion Hu as [|? ? Hd _]; subst. cbn in Hd.
        destruct Hd as [<-|[<-|[<-|[]]]]; discriminate. }
      assert (E' : code_of suffix_code a ++ encode (code_of suffix_code) s = code_of suffix_code b ++ encode (code_of suffix_code) t) by exact E.
      specialize (IH t Hs' Ht'). pose proof (N s Hs') as Ns. pose proof (N t Ht') as Nt. clear N E.
      remember (encode (code_of suffix_code) s) as x eqn:Ex. remember (encode (code_of suffix_code) t) as y eqn:Ey. clear Ex Ey.
      destruct Ha as [<-|[<-|[<-|[]]]], Hb as [<-|[<-|[<-|[]]]]; vm_compute in E'; try discriminate; injection E' as E';
        first [f_equal; apply IH; exact E'|exfalso; eapply Ns; exact E'|exfalso; eapply Nt; symmetry; exact E'].
Qed.

Lemma suffix_written : written_in (alphabet suffix_code) suffix_grammar.
Proof.
  intros p e s Hp He Hs. cbn in Hp. destruct Hp as [<-|[<-|[]]]; cbn in He;
    repeat (destruct He as [<-|He]; [cbn in Hs; repeat (destruct Hs as [Hs|Hs]; [try discriminate; injection Hs as <-; letters|]); destruct Hs|]); destruct He.
Qed.

Lemma unary_written : written_in (alphabet unary_code) unary_grammar.
Proof.
  intros p e s Hp He Hs. cbn in Hp. destruct Hp as [<-|[]]; cbn in He;
    repeat (destruct He as [<-|He]; [cbn in Hs; repeat (destruct Hs as [Hs|Hs]; [try discriminate; injection Hs as <-; letters|]); destruct Hs|]); destruct He.
Qed.

Lemma C113_work_refuted_proof : exists (A : char -> Prop) c g start input it it' ts itf ts' itf',
  decodable A c /\ written_in A g /\ Forall A input /\
  opens g start input it /\ opens (map_terminals (encode c) g) start (encode c input) it' /\
  produces it ts itf /\ exhausted itf /\ produces it' ts' itf' /\ exhausted itf' /\ ts' = map (map_leaves (encode c)) ts /\
  traversals itf < traversals itf'.
Proof.
  destruct (run_facts suffix_grammar (N_ "s") "b" 2) as (H1 & H2 & H3); [vm_compute; reflexivity..|].
  destruct (run_facts (map_terminals (encode (code_of suffix_code)) suffix_grammar) (N_ "s") "01" 2) as (F1 & F2 & F3); [vm_compute; reflexivity..|].
  exists (alphabet suffix_code), (code_of suffix_code), suffix_grammar, (N_ "s"), (lit "b"). eexists _, _, _, _, _, _.
  split; [exact suffix_decodable|]. split; [exact suffix_written|]. split; [letters|].
  split; [exact H1|]. split; [exact F1|]. split; [exact H2|]. split; [apply H3; vm_compute; reflexivity|].
  split; [exact F2|]. split; [apply F3; vm_compute; reflexivity|]. split; [vm_compute; reflexivity|]. vm_compute. lia.
Qed.

Lemma C113_undecodable_refuted_proof : exists (A : char -> Prop) c g start input it it' ts itf ts' itf',
  (forall a b, A a -> A b -> c a = c b -> a = b) /\ (forall a, A a -> c a <> []) /\ written_in A g /\ Forall A input /\
  opens g start input it /\ opens (map_terminals (encode c) g) start (encode c input) it' /\
  produces it ts itf /\ exhausted itf /\ produces it' ts' itf' /\ exhausted itf' /\ List.length ts < List.length ts'.
Proof.
  destruct (run_facts unary_grammar (N_ "s") "b" 3) as (H1 & H2 & H3); [vm_compute; reflexivity..|].
  destruct (run_facts (map_terminals (encode (code_of unary_code)) unary_grammar) (N_ "s") "11" 3) as (F1 & F2 & F3); [vm_compute; reflexivity..|].
  exists (alphabet unary_code), (code_of unary_code), unary_grammar, (N_ "s"), (lit "b"). eexists _, _, _, _, _, _.
  split; [intros a b Ha Hb; cbn in Ha, Hb; destruct Ha as [<-|[<-|[]]], Hb as [<-|[<-|[]]]; vm_compute; intro E; first [reflexivity|discriminate]|].
  split; [intros a Ha; cbn in Ha; destruct Ha as [<-|[<-|[]]]; discriminate|].
  split; [exact unary_written|]. split; [letters|].
  split; [exact H1|]. split; [exact F1|]. split; [exact H2|]. split; [apply H3; vm_compute; reflexivity|].
  split; [exact F2|]. split; [apply F3; vm_compute; reflexivity|]. vm_compute. lia.
Qed.
