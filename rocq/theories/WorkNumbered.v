(** C64 for all grammars: an alternative that occurs twice counts twice, so the partial parses say
    which occurrence they use. *)
From Verif Require Export EarleyWork.
From Coq Require Import Permutation FinFun Lia.

(** Trees whose nodes bear the number of an alternative in the list of all alternatives of the grammar. *)
Inductive numbered (g : grammar) : tree nat -> Prop :=
| nb_node k l rhs kids : nth_error (flat_prods g) k = Some (l, rhs) -> numbered_kids g rhs kids -> numbered g (Node k kids)
with numbered_kids (g : grammar) : expression -> list (node nat) -> Prop :=
| nb_nil : numbered_kids g [] []
| nb_term s r ks : numbered_kids g r ks -> numbered_kids g (Terminal s :: r) (Leaf s :: ks)
| nb_nt n k rhs kids r ks : nth_error (flat_prods g) k = Some (Nonterminal n, rhs) -> numbered g (Node k kids) ->
    numbered_kids g r ks -> numbered_kids g (Nonterminal n :: r) (Sub (Node k kids) :: ks).

(** The alternative number [k], expanded where the derivation from [start] can have consumed [u], with its first
    terms matched by [ks] in the input after [u]. *)
Definition numbered_parse (g : grammar) (start : term) (input : str) (x : nat * str * list (node nat)) : Prop :=
  let '(k, u, ks) := x in
  exists l done todo w, nth_error (flat_prods g) k = Some (l, done ++ todo) /\ predicted g start l u /\
    numbered_kids g done ks /\ input = u ++ flat_map yield_node ks ++ w.

Scheme numbered_mind := Minimality for numbered Sort Prop
  with numbered_kids_mind := Minimality for numbered_kids Sort Prop.
Combined Scheme numbered_mutind from numbered_mind, numbered_kids_mind.
Scheme dvalid_mind := Minimality for dvalid Sort Prop
  with dkids_mind := Minimality for dkids Sort Prop.
Combined Scheme dvalid_mutind from dvalid_mind, dkids_mind.

Section Work.
  Variable g : grammar.
  Variable input : str.
  Variable start : term.
  Let pg := pg_new_unchecked g.
  Let Heq : pg_prods pg = flat_prods g := proj2 (pg_new_unchecked_ok g).

  Lemma numbered_dkids : (forall t, numbered g t -> dvalid pg t) /\ (forall e ks, numbered_kids g e ks -> dkids pg e ks).
  Proof.
    apply (numbered_mutind g (dvalid pg) (dkids pg)); intros; econstructor; try rewrite Heq; eassumption.
  Qed.
  Lemma dkids_numbered : (forall t, dvalid pg t -> numbered g t) /\ (forall e ks, dkids pg e ks -> numbered_kids g e ks).
  Proof.
    apply (dvalid_mutind pg (numbered g) (numbered_kids g)); intros; econstructor; try rewrite <- Heq; eassumption.
  Qed.

  Definition number_of (it : item) : nat * str * list (node nat) := (i_pid it, take_bytes (i_start it) input, i_kids it).

  Lemma number_of_eq it u w : byte_len u = i_start it -> input = u ++ yields (i_kids it) ++ w -> number_of it = (i_pid it, u, i_kids it).
  Proof. intros H2 H3. unfold number_of. rewrite <- H2, H3, take_bytes_app. reflexivity. Qed.

  Lemma number_parse it : ireach pg input start it -> numbered_parse g start input (number_of it).
  Proof.
    intro H. destruct (ireach_partial g input start it H) as (u & l & pre & rest & H1 & H2 & H3 & H4 & w & H5).
    rewrite (number_of_eq it u w H4 H5). exists l, pre, rest, w. fold pg in H1. rewrite Heq in H1.
    split; [exact H1|]. split; [exact H3|]. split; [exact (proj2 dkids_numbered _ _ H2)|exact H5].
  Qed.

  Lemma number_inj a b : ireach pg input start a -> ireach pg input start b -> number_of a = number_of b -> a = b.
  Proof.
    intros Ha Hb E.
    destruct (ireach_partial g input start a Ha) as (u & l & pre & rest & H1 & H2 & H3 & H4 & w & H5).
    destruct (ireach_partial g input start b Hb) as (u' & l' & pre' & rest' & H1' & H2' & H3' & H4' & w' & H5').
    rewrite (number_of_eq a u w H4 H5), (number_of_eq b u' w' H4' H5') in E. injection E as E1 E2 E3.
    destruct a as [pa sa ka], b as [pb sb kb]. cbn in *. congruence.
  Qed.

  Lemma numbered_closed st gh x : Inv pg input start st gh (length gh) -> numbered_parse g start input x -> In x (map number_of gh).
  Proof.
    destruct x as [[k u] ks]. intros HI (l & pre & rest & w & Hk & Hpr & Hks & Hw).
    apply (proj2 numbered_dkids) in Hks. rewrite <- Heq in Hk.
    assert (H0 : In (mkItem k (byte_len u) []) gh).
    { eapply (closed_predicted g input start st gh HI l u Hpr); [exists (yields ks ++ w); exact Hw|exact Hk]. }
    assert (H1 : In (mkItem k (byte_len u) ks) gh).
    { eapply (closed_prefix g input start st gh HI k l pre rest ks); [exact Hk|exact Hks|exact H0|]. exists u, w. split; [exact Hw|reflexivity]. }
    apply in_map_iff. exists (mkItem k (byte_len u) ks). split; [|assumption].
    exact (number_of_eq (mkItem k (byte_len u) ks) u w eq_refl Hw).
  Qed.
End Work.

Lemma numbered_so_far g start input it ts it1 : opens g start input it -> produces it ts it1 ->
  exists F, NoDup F /\ (forall x, In x F -> numbered_parse g start input x) /\
    length (tt_arena (s_tree (it_state it1))) = length F.
Proof.
  intros Ho Hp. destruct (run_summary _ _ _ _ _ _ Ho Hp) as (st0 & gh & d & ids & Hpar & HI & _).
  pose proof (inv_t _ _ _ _ _ _ HI) as HT. exists (map (number_of input) gh). split; [|split].
  - apply NoDup_map_inj; [|exact (ti_nodup _ _ _ _ _ HT)]. intros a b Ha Hb.
    apply (number_inj g input start); [exact (ti_reach _ _ _ _ _ HT a Ha)|exact (ti_reach _ _ _ _ _ HT b Hb)].
  - intros x Hx. apply in_map_iff in Hx. destruct Hx as (a & <- & Ha). apply number_parse. exact (ti_reach _ _ _ _ _ HT a Ha).
  - rewrite map_length. exact (ti_len _ _ _ _ _ HT).
Qed.

Lemma numbered_exact g start input it ts it1 f it2 : opens g start input it -> produces it ts it1 ->
  iter_next f it1 = Ok (None, it2) ->
  exists F, NoDup F /\ (forall x, In x F <-> numbered_parse g start input x) /\
    length (tt_arena (s_tree (it_state it2))) = length F.
Proof.
  intros Ho Hp He. destruct (run_summary _ _ _ _ _ _ Ho Hp) as (st0 & gh & d & ids & Hpar & HI & _).
  destruct (pg_new_unchecked_ok g) as [Hok _]. destruct it1 as [p st]; cbn [it_parser it_state] in *. subst p.
  destruct (iter_next_spec _ Hok input start (mkGP st0 (pg_new_unchecked g)) eq_refl f st gh d HI)
    as [(E & _)|[(st' & new & E & Hq & HI' & Hno)|(st' & new & id & x & E & _)]]; rewrite E in He; try discriminate.
  injection He as <-. cbn [it_state].
  pose proof (inv_t _ _ _ _ _ _ HI') as HT. exists (map (number_of input) (gh ++ new)). split; [|split].
  - apply NoDup_map_inj; [|exact (ti_nodup _ _ _ _ _ HT)]. intros a b Ha Hb.
    apply (number_inj g input start); [exact (ti_reach _ _ _ _ _ HT a Ha)|exact (ti_reach _ _ _ _ _ HT b Hb)].
  - intro x. split.
    + intro Hx. apply in_map_iff in Hx. destruct Hx as (a & <- & Ha). apply number_parse. exact (ti_reach _ _ _ _ _ HT a Ha).
    + exact (numbered_closed g input start st' (gh ++ new) x HI').
  - rewrite map_length. exact (ti_len _ _ _ _ _ HT).
Qed.

(** ** Another order of the alternatives *)
Fixpoint renumber (f : nat -> nat) (t : tree nat) : tree nat :=
  match t with Node k ks => Node (f k) (map (fun x => match x with Leaf s => Leaf s | Sub t => Sub (renumber f t) end) ks) end.
Definition renumber_node (f : nat -> nat) (x : node nat) : node nat := match x with Leaf s => Leaf s | Sub t => Sub (renumber f t) end.

Lemma renumber_inj f : Injective f -> forall t t', renumber f t = renumber f t' -> t = t'.
Proof.
  intro Hf. induction t as [k ks IH] using tree_ind'. intros [k' ks'] E. cbn [renumber] in E.
  change (Node (f k) (map (renumber_node f) ks) = Node (f k') (map (renumber_node f) ks')) in E.
  assert (E1 : f k = f k') by congruence. assert (E2 : map (renumber_node f) ks = map (renumber_node f) ks') by congruence.
  apply Hf in E1. subst k'. f_equal. clear E. revert ks' E2. induction ks as [|x ks IHk]; intros [|x' ks'] E2; cbn [map] in E2; try discriminate; [reflexivity|].
  assert (Ex : renumber_node f x = renumber_node f x') by congruence. assert (Er : map (renumber_node f) ks = map (renumber_node f) ks') by congruence.
  f_equal; [|apply IHk; [intros t Ht; apply IH; right; exact Ht|exact Er]].
  destruct x as [s|t], x' as [s'|t']; cbn [renumber_node] in Ex; try discriminate; [congruence|]. f_equal. apply IH; [left; reflexivity|congruence].
Qed.
Lemma renumber_kids_inj f ks : Injective f -> forall ks', map (renumber_node f) ks = map (renumber_node f) ks' -> ks = ks'.
Proof.
  intro Hf. induction ks as [|x ks IH]; intros [|x' ks'] E; cbn [map] in E; try discriminate; [reflexivity|].
  assert (Ex : renumber_node f x = renumber_node f x') by congruence. assert (Er : map (renumber_node f) ks = map (renumber_node f) ks') by congruence.
  f_equal; [|apply IH; exact Er].
  destruct x as [s|t], x' as [s'|t']; cbn [renumber_node] in Ex; try discriminate; [congruence|]. f_equal. apply (renumber_inj f Hf). congruence.
Qed.

Lemma renumber_yield f : forall t, yield (renumber f t) = yield t.
Proof.
  induction t as [k ks IH] using tree_ind'. cbn [renumber yield]. induction ks as [|x ks IHk]; [reflexivity|]. cbn [map flat_map].
  rewrite IHk by (intros t Ht; apply IH; right; exact Ht). f_equal. destruct x as [s|t]; [reflexivity|]. apply IH. left. reflexivity.
Qed.
Lemma renumber_yields f ks : flat_map yield_node (map (renumber_node f) ks) = flat_map yield_node ks.
Proof. induction ks as [|[s|t] ks IH]; cbn [map flat_map renumber_node yield_node]; rewrite ?IH, ?renumber_yield; reflexivity. Qed.

Lemma renumber_numbered g g' f : (forall k, nth_error (flat_prods g') k = nth_error (flat_prods g) (f k)) ->
  (forall t, numbered g' t -> numbered g (renumber f t)) /\ (forall e ks, numbered_kids g' e ks -> numbered_kids g e (map (renumber_node f) ks)).
Proof.
  intro Hf. apply (numbered_mutind g' (fun t => numbered g (renumber f t)) (fun e ks => numbered_kids g e (map (renumber_node f) ks))).
  - intros k l rhs ks Hk _ IH. rewrite Hf in Hk. exact (nb_node g (f k) l rhs _ Hk IH).
  - constructor.
  - intros s r ks _ IH. exact (nb_term g s r _ IH).
  - intros n k rhs ks r ks' Hk _ IH _ IH'. rewrite Hf in Hk. exact (nb_nt g n (f k) rhs _ r _ Hk IH IH').
Qed.

Lemma numbered_perm g g' start input F F' : Permutation (flat_prods g) (flat_prods g') -> NoDup F' ->
  (forall x, In x F <-> numbered_parse g start input x) -> (forall x, In x F' <-> numbered_parse g' start input x) -> length F' <= length F.
Proof.
  intros HP HN HF HF'. pose proof HP as HP0. apply Permutation_nth_error in HP. destruct HP as (_ & f & Hi & Hf).
  pose (h := fun x : nat * str * list (node nat) => let '(k, u, ks) := x in (f k, u, map (renumber_node f) ks)).
  rewrite <- (map_length h F'). apply NoDup_incl_length.
  - apply NoDup_map_inj; [|exact HN]. intros [[k u] ks] [[k' u'] ks'] _ _ E. cbn in E. injection E as E1 E2 E3.
    apply Hi in E1. apply (renumber_kids_inj f ks Hi) in E3. congruence.
  - intros y Hy. apply in_map_iff in Hy. destruct Hy as ([[k u] ks] & <- & Hy). apply HF' in Hy. apply HF.
    destruct Hy as (l & done & todo & w & Hk & Hpr & Hks & Hw). exists l, done, todo, w.
    split; [rewrite <- Hf; exact Hk|]. split.
    + revert Hpr. apply predicted_same. intros l0 r. split; apply Permutation_in; [apply Permutation_sym|]; exact HP0.
    + split; [exact (proj2 (renumber_numbered g g' f Hf) _ _ Hks)|]. rewrite renumber_yields. exact Hw.
Qed.

(** Only the alternatives count, with their multiplicities. *)
Lemma numbered_order g g' start input it it' ts ts' it1 it1' f f' it2 it2' :
  Permutation (flat_prods g) (flat_prods g') ->
  opens g start input it -> produces it ts it1 -> iter_next f it1 = Ok (None, it2) ->
  opens g' start input it' -> produces it' ts' it1' -> iter_next f' it1' = Ok (None, it2') ->
  length (tt_arena (s_tree (it_state it2))) = length (tt_arena (s_tree (it_state it2'))).
Proof.
  intros HP Ho Hp He Ho' Hp' He'.
  destruct (numbered_exact _ _ _ _ _ _ _ _ Ho Hp He) as (F & N & HF & ->).
  destruct (numbered_exact _ _ _ _ _ _ _ _ Ho' Hp' He') as (F' & N' & HF' & ->).
  apply Nat.le_antisymm.
  - exact (numbered_perm g' g start input F' F (Permutation_sym HP) N HF' HF).
  - exact (numbered_perm g g' start input F F' HP N' HF HF').
Qed.
