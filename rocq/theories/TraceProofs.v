(** The generator follows [dialogue] (TraceSpec.v), and every [dialogue] is a run of it. *)
From Verif Require Export TraceSpec GenProofs.
From Coq Require Import Lia.

Definition bad_error : error := GenerateError msg_no_alternative.
Definition none_error : error := GenerateError msg_no_selection.

Lemma choosable_spec p : production_has_no_choice p = false <-> choosable p.
Proof.
  unfold production_has_no_choice, choosable. split.
  - destruct (p_rhs p) as [|[|t e] [|e' r]]; intro H; try discriminate H; split; discriminate.
  - intros [H1 H2]. destruct (p_rhs p) as [|[|t e] [|e1 r]]; try reflexivity; [destruct (H1 eq_refl)|destruct (H2 eq_refl)].
Qed.
Lemma not_choosable_spec p : production_has_no_choice p = true <-> ~ choosable p.
Proof. rewrite <- choosable_spec. destruct (production_has_no_choice p); split; congruence. Qed.

(** ** Recording *)

(** The strategy and the callback, unchanged, with a record of the questions and answers (latest
    first). *)
Definition traced_choose {S} (choose : S -> nat -> production -> nat -> res (option expression * S))
    (sl : S * list event) addr p depth : res (option expression * (S * list event)) :=
  let* (o, st) := choose (fst sl) addr p depth in Ok (o, (st, Chose p depth o :: snd sl)).
Definition traced_accept {S} (accept : S -> str -> str -> bool * S) (sl : S * list event) n w
    : bool * (S * list event) :=
  let '(b, st) := accept (fst sl) n w in (b, (st, Asked n w b :: snd sl)).

Section Traced.
  Context {S : Type}.
  Variable choose : S -> nat -> production -> nat -> res (option expression * S).
  Variable accept : S -> str -> str -> bool * S.
  Variable g : grammar.

  Lemma eval_terms_traced d (ev : term -> S -> res (result str * S))
      (ev' : term -> S * list event -> res (result str * (S * list event))) :
    (forall s st, ev (Terminal s) st = Ok (ROk s, st)) -> (forall s st, ev' (Terminal s) st = Ok (ROk s, st)) ->
    (forall n st log r st', ev (Nonterminal n) st = Ok (r, st') -> exists evs,
       ev' (Nonterminal n) (st, log) = Ok (r, (st', rev evs ++ log)) /\ dialogue g bad_error none_error d n evs r) ->
    forall e acc st log r st', eval_terms ev e acc st = Ok (r, st') -> exists evs r',
      eval_terms ev' e acc (st, log) = Ok (r, (st', rev evs ++ log)) /\ dialogues g bad_error none_error d e evs r' /\
      r = match r' with ROk w => ROk (acc ++ w) | RErr x => RErr x end.
  Proof.
    intros Ht Ht' Hn. induction e as [|t e IH]; intros acc st log r st' H; cbn [eval_terms] in *.
    - injection H as <- <-. exists [], (ROk []). rewrite app_nil_r. split; [reflexivity|]. split; [constructor|reflexivity].
    - destruct t as [s|n].
      + rewrite Ht in H. rewrite Ht'. cbn [rbind] in *. destruct (IH _ _ log _ _ H) as (evs & r' & E & Hd & ->).
        exists evs. destruct r' as [w|x].
        * exists (ROk (s ++ w)). rewrite (app_assoc acc). split; [exact E|]. split; [constructor; assumption|reflexivity].
        * exists (RErr x). split; [exact E|]. split; [constructor; assumption|reflexivity].
      + destruct (ev (Nonterminal n) st) as [[r1 st1]| |] eqn:En; cbn [rbind] in H; try discriminate.
        destruct (Hn _ _ log _ _ En) as (evs1 & E1 & Hd1). rewrite E1. cbn [rbind]. destruct r1 as [v|x].
        * destruct (IH _ _ (rev evs1 ++ log) _ _ H) as (evs & r' & E & Hd & ->).
          exists (evs1 ++ evs). rewrite rev_app_distr, <- app_assoc. destruct r' as [w|x].
          -- exists (ROk (v ++ w)). rewrite (app_assoc acc). split; [exact E|]. split; [constructor; assumption|reflexivity].
          -- exists (RErr x). split; [exact E|]. split; [econstructor; eassumption|reflexivity].
        * injection H as <- <-. exists evs1, (RErr x). split; [reflexivity|]. split; [constructor; assumption|reflexivity].
  Qed.

  Lemma traverse_traced fuel : forall n st d log r st',
    traverse choose accept g fuel n st d = Ok (r, st') -> exists evs,
      traverse (traced_choose choose) (traced_accept accept) g fuel n (st, log) d = Ok (r, (st', rev evs ++ log)) /\
      dialogue g bad_error none_error d n evs r.
  Proof.
    induction fuel as [|fuel IH]; intros n st d log r st' H; [discriminate|]. cbn [traverse] in *.
    destruct (find_production g n 0) as [[ix p]|] eqn:Ef.
    2:{ injection H as <- <-. exists []. split; [reflexivity|]. constructor. eapply find_production_None; exact Ef. }
    assert (Hf : first_for g n p) by (apply find_production_Some in Ef; apply Ef).
    destruct (production_has_no_choice p) eqn:Ep.
    { injection H as <- <-. exists []. split; [reflexivity|]. apply (dl_bad _ _ _ _ _ p); [assumption|].
      apply not_choosable_spec. assumption. }
    apply choosable_spec in Ep. unfold traced_choose at 1. cbn [fst snd].
    destruct (choose st ix p d) as [[o st1]| |]; cbn [rbind] in H |- *; try discriminate.
    destruct o as [e|].
    2:{ injection H as <- <-. exists [Chose p d None]. split; [reflexivity|]. apply dl_none; assumption. }
    match type of H with context [eval_terms ?ev e [] st1] => set (ev0 := ev) in * end.
    match goal with |- context [eval_terms ?ev e [] (st1, _)] => set (ev1 := ev) end.
    destruct (eval_terms ev0 e [] st1) as [[r1 st2]| |] eqn:Ee; cbn [rbind] in H; try discriminate.
    destruct (eval_terms_traced (d + 1) ev0 ev1 (fun _ _ => eq_refl) (fun _ _ => eq_refl)
      (fun n st log r st' H => IH n st (d + 1) log r st' H) _ _ _ (Chose p d (Some e) :: log) _ _ Ee) as (evs & r' & E1 & Hd & ->).
    rewrite E1. cbn [rbind]. destruct r' as [w|x].
    2:{ injection H as <- <-. exists (Chose p d (Some e) :: evs). cbn [rev]. rewrite <- app_assoc. split; [reflexivity|].
        apply dl_error; assumption. }
    cbn [app] in *. unfold traced_accept at 1. cbn [fst snd].
    destruct (accept st2 n w) as [[|] st3] eqn:Ea.
    - injection H as <- <-. exists (Chose p d (Some e) :: evs ++ [Asked n w true]). split.
      + cbn [rev]. rewrite rev_app_distr. cbn [rev app]. rewrite <- app_assoc. reflexivity.
      + apply dl_accept; assumption.
    - destruct (IH n st3 d (Asked n w false :: rev evs ++ Chose p d (Some e) :: log) _ _ H) as (evs2 & E2 & Hd2).
      exists (Chose p d (Some e) :: evs ++ Asked n w false :: evs2). rewrite E2. split.
      + cbn [rev]. rewrite rev_app_distr. cbn [rev]. rewrite <- !app_assoc. reflexivity.
      + apply dl_reject; assumption.
  Qed.

  Lemma generate_traced fuel st r st' : generate choose accept g fuel st = Ok (r, st') -> exists evs,
    generate (traced_choose choose) (traced_accept accept) g fuel (st, []) = Ok (r, (st', rev evs)) /\
    ((evs = [] /\ st' = st /\ exists m, r = RErr (GenerateError m)) \/
     exists n p rest, g = p :: rest /\ p_lhs p = Nonterminal n /\ dialogue g bad_error none_error 0 n evs r).
  Proof.
    unfold generate. destruct (terminates fuel g) as [[|]| |]; cbn [rbind negb]; try discriminate.
    2:{ intro H. injection H as <- <-. exists []. split; [reflexivity|]. left. eauto. }
    destruct g as [|p rest] eqn:Eg; [intro H; injection H as <- <-; exists []; split; [reflexivity|]; left; eauto|].
    destruct (p_lhs p) as [s|n] eqn:El.
    { intro H; injection H as <- <-; exists []; split; [reflexivity|]. left; eauto. }
    rewrite <- Eg in *. intro H. destruct (traverse_traced fuel n st 0 [] _ _ H) as (evs & E & Hd).
    exists evs. rewrite app_nil_r in E. split; [exact E|]. right. exists n, p, rest. auto.
  Qed.
End Traced.

(** ** Replaying *)

(** The strategy and the callback that give the recorded answers, if asked the recorded questions. *)
Definition event_eq_dec : forall a b : event, {a = b} + {a <> b}.
Proof.
  assert (Hs : forall a b : str, {a = b} + {a <> b}) by (apply list_eq_dec; apply N.eq_dec).
  decide equality; try apply Bool.bool_dec; try apply Nat.eq_dec; try apply Hs; try apply production_eq_dec.
  decide equality. apply expression_eq_dec.
Defined.

Definition replay_choose (st : list event) (addr : nat) (p : production) (depth : nat)
    : res (option expression * list event) :=
  match st with
  | Chose q d o :: st => if event_eq_dec (Chose q d o) (Chose p depth o) then Ok (o, st) else Panic
  | _ => Panic
  end.
Definition replay_accept (st : list event) (n w : str) : bool * list event :=
  match st with
  | Asked n' w' b :: st => if event_eq_dec (Asked n' w' b) (Asked n w b) then (b, st) else (true, [Asked n w true])
  | _ => (true, [Asked n w true])
  end.

Section Replay.
  Variable g : grammar.
  Let trav := traverse replay_choose replay_accept g.

  Lemma find_production_first n p : first_for g n p -> exists ix, find_production g n 0 = Some (ix, p).
  Proof.
    intros (b & a & E & Hp & Hb). destruct (find_production g n 0) as [[ix q]|] eqn:Ef.
    - exists ix. do 2 f_equal. apply find_production_Some in Ef.
      assert (Hq : first_for g n q) by apply Ef. destruct Hq as (b' & a' & E' & Hq & Hb'). rewrite E in E'.
      clear - E' Hp Hq Hb Hb'. revert b' E' Hb'. induction b as [|x b IH]; intros [|y b'] E Hb'; cbn in E; injection E as E1 E2.
      + congruence.
      + subst y. destruct (Hb' p (or_introl eq_refl)). assumption.
      + subst x. destruct (Hb q (or_introl eq_refl)). assumption.
      + apply (IH (fun z Hz => Hb z (or_intror Hz)) b' E2). intros z Hz. apply Hb'. right; assumption.
    - apply find_production_None in Ef. destruct Ef. exists p. rewrite E. split; [apply in_or_app; right; left; reflexivity|assumption].
  Qed.

  Lemma find_production_undefined n : ~ has_lhs g n -> find_production g n 0 = None.
  Proof.
    intro H. destruct (find_production g n 0) as [[ix p]|] eqn:E; [|reflexivity]. apply find_production_Some in E.
    assert (Hf : first_for g n p) by apply E. destruct Hf as (b & a & Eg & Hp & _). destruct H. exists p. rewrite Eg. split; [apply in_or_app; right; left; reflexivity|assumption].
  Qed.

  Definition ev (fuel d : nat) (t : term) (st : list event) : res (result str * list event) :=
    match t with Nonterminal n => trav fuel n st d | Terminal s => Ok (ROk s, st) end.

  Lemma replay_choose_same p d o st addr : replay_choose (Chose p d o :: st) addr p d = Ok (o, st).
  Proof. cbn [replay_choose]. destruct (event_eq_dec _ _); congruence. Qed.
  Lemma replay_accept_same n w b st : replay_accept (Asked n w b :: st) n w = (b, st).
  Proof. cbn [replay_accept]. destruct (event_eq_dec _ _); congruence. Qed.

  Lemma trav_S fuel n st d : trav (Datatypes.S fuel) n st d =
    match find_production g n 0 with
    | None => Ok (ROk n, st)
    | Some (ix, p) =>
        if production_has_no_choice p then Ok (RErr bad_error, st)
        else
          let* (chosen, st) := replay_choose st ix p d in
          match chosen with
          | None => Ok (RErr none_error, st)
          | Some e =>
              let* (r, st) := eval_terms (ev fuel (d + 1)) e [] st in
              match r with
              | RErr x => Ok (RErr x, st)
              | ROk s => let '(ok, st) := replay_accept st n s in
                         if ok then Ok (ROk s, st) else trav fuel n st d
              end
          end
    end.
  Proof. reflexivity. Qed.

  Lemma replay_all :
    (forall d n evs r, dialogue g bad_error none_error d n evs r -> exists k, forall fuel rest, k <= fuel ->
       trav fuel n (evs ++ rest) d = Ok (r, rest)) /\
    (forall d e evs r, dialogues g bad_error none_error d e evs r -> exists k, forall fuel rest acc, k <= fuel ->
       eval_terms (ev fuel d) e acc (evs ++ rest) = Ok (match r with ROk w => ROk (acc ++ w) | RErr x => RErr x end, rest)).
  Proof.
    apply dialogue_mutind.
    - intros d n H. exists 1. intros [|fuel] rest Hf; [lia|]. rewrite trav_S, (find_production_undefined n H). reflexivity.
    - intros d n p H Hc. exists 1. intros [|fuel] rest Hf; [lia|]. rewrite trav_S. destruct (find_production_first n p H) as (ix & ->).
      apply not_choosable_spec in Hc. rewrite Hc. reflexivity.
    - intros d n p H Hc. exists 1. intros [|fuel] rest Hf; [lia|]. rewrite trav_S. destruct (find_production_first n p H) as (ix & ->).
      apply choosable_spec in Hc. rewrite Hc. cbn [app]. rewrite replay_choose_same. reflexivity.
    - intros d n p e evs x H Hc _ (k & IH). exists (S k). intros [|fuel] rest Hf; [lia|]. rewrite trav_S. destruct (find_production_first n p H) as (ix & ->).
      apply choosable_spec in Hc. rewrite Hc. cbn [app]. rewrite replay_choose_same. cbn [rbind]. rewrite IH by lia. reflexivity.
    - intros d n p e evs w H Hc _ (k & IH). exists (S k). intros [|fuel] rest Hf; [lia|]. rewrite trav_S. destruct (find_production_first n p H) as (ix & ->).
      apply choosable_spec in Hc. rewrite Hc. cbn [app]. rewrite replay_choose_same. cbn [rbind]. rewrite <- app_assoc, IH by lia.
      cbn [rbind app]. rewrite replay_accept_same. reflexivity.
    - intros d n p e evs w evs' r H Hc _ (k & IH) _ (k' & IH'). exists (S (k + k')). intros [|fuel] rest Hf; [lia|].
      rewrite trav_S. destruct (find_production_first n p H) as (ix & ->).
      apply choosable_spec in Hc. rewrite Hc. cbn [app]. rewrite replay_choose_same. cbn [rbind]. rewrite <- app_assoc, IH by lia.
      cbn [rbind app]. rewrite replay_accept_same. apply IH'. lia.
    - intros d. exists 0. intros fuel rest acc _. cbn. rewrite app_nil_r. reflexivity.
    - intros d s e evs w _ (k & IH). exists k. intros fuel rest acc Hf. cbn [eval_terms ev rbind]. rewrite IH by lia. rewrite <- app_assoc. reflexivity.
    - intros d s e evs x _ (k & IH). exists k. intros fuel rest acc Hf. cbn [eval_terms ev rbind]. rewrite IH by lia. reflexivity.
    - intros d n e evs evs' v w _ (k & IH) _ (k' & IH'). exists (k + k'). intros fuel rest acc Hf. cbn [eval_terms ev].
      rewrite <- app_assoc, IH by lia. cbn [rbind]. rewrite IH' by lia. rewrite <- app_assoc. reflexivity.
    - intros d n e evs evs' v x _ (k & IH) _ (k' & IH'). exists (k + k'). intros fuel rest acc Hf. cbn [eval_terms ev].
      rewrite <- app_assoc, IH by lia. cbn [rbind]. rewrite IH' by lia. reflexivity.
    - intros d n e evs x _ (k & IH). exists k. intros fuel rest acc Hf. cbn [eval_terms ev]. rewrite IH by lia. reflexivity.
  Qed.
End Replay.

Lemma generate_replay g p rest n evs r fuel0 : g = p :: rest -> p_lhs p = Nonterminal n -> terminates fuel0 g = Ok true ->
  dialogue g bad_error none_error 0 n evs r ->
  exists k, forall fuel, k <= fuel -> generate replay_choose replay_accept g fuel evs = Ok (r, []).
Proof.
  intros Eg Hp Ht Hd. destruct (proj1 (replay_all g) _ _ _ _ Hd) as (k & Hk). exists (fuel0 + k). intros fuel Hf.
  unfold generate. rewrite (terminates_mono g fuel0 fuel true) by (assumption || lia). cbn [rbind negb]. subst g. rewrite Hp.
  rewrite <- (app_nil_r evs). apply Hk. lia.
Qed.

(** ** The debug assertion *)

(** src/grammar.rs:544-547: in a build with debug assertions, an expression that is not one of the
    production's makes the generator panic.  The code compares addresses; here expressions
    are compared by content. *)
Definition debug_asserted {S} (choose : S -> nat -> production -> nat -> res (option expression * S))
    (st : S) (addr : nat) (p : production) (depth : nat) : res (option expression * S) :=
  let* (o, st) := choose st addr p depth in
  match o with
  | None => Ok (None, st)
  | Some e => if in_dec expression_eq_dec e (p_rhs p) then Ok (Some e, st) else Panic
  end.

Lemma debug_lawful {S} (choose : S -> nat -> production -> nat -> res (option expression * S)) : lawful (debug_asserted choose).
Proof.
  intros st addr p d e st' H. unfold debug_asserted in H. destruct (choose st addr p d) as [[[e'|] st1]| |]; cbn [rbind] in H; try discriminate.
  destruct (in_dec expression_eq_dec e' (p_rhs p)); [|discriminate]. injection H as <- _. assumption.
Qed.

Section Sim.
  Context {S1 S2 : Type}.
  Variable choose1 : S1 -> nat -> production -> nat -> res (option expression * S1).
  Variable choose2 : S2 -> nat -> production -> nat -> res (option expression * S2).
  Variable accept1 : S1 -> str -> str -> bool * S1.
  Variable accept2 : S2 -> str -> str -> bool * S2.
  Variable g : grammar.
  Variable R : S1 -> S2 -> Prop.
  Variable Bad : S2 -> Prop.

  (** The runs agree, or the first panics where the second reaches a bad state. *)
  Definition agree {A} (x1 : res (A * S1)) (x2 : res (A * S2)) : Prop :=
    (exists a s1 s2, x1 = Ok (a, s1) /\ x2 = Ok (a, s2) /\ R s1 s2) \/
    (x1 = Panic /\ forall a s2, x2 = Ok (a, s2) -> Bad s2) \/
    (x1 = OutOfFuel /\ x2 = OutOfFuel).

  Hypothesis Hchoose : forall s1 s2 addr p d, R s1 s2 -> agree (choose1 s1 addr p d) (choose2 s2 addr p d).
  Hypothesis Haccept : forall s1 s2 n w, R s1 s2 -> fst (accept1 s1 n w) = fst (accept2 s2 n w) /\ R (snd (accept1 s1 n w)) (snd (accept2 s2 n w)).
  Hypothesis Hbad_choose : forall s2 addr p d o s2', Bad s2 -> choose2 s2 addr p d = Ok (o, s2') -> Bad s2'.
  Hypothesis Hbad_accept : forall s2 n w, Bad s2 -> Bad (snd (accept2 s2 n w)).

  Lemma eval_terms_bad (ev2 : term -> S2 -> res (result str * S2)) :
    (forall t s2 r s2', Bad s2 -> ev2 t s2 = Ok (r, s2') -> Bad s2') ->
    forall e acc s2 r s2', Bad s2 -> eval_terms ev2 e acc s2 = Ok (r, s2') -> Bad s2'.
  Proof.
    intro Hev. induction e as [|t e IH]; intros acc s2 r s2' Hb H; cbn [eval_terms] in H.
    - injection H as _ <-. assumption.
    - destruct (ev2 t s2) as [[[s|x] s3]| |] eqn:E; cbn [rbind] in H; try discriminate.
      + eapply IH; [|exact H]. eapply Hev; eassumption.
      + injection H as _ <-. eapply Hev; eassumption.
  Qed.

  Lemma traverse_bad fuel : forall n s2 d r s2', Bad s2 -> traverse choose2 accept2 g fuel n s2 d = Ok (r, s2') -> Bad s2'.
  Proof.
    induction fuel as [|fuel IH]; intros n s2 d r s2' Hb H; [discriminate|]. cbn [traverse] in H.
    destruct (find_production g n 0) as [[ix p]|]; [|injection H as _ <-; assumption].
    destruct (production_has_no_choice p); [injection H as _ <-; assumption|].
    destruct (choose2 s2 ix p d) as [[[e|] s3]| |] eqn:E; cbn [rbind] in H; try discriminate.
    - apply Hbad_choose in E; [|assumption]. match type of H with context [eval_terms ?ev _ _ _] => set (ev2 := ev) in * end.
      destruct (eval_terms ev2 e [] s3) as [[[w|x] s4]| |] eqn:Ee; cbn [rbind] in H; try discriminate.
      + apply (eval_terms_bad ev2) in Ee; [|intros [s|m] s5 r5 s6 Hb5 H5; [injection H5 as _ <-; assumption|eapply IH; eassumption]|assumption].
        pose proof (Hbad_accept s4 n w Ee) as Ha. destruct (accept2 s4 n w) as [[|] s5]; cbn [snd] in Ha.
        * injection H as _ <-. assumption.
        * eapply IH; eassumption.
      + injection H as _ <-. eapply (eval_terms_bad ev2); [|exact E|exact Ee].
        intros [s|m] s5 r5 s6 Hb5 H5; [injection H5 as _ <-; assumption|eapply IH; eassumption].
    - injection H as _ <-. eapply Hbad_choose; eassumption.
  Qed.

  Lemma eval_terms_agree (ev1 : term -> S1 -> res (result str * S1)) (ev2 : term -> S2 -> res (result str * S2)) :
    (forall t s1 s2, R s1 s2 -> agree (ev1 t s1) (ev2 t s2)) ->
    (forall t s2 r s2', Bad s2 -> ev2 t s2 = Ok (r, s2') -> Bad s2') ->
    forall e acc s1 s2, R s1 s2 -> agree (eval_terms ev1 e acc s1) (eval_terms ev2 e acc s2).
  Proof.
    intros Hev Hb. induction e as [|t e IH]; intros acc s1 s2 Hr; cbn [eval_terms].
    - left. eauto 10.
    - destruct (Hev t s1 s2 Hr) as [(r & t1 & t2 & -> & -> & Hr')|[[-> H2]|[-> ->]]]; cbn [rbind].
      + destruct r as [s|x]; [apply IH; assumption|left; eauto 10].
      + right. left. split; [reflexivity|]. intros a s3 H. destruct (ev2 t s2) as [[r t2]| |]; cbn [rbind] in H; try discriminate.
        pose proof (H2 _ _ eq_refl) as Hbad. destruct r as [s|x]; [|injection H as _ <-; assumption].
        eapply eval_terms_bad; eassumption.
      + right. right. auto.
  Qed.

  Lemma traverse_agree fuel : forall n s1 s2 d, R s1 s2 ->
    agree (traverse choose1 accept1 g fuel n s1 d) (traverse choose2 accept2 g fuel n s2 d).
  Proof.
    induction fuel as [|fuel IH]; intros n s1 s2 d Hr; [right; right; auto|].
    assert (Hall : forall r s2', traverse choose2 accept2 g (S fuel) n s2 d = Ok (r, s2') ->
       forall ix p, find_production g n 0 = Some (ix, p) -> production_has_no_choice p = false ->
       (forall o t2, choose2 s2 ix p d = Ok (o, t2) -> Bad t2) -> Bad s2').
    { intros r s2' H ix p Ef Ep Hb. cbn [traverse] in H. rewrite Ef, Ep in H.
      destruct (choose2 s2 ix p d) as [[o t2]| |] eqn:Ec; cbn [rbind] in H; try discriminate.
      specialize (Hb _ _ eq_refl). destruct o as [e|]; [|injection H as _ <-; assumption].
      match type of H with context [eval_terms ?ev _ _ _] => set (ev2 := ev) in * end.
      assert (Hev2 : forall t s2 r s2', Bad s2 -> ev2 t s2 = Ok (r, s2') -> Bad s2').
      { intros [s|m] s5 r5 s6 Hb5 H5; [injection H5 as _ <-; assumption|eapply traverse_bad; eassumption]. }
      destruct (eval_terms ev2 e [] t2) as [[[w|x] s4]| |] eqn:Ee; cbn [rbind] in H; try discriminate.
      - apply (eval_terms_bad ev2 Hev2) in Ee; [|assumption].
        pose proof (Hbad_accept s4 n w Ee) as Ha. destruct (accept2 s4 n w) as [[|] s5]; cbn [snd] in Ha.
        + injection H as _ <-. assumption.
        + eapply traverse_bad; eassumption.
      - injection H as _ <-. eapply (eval_terms_bad ev2 Hev2); [exact Hb|exact Ee]. }
    cbn [traverse] in *.
    destruct (find_production g n 0) as [[ix p]|]; [|left; eauto 10].
    destruct (production_has_no_choice p) eqn:Ep; [left; eauto 10|].
    destruct (Hchoose s1 s2 ix p d Hr) as [(o & t1 & t2 & E1 & E2 & Hr')|[[E1 H2]|[E1 E2]]].
    - rewrite E1. clear Hall. rewrite E2. cbn [rbind]. destruct o as [e|]; [|left; eauto 10].
      match goal with |- context [eval_terms ?ev e [] t1] => set (ev1 := ev) end.
      match goal with |- context [eval_terms ?ev e [] t2] => set (ev2 := ev) end.
      assert (Hev2 : forall t s2 r s2', Bad s2 -> ev2 t s2 = Ok (r, s2') -> Bad s2').
      { intros [s|m] s5 r5 s6 Hb5 H5; [injection H5 as _ <-; assumption|eapply traverse_bad; eassumption]. }
      assert (Hev : forall t s1 s2, R s1 s2 -> agree (ev1 t s1) (ev2 t s2)).
      { intros [s|m] s3 s4 Hr4; [left; cbn; eauto 10|apply IH; assumption]. }
      destruct (eval_terms_agree ev1 ev2 Hev Hev2 e [] t1 t2 Hr') as [(r & u1 & u2 & -> & -> & Hu)|[[-> H2]|[-> ->]]]; cbn [rbind].
      + destruct r as [w|x]; [|left; eauto 10]. destruct (Haccept u1 u2 n w Hu) as [Hf Hs].
        destruct (accept1 u1 n w) as [b1 v1], (accept2 u2 n w) as [b2 v2]. cbn [fst snd] in *. subst b2.
        destruct b1; [left; eauto 10|apply IH; assumption].
      + right. left. split; [reflexivity|]. intros a s3 H. destruct (eval_terms ev2 e [] t2) as [[r u2]| |]; cbn [rbind] in H; try discriminate.
        pose proof (H2 _ _ eq_refl) as Hbad. destruct r as [w|x]; [|injection H as _ <-; assumption].
        pose proof (Hbad_accept u2 n w Hbad) as Ha. destruct (accept2 u2 n w) as [[|] s5]; cbn [snd] in Ha.
        * injection H as _ <-. assumption.
        * eapply traverse_bad; eassumption.
      + right. right. auto.
    - rewrite E1. cbn [rbind]. right. left. split; [reflexivity|]. intros a s3 H. eapply Hall; [exact H|reflexivity|exact Ep|exact H2].
    - rewrite E1, E2. right. right. auto.
  Qed.

  Lemma generate_agree fuel s1 s2 : R s1 s2 -> agree (generate choose1 accept1 g fuel s1) (generate choose2 accept2 g fuel s2).
  Proof.
    intro Hr. pose proof (traverse_agree fuel) as Ht. unfold generate. destruct (terminates fuel g) as [[|]| |] eqn:E; cbn [rbind negb].
    - destruct g as [|p rest]; [left; eauto 10|]. destruct (p_lhs p) as [s|n]; [left; eauto 10|]. apply Ht. assumption.
    - left. eauto 10.
    - right. left. split; [reflexivity|discriminate].
    - right. right. auto.
  Qed.
End Sim.

(** Every recorded choice is one of the alternatives it was made from. *)
Definition lawful_events (evs : list event) : Prop := forall p d e, In (Chose p d (Some e)) evs -> In e (p_rhs p).
Definition unlawful_events (evs : list event) : Prop := exists p d e, In (Chose p d (Some e)) evs /\ ~ In e (p_rhs p).

Section Debug.
  Context {S : Type}.
  Variable choose : S -> nat -> production -> nat -> res (option expression * S).
  Variable accept : S -> str -> str -> bool * S.
  Variable g : grammar.

  Lemma debug_agree fuel st :
    agree (fun (s1 : S) (s2 : S * list event) => s1 = fst s2 /\ lawful_events (snd s2)) (fun s2 => unlawful_events (snd s2))
      (generate (debug_asserted choose) accept g fuel st)
      (generate (traced_choose choose) (traced_accept accept) g fuel (st, [])).
  Proof.
    apply generate_agree.
    - intros s1 [s l] addr p d [-> Hl]. unfold debug_asserted, traced_choose. cbn [fst snd] in *.
      destruct (choose s addr p d) as [[[e|] s']| |]; cbn [rbind].
      + destruct (in_dec expression_eq_dec e (p_rhs p)) as [Hin|Hin].
        * left. do 3 eexists. split; [reflexivity|]. split; [reflexivity|]. split; [reflexivity|].
          intros p' d' e' [E|Hi]; [injection E as -> _ ->; assumption|exact (Hl _ _ _ Hi)].
        * right. left. split; [reflexivity|]. intros a s2 E. injection E as _ <-. exists p, d, e. split; [left; reflexivity|assumption].
      + left. do 3 eexists. split; [reflexivity|]. split; [reflexivity|]. split; [reflexivity|].
        intros p' d' e' [E|Hi]; [discriminate|exact (Hl _ _ _ Hi)].
      + right. left. split; [reflexivity|discriminate].
      + right. right. auto.
    - intros s1 [s l] n w [-> Hl]. unfold traced_accept. cbn [fst snd] in *. destruct (accept s n w) as [b s']. cbn [fst snd].
      split; [reflexivity|]. split; [reflexivity|]. intros p d e [E|Hi]; [discriminate|exact (Hl _ _ _ Hi)].
    - intros [s l] addr p d o s2' (p' & d' & e' & Hin & Hn) H. unfold traced_choose in H. cbn [fst snd] in *.
      destruct (choose s addr p d) as [[o1 s']| |]; cbn [rbind] in H; try discriminate. injection H as _ <-.
      exists p', d', e'. split; [right; assumption|assumption].
    - intros [s l] n w (p' & d' & e' & Hin & Hn). unfold traced_accept. cbn [fst snd] in *. destruct (accept s n w) as [b s']. cbn [snd].
      exists p', d', e'. split; [right; assumption|assumption].
    - split; [reflexivity|]. intros p d e [].
  Qed.

  Lemma debug_spec fuel st r st' : generate choose accept g fuel st = Ok (r, st') -> exists evs,
    generate (traced_choose choose) (traced_accept accept) g fuel (st, []) = Ok (r, (st', rev evs)) /\
    ((lawful_events evs /\ generate (debug_asserted choose) accept g fuel st = Ok (r, st')) \/
     (unlawful_events evs /\ generate (debug_asserted choose) accept g fuel st = Panic)).
  Proof.
    intro H. destruct (generate_traced choose accept g fuel st r st' H) as (evs & E & _). exists evs. split; [exact E|].
    destruct (debug_agree fuel st) as [(a & s1 & s2 & E1 & E2 & -> & Hl)|[[E1 H2]|[_ E2]]]; [| |congruence].
    - left. rewrite E in E2. injection E2 as <- <-. cbn [fst snd] in *. split; [|assumption].
      intros p d e Hin. apply (Hl p d e). apply -> in_rev. assumption.
    - right. split; [|assumption]. destruct (H2 _ _ E) as (p & d & e & Hin & Hn). exists p, d, e. split; [|assumption].
      apply in_rev. assumption.
  Qed.

  Lemma debug_asserted_lawful : lawful choose -> forall st addr p d, debug_asserted choose st addr p d = choose st addr p d.
  Proof.
    intros Hl st addr p d. unfold debug_asserted. destruct (choose st addr p d) as [[[e|] s']| |] eqn:E; cbn [rbind]; try reflexivity.
    destruct (in_dec expression_eq_dec e (p_rhs p)) as [|n]; [reflexivity|]. destruct n. eapply Hl; exact E.
  Qed.

  Lemma eval_terms_ext (ev1 ev2 : term -> S -> res (result str * S)) : (forall t s, ev1 t s = ev2 t s) ->
    forall e acc s, eval_terms ev1 e acc s = eval_terms ev2 e acc s.
  Proof.
    intros He e. induction e as [|t e IH]; intros acc s; cbn [eval_terms]; [reflexivity|]. rewrite He.
    destruct (ev2 t s) as [[[w|x] s']| |]; cbn [rbind]; auto.
  Qed.

  Lemma traverse_ext c1 c2 : (forall st addr p d, c1 st addr p d = c2 st addr p d) -> forall fuel n st d,
    traverse c1 accept g fuel n st d = traverse c2 accept g fuel n st d.
  Proof.
    intros Hc fuel. induction fuel as [|fuel IH]; intros n st d; cbn [traverse]; [reflexivity|].
    destruct (find_production g n 0) as [[ix p]|]; [|reflexivity]. destruct (production_has_no_choice p); [reflexivity|].
    rewrite Hc. destruct (c2 st ix p d) as [[[e|] s']| |]; cbn [rbind]; try reflexivity.
    match goal with |- rbind (eval_terms ?ev1 _ _ _) _ = rbind (eval_terms ?ev2 _ _ _) _ =>
      rewrite (eval_terms_ext ev1 ev2 ltac:(intros [w|m] s; [reflexivity|apply IH])) end.
    match goal with |- rbind ?x _ = rbind ?x _ => destruct x as [[[w|x0] s2]| |]; cbn [rbind]; try reflexivity end.
    destruct (accept s2 n w) as [[|] s3]; [reflexivity|apply IH].
  Qed.

  Lemma debug_same : lawful choose -> forall fuel st, generate (debug_asserted choose) accept g fuel st = generate choose accept g fuel st.
  Proof.
    intros Hl fuel st. unfold generate. destruct (terminates fuel g) as [[|]| |]; cbn [rbind negb]; try reflexivity.
    pose proof (traverse_ext _ _ (debug_asserted_lawful Hl) fuel) as Ht. destruct g as [|p rest]; [reflexivity|]. destruct (p_lhs p); [reflexivity|]. apply Ht.
  Qed.
End Debug.
