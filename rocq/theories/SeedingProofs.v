(** Proofs for C107. *)
From Verif Require Import ParseExamples.
From Verif Require Export GenProofs Seeding.

Section Embedding.
  Context {S S' : Type} (phi : S -> S').
  Variable choose : S -> nat -> production -> nat -> res (option expression * S).
  Variable choose' : S' -> nat -> production -> nat -> res (option expression * S').
  Variable accept : S -> str -> str -> bool * S.
  Variable accept' : S' -> str -> str -> bool * S'.
  Hypothesis Hc : forall st addr p depth, choose' (phi st) addr p depth = through phi (choose st addr p depth).
  Hypothesis Ha : forall st n w, accept' (phi st) n w = let '(b, st) := accept st n w in (b, phi st).
  Variable g : grammar.

  Lemma traverse_through fuel : forall n st depth,
    traverse choose' accept' g fuel n (phi st) depth = through phi (traverse choose accept g fuel n st depth).
  Proof.
    induction fuel as [|fuel IH]; intros n st depth; [reflexivity|]. cbn [traverse].
    destruct (find_production g n 0) as [[ix p]|]; [|reflexivity].
    destruct (production_has_no_choice p); [reflexivity|]. rewrite Hc.
    destruct (choose st ix p depth) as [[o st1]| |]; [|reflexivity|reflexivity]. cbn [through rbind].
    destruct o as [e|]; [|reflexivity].
    assert (He : forall e acc st, eval_terms (fun t st => match t with Nonterminal nt => traverse choose' accept' g fuel nt st (depth + 1) | Terminal s => Ok (ROk s, st) end) e acc (phi st) =
      through phi (eval_terms (fun t st => match t with Nonterminal nt => traverse choose accept g fuel nt st (depth + 1) | Terminal s => Ok (ROk s, st) end) e acc st)).
    { clear st st1 e. induction e as [|t e IHe]; intros acc st; [reflexivity|]. cbn [eval_terms].
      destruct t as [s|nt].
      - cbn [rbind]. apply IHe.
      - rewrite IH. destruct (traverse choose accept g fuel nt st (depth + 1)) as [[r st2]| |]; [|reflexivity|reflexivity].
        cbn [through rbind]. destruct r; [apply IHe|reflexivity]. }
    rewrite He. destruct (eval_terms _ e [] st1) as [[r st2]| |]; [|reflexivity|reflexivity]. cbn [through rbind].
    destruct r as [s|]; [|reflexivity]. rewrite Ha. destruct (accept st2 n s) as [[|] st3]; [reflexivity|apply IH].
  Qed.

  Lemma generate_through fuel st :
    generate choose' accept' g fuel (phi st) = through phi (generate choose accept g fuel st).
  Proof.
    unfold generate. destruct (terminates fuel g) as [[|]| |]; try reflexivity. cbn [rbind negb].
    destruct g as [|p rest] eqn:Eg; [reflexivity|]. destruct (p_lhs p); [reflexivity|]. rewrite <- Eg. apply traverse_through.
  Qed.
End Embedding.

Section Seeds.
  Context {R T : Type} (std : std_rng R) (sys : sys_rng T).
  Let walk := random_walk (std_ops std).

  Lemma callback_is_walk C f g fuel r (c : C) :
    generate_seeded_callback std (fun c n w => (f n w, c)) g fuel r c =
    let* (x, _) := generate_random (std_ops std) f g fuel (strategy_of std r) in Ok (x, after std r, c).
  Proof.
    unfold generate_seeded_callback, strategy_of, after, random_walk_from_seed. destruct (std_fill std r) as [s r'] eqn:E. cbn [fst snd].
    rewrite (generate_through (fun r : R => (r, c)) walk (beside walk) (pure_callback f) (callback_beside (fun c n w => (f n w, c)))).
    - unfold generate_random. fold walk. destruct (generate walk (pure_callback f) g fuel (from_seed std s)) as [[x st]| |]; reflexivity.
    - intros st addr p depth. unfold beside, through. cbn [fst snd]. destruct (walk st addr p depth) as [[e st']| |]; reflexivity.
    - intros st n w. reflexivity.
  Qed.

  Lemma seeded_is_walk g fuel r :
    generate_seeded std g fuel r =
    let* (x, _) := generate_random (std_ops std) (fun _ _ => true) g fuel (strategy_of std r) in Ok (x, after std r).
  Proof. unfold generate_seeded, strategy_of, after. destruct (std_fill std r). reflexivity. Qed.

  Lemma fresh_is_walk g fuel t :
    generate_fresh std sys g fuel t =
    let* (x, _) := generate_random (std_ops std) (fun _ _ => true) g fuel (strategy_of std (from_seed std (fst (sys_fill sys t)))) in
    Ok (x, snd (sys_fill sys t)).
  Proof.
    unfold generate_fresh, generate_callback. destruct (sys_fill sys t) as [s t']. cbn [fst snd].
    rewrite (callback_is_walk unit (fun _ _ => true)). destruct (generate_random _ _ _ _ _) as [[x st]| |]; reflexivity.
  Qed.

  Lemma sentences_exact fuel gs : forall r xs r',
    seeded_sentences std fuel gs r = Ok (xs, r') <->
    r' = Nat.iter (length gs) (after std) r /\ length xs = length gs /\
    forall i g, nth_error gs i = Some g -> exists x rest, nth_error xs i = Some x /\
      generate_random (std_ops std) (fun _ _ => true) g fuel (strategy_of std (Nat.iter i (after std) r)) = Ok (x, rest).
  Proof.
    assert (It : forall n r, Nat.iter n (after std) (after std r) = after std (Nat.iter n (after std) r)).
    { induction n as [|n IH]; intro r; cbn; [reflexivity|]. unfold Nat.iter in IH. rewrite IH. reflexivity. }
    induction gs as [|g gs IH]; intros r xs r'; cbn [seeded_sentences].
    - split.
      + intro E. injection E as <- <-. split; [reflexivity|]. split; [reflexivity|]. intros [|i] g H; discriminate.
      + intros (-> & L & _). destruct xs; [reflexivity|discriminate].
    - rewrite seeded_is_walk. split.
      + destruct (generate_random _ _ g fuel (strategy_of std r)) as [[x rest]| |] eqn:E; [|discriminate|discriminate]. cbn [rbind].
        destruct (seeded_sentences std fuel gs (after std r)) as [[xs0 r0]| |] eqn:E'; [|discriminate|discriminate]. cbn [rbind].
        intro H. injection H as <- <-. apply IH in E'. destruct E' as (-> & L & H). split; [cbn [length]; rewrite It; reflexivity|].
        split; [cbn [length]; congruence|]. intros [|i] g' Hi.
        * injection Hi as <-. exists x, rest. split; [reflexivity|exact E].
        * destruct (H i g' Hi) as (x' & rest' & A & B). exists x', rest'. split; [exact A|]. rewrite It in B. exact B.
      + intros (-> & L & H). destruct xs as [|x xs]; [discriminate|]. destruct (H 0 g eq_refl) as (x' & rest & A & B).
        injection A as <-. cbn [Nat.iter nat_rect] in B. unfold Nat.iter in B. cbn in B. rewrite B. cbn [rbind].
        assert (E : seeded_sentences std fuel gs (after std r) = Ok (xs, Nat.iter (length (g :: gs)) (after std) r)).
        { apply IH. split; [cbn [length]; symmetry; apply It|]. split; [cbn in L; congruence|].
          intros i g' Hi. destruct (H (S i) g' Hi) as (x' & rest' & A' & B'). exists x', rest'. split; [exact A'|]. rewrite It. exact B'. }
        rewrite E. reflexivity.
  Qed.

  Lemma depth_is_depth max f g fuel r :
    generate (choose_depth_bounded std) (pure_callback f) g fuel (mkDepth max r) =
    through (mkDepth max) (generate (depth_bounded (std_ops std) max) (pure_callback f) g fuel r).
  Proof. apply generate_through; reflexivity. Qed.

  Lemma weighted_is_weighted checks rec nonrec f g fuel r :
    generate (choose_weighted std checks) (pure_callback f) g fuel (mkWeighted rec nonrec r) =
    through (mkWeighted rec nonrec) (generate (weighted (std_ops std) checks rec nonrec) (pure_callback f) g fuel r).
  Proof. apply generate_through; reflexivity. Qed.
End Seeds.

Section Calls.
  Context {R C : Type} (choose : R -> nat -> production -> nat -> res (option expression * R)).
  Variable accept : C -> str -> str -> bool * C.
  Variable g : grammar.

  Lemma calls_app c log c1 log' c2 : calls accept c log c1 -> calls accept c1 log' c2 -> calls accept c (log ++ log') c2.
  Proof. intro H. revert log' c2. induction H; intros log' c3 H'; cbn [app]; [exact H'|]. econstructor; [eassumption|auto]. Qed.

  Lemma traverse_calls fuel : forall n r c depth x r' c',
    traverse (beside choose) (callback_beside accept) g fuel n (r, c) depth = Ok (x, (r', c')) ->
    exists log, calls accept c log c' /\ forall w, x = ROk w -> has_lhs g n -> exists before, log = before ++ [(n, w, true)].
  Proof.
    induction fuel as [|fuel IH]; intros n r c depth x r' c' H; [discriminate|]. cbn [traverse] in H.
    destruct (find_production g n 0) as [[ix p]|] eqn:Ef.
    2:{ injection H as <- <- <-. exists []. split; [constructor|]. intros w _ Hn. exfalso. exact (find_production_None g n 0 Ef Hn). }
    destruct (production_has_no_choice p).
    { injection H as <- <- <-. exists []. split; [constructor|]. discriminate. }
    unfold beside at 1 in H. cbn [fst snd] in H. destruct (choose r ix p depth) as [[o r1]| |]; [|discriminate|discriminate].
    cbn [rbind] in H. destruct o as [e|].
    2:{ injection H as <- <- <-. exists []. split; [constructor|]. discriminate. }
    match type of H with rbind (eval_terms ?E e [] (r1, c)) _ = _ => set (eval := E) in H end.
    assert (He : forall e acc r c x r' c', eval_terms eval e acc (r, c) = Ok (x, (r', c')) -> exists log, calls accept c log c').
    { clear H. induction e0 as [|t e0 IHe]; intros acc r0 c0 x0 r0' c0' H; cbn [eval_terms] in H.
      - injection H as <- <- <-. exists []. constructor.
      - unfold eval at 1 in H. destruct t as [s|nt].
        + cbn [rbind] in H. eauto.
        + destruct (traverse _ _ g fuel nt (r0, c0) (depth + 1)) as [[y [r2 c2]]| |] eqn:E; [|discriminate|discriminate].
          cbn [rbind] in H. destruct (IH _ _ _ _ _ _ _ E) as (log & L & _). destruct y as [s|].
          * destruct (IHe _ _ _ _ _ _ H) as (log' & L'). exists (log ++ log'). eapply calls_app; eassumption.
          * injection H as <- <- <-. exists log. exact L. }
    destruct (eval_terms eval e [] (r1, c)) as [[y [r2 c2]]| |] eqn:Ee; [|discriminate|discriminate]. cbn [rbind] in H.
    destruct (He _ _ _ _ _ _ _ Ee) as (log & L). destruct y as [s|].
    - unfold callback_beside at 1 in H. cbn [fst snd] in H. destruct (accept c2 n s) as [b c3] eqn:Ea. destruct b.
      + injection H as <- <- <-. exists (log ++ [(n, s, true)]). split.
        * eapply calls_app; [exact L|]. econstructor; [exact Ea|constructor].
        * intros w Hw _. injection Hw as ->. exists log. reflexivity.
      + destruct (IH _ _ _ _ _ _ _ H) as (log' & L' & Hlast). exists (log ++ (n, s, false) :: log'). split.
        * eapply calls_app; [exact L|]. econstructor; [exact Ea|exact L'].
        * intros w Hw Hn. destruct (Hlast w Hw Hn) as (before & ->). exists (log ++ (n, s, false) :: before).
          rewrite <- app_assoc. reflexivity.
    - injection H as <- <- <-. exists log. split; [exact L|]. discriminate.
  Qed.
End Calls.
