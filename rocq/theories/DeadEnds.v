(** When a random generator can come to a production without a choosable alternative. *)
From Verif Require Import Facts_Walks GenProofs EndsSpec DeadEndSpec ParseExamples Facts_GenErrors.
From Coq Require Import Lia Relations.
From Coq Require String.
Import String.StringSyntax.

Section DeadEnds.
  Variable g : grammar.
  Variable ok : str -> str -> bool.
  Variable alts : nat -> production -> list expression.
  Variable bad : error.
  Notation wk := (walk g ok alts bad).
  Notation wks := (walks g ok alts bad).

  Lemma drawn_walks d e w : drawn g ok alts d e w -> exists ds, wks d e ds (ROk w).
  Proof.
    induction 1 as [d|d s e w H IH|d n e w Hn H IH|d n p e0 v e w Hf Hc Hin H0 IH0 Hok H IH].
    - exists []. constructor.
    - destruct IH as [ds Hd]. exists ds. constructor; exact Hd.
    - destruct IH as [ds Hd]. exists ([] ++ ds). apply wks_nonterminal; [apply wk_undefined; exact Hn|exact Hd].
    - destruct IH as [ds Hd]. destruct IH0 as [ds0 Hd0]. destruct (In_nth_error _ _ Hin) as [k Hk].
      eexists. apply wks_nonterminal; [|exact Hd]. eapply wk_accept; eassumption.
  Qed.

  Lemma drawn_then_error d before w m after x : drawn g ok alts d before w ->
    (exists ds, wk d m ds (RErr x)) -> exists ds, wks d (before ++ Nonterminal m :: after) ds (RErr x).
  Proof.
    intros H Hm. induction H as [d|d s e w H IH|d n e w Hn H IH|d n p e0 v e w Hf Hc Hin H0 _ Hok H IH]; cbn [app].
    - destruct Hm as [ds Hd]. exists ds. apply wks_stop. exact Hd.
    - destruct (IH Hm) as [ds Hd]. exists ds. apply wks_terminal_error. exact Hd.
    - destruct (IH Hm) as [ds Hd]. exists ([] ++ ds). eapply wks_nonterminal_error; [apply wk_undefined; exact Hn|exact Hd].
    - destruct (IH Hm) as [ds Hd]. destruct (drawn_walks _ _ _ H0) as [ds0 Hd0]. destruct (In_nth_error _ _ Hin) as [k Hk].
      eexists. eapply wks_nonterminal_error; [|exact Hd]. eapply wk_accept; eassumption.
  Qed.

  Lemma dead_end_walk x : dead_end_below g ok alts x -> exists ds, wk (fst x) (snd x) ds (RErr bad).
  Proof.
    intros (y & q & Hp & Hf & Hc). apply clos_rt_rt1n in Hp. induction Hp as [y|x x' y Hs Hp IH].
    - exists []. eapply wk_bad; eassumption.
    - destruct Hs as (p & before & after & w & Hfp & Hcp & Ed & Hin & Hd).
      destruct (drawn_then_error (fst x') before w (snd x') after bad Hd (IH Hf)) as [ds Hds]. rewrite Ed in Hds.
      destruct (In_nth_error _ _ Hin) as [k Hk]. eexists. eapply wk_error; eassumption.
  Qed.

  Lemma walk_dead_end :
    (forall d n ds r, wk d n ds r -> match r with
       | ROk w => ~ has_lhs g n /\ w = n \/ exists p e, first_for g n p /\ choosable p /\ In e (alts d p) /\ drawn g ok alts (d + 1) e w /\ ok n w = true
       | RErr x => x = bad /\ dead_end_below g ok alts (d, n) end) /\
    (forall d e ds r, wks d e ds r -> match r with
       | ROk w => drawn g ok alts d e w
       | RErr x => x = bad /\ exists before m after w, e = before ++ Nonterminal m :: after /\ drawn g ok alts d before w /\ dead_end_below g ok alts (d, m) end).
  Proof.
    assert (Hcons : forall d n v e w, ~ has_lhs g n /\ v = n \/ (exists p e, first_for g n p /\ choosable p /\ In e (alts d p) /\ drawn g ok alts (d + 1) e v /\ ok n v = true) ->
              drawn g ok alts d e w -> drawn g ok alts d (Nonterminal n :: e) (v ++ w)).
    { intros d n v e w [[Hn ->]|(p & e0 & Hf & Hc & Hin & Hd & Ho)] H; [apply dr_undefined; assumption|eapply dr_rule; eassumption]. }
    apply walk_mutind.
    - intros d n Hn. left. auto.
    - intros d n p Hf Hc. split; [reflexivity|]. exists (d, n), p. split; [apply rt_refl|]. auto.
    - intros d n p k e ds x Hf Hc Hk Hw (Hx & before & m & after & w & -> & Hd & (y & q & Hp & Hq)). split; [exact Hx|].
      exists y, q. split; [|exact Hq]. eapply rt_trans; [|exact Hp]. apply rt_step. exists p, before, after, w.
      repeat split; try assumption; try apply Hc. eapply nth_error_In. exact Hk.
    - intros d n p k e ds w Hf Hc Hk Hw IH Ho. right. exists p, e. repeat split; try assumption; try apply Hc. eapply nth_error_In. exact Hk.
    - intros d n p k e ds w ds' r Hf Hc Hk Hw IH Ho Hr IHr. exact IHr.
    - intros d. constructor.
    - intros d s e ds w Hw IH. constructor. exact IH.
    - intros d s e ds x Hw (Hx & before & m & after & w & -> & Hd & He). split; [exact Hx|].
      exists (Terminal s :: before), m, after, (s ++ w). repeat split; [|exact He]. constructor. exact Hd.
    - intros d n e ds ds' v w Hv IHv Hw IH. apply Hcons; assumption.
    - intros d n e ds ds' v x Hv IHv Hw (Hx & before & m & after & w & -> & Hd & He). split; [exact Hx|].
      exists (Nonterminal n :: before), m, after, (v ++ w). repeat split; [|exact He]. apply Hcons; assumption.
    - intros d n e ds x Hw (Hx & He). split; [exact Hx|]. exists [], n, e, []. repeat split; [constructor|exact He].
  Qed.

  Lemma walk_source d n ds r : wk d n ds r -> follows (source (map fst ds)) 0 ds.
  Proof.
    intro H. assert (Hk : forall k m, In (k, m) ds -> k < m).
    { destruct (walk_draws g ok alts bad (fun k m => k < m)) as [Hd _].
      - intros d' p k e _ _ Hk. apply nth_error_Some. rewrite Hk. discriminate.
      - exact (Hd _ _ _ _ H). }
    clear H. enough (G : forall pre, follows (source (pre ++ map fst ds)) (length pre) ds) by exact (G []).
    induction ds as [|[k m] ds IH]; intro pre; [exact I|]. cbn [map fst follows]. split.
    - unfold source. rewrite app_nth2, Nat.sub_diag by lia. cbn [nth]. apply Nat.mod_small. apply Hk. left. reflexivity.
    - specialize (IH (fun k m H => Hk k m (or_intror H)) (pre ++ [k])). rewrite app_length, Nat.add_comm in IH. cbn [length Nat.add] in IH.
      rewrite <- app_assoc in IH. exact IH.
  Qed.

  Lemma dead_end_iff (run : (nat -> nat) -> nat -> res (result str * nat)) n :
    (forall f r l, (exists fuel, run f fuel = Ok (r, l)) <-> (exists ds, wk 0 n ds r /\ length ds = l /\ follows f 0 ds)) ->
    (exists f fuel l, run f fuel = Ok (RErr bad, l)) <-> dead_end_below g ok alts (0, n).
  Proof.
    intro Hrun. split.
    - intros (f & fuel & l & H). destruct (proj1 (Hrun f _ l) (ex_intro _ fuel H)) as (ds & Hw & _).
      exact (proj2 (proj1 walk_dead_end _ _ _ _ Hw)).
    - intro H. destruct (dead_end_walk _ H) as [ds Hw]. exists (source (map fst ds)).
      destruct (proj2 (Hrun (source (map fst ds)) (RErr bad) (length ds))) as [fuel Hg].
      { exists ds. split; [exact Hw|]. split; [reflexivity|]. eapply walk_source. exact Hw. }
      exists fuel, (length ds). exact Hg.
  Qed.
End DeadEnds.

Lemma C79_dead_ends_proof g p rest n fuel0 : g = p :: rest -> p_lhs p = Nonterminal n -> terminates fuel0 g = Ok true -> forall ok,
  let error := RErr (GenerateError msg_no_alternative) in
  ((exists f fuel l, generate (random_walk (stream_rng f)) (pure_callback ok) g fuel 0 = Ok (error, l)) <-> dead_end_below g ok random_alternatives (0, n)) /\
  (forall max, (exists f fuel l, generate (depth_bounded (stream_rng f) max) (pure_callback ok) g fuel 0 = Ok (error, l)) <->
     dead_end_below g ok (depth_alternatives max) (0, n)) /\
  (forall checks rec nonrec, (forall q, In q g -> (nsum (fill_weights rec nonrec q) < 2 ^ 32)%N) ->
     (exists f fuel l, generate (weighted (stream_rng f) checks rec nonrec) (pure_callback ok) g fuel 0 = Ok (error, l)) <->
     dead_end_below g ok (weighted_alternatives rec nonrec) (0, n)).
Proof.
  intros Eg Hl Ht ok error. split; [|split].
  - exact (dead_end_iff g ok random_alternatives no_alternative (fun f fuel => generate (random_walk (stream_rng f)) (pure_callback ok) g fuel 0) n
      (fun f r l => C70_random_walk_proof g p rest n fuel0 Eg Hl Ht ok f r l)).
  - intro max. exact (dead_end_iff g ok (depth_alternatives max) no_alternative (fun f fuel => generate (depth_bounded (stream_rng f) max) (pure_callback ok) g fuel 0) n
      (fun f r l => C70_depth_bounded_proof g p rest n fuel0 Eg Hl Ht max ok f r l)).
  - intros checks rec nonrec Hs. exact (dead_end_iff g ok (weighted_alternatives rec nonrec) no_alternative
      (fun f fuel => generate (weighted (stream_rng f) checks rec nonrec) (pure_callback ok) g fuel 0) n
      (fun f r l => C70_weighted_proof g p rest n fuel0 Eg Hl Ht checks rec nonrec ok f r l Hs)).
Qed.

(** <s> ::= 'a' | <l> <e> ; <l> ::= 'x' <l> ; <e> has one empty alternative: <e> is never reached. *)
Definition never_reached : grammar := [mkProd (N_ "s") [[T_ "a"]; [N_ "l"; N_ "e"]]; mkProd (N_ "l") [[T_ "x"; N_ "l"]]; mkProd (N_ "e") [[]]].

Lemma never_reached_loop ok d e w : drawn never_reached ok random_alternatives d e w -> ~ In (N_ "l") e.
Proof.
  induction 1 as [d|d s e w H IH|d n e w Hn H IH|d n p e0 v e w Hf Hc Hin H0 IH0 Hok H IH].
  - intros [].
  - intros [H1|H1]; [discriminate|exact (IH H1)].
  - intros [H1|H1]; [|exact (IH H1)]. injection H1 as ->. apply Hn. exists (nth 1 never_reached (mkProd (N_ "s") [])). cbn. auto.
  - intros [H1|H1]; [|exact (IH H1)]. injection H1 as ->. apply IH0. clear - Hf Hin.
    apply first_for_In in Hf. destruct Hf as [Hp El]. unfold random_alternatives in Hin.
    destruct Hp as [<-|[<-|[<-|[]]]]; try discriminate El. destruct Hin as [<-|[]]. right. left. reflexivity.
Qed.

Lemma never_reached_not ok : ~ dead_end_below never_reached ok random_alternatives (0, lit "s").
Proof.
  intros (y & q & Hp & Hf & Hc).
  assert (G : snd y = lit "s" \/ snd y = lit "l").
  { apply clos_rt_rtn1 in Hp. clear Hf Hc. induction Hp as [|y z Hs Hp IH]; [left; reflexivity|].
    destruct Hs as (p & before & after & w & Hfp & Hcp & Ed & Hin & Hd).
    apply first_for_In in Hfp. destruct Hfp as [Hpin El]. unfold random_alternatives in Hin.
    destruct Hpin as [<-|[<-|[<-|[]]]].
    - destruct Hin as [E|[E|[]]].
      + destruct before as [|b [|b' before]]; discriminate E.
      + destruct before as [|b before]; [injection E as E _; right; symmetry; exact E|].
        destruct before as [|b' before]; [|destruct before; discriminate E].
        injection E as Eb _ _. exfalso. apply (never_reached_loop _ _ _ _ Hd). rewrite <- Eb. left. reflexivity.
    - destruct Hin as [E|[]]. destruct before as [|b before]; [discriminate E|].
      destruct before as [|b' before]; [injection E as _ E _; right; symmetry; exact E|destruct before; discriminate E].
    - destruct Hin as [E|[]]. destruct before; discriminate E. }
  apply first_for_In in Hf. destruct Hf as [Hin El]. apply Hc.
  destruct Hin as [<-|[<-|[<-|[]]]]; [split; discriminate|split; discriminate|].
  destruct G as [G|G]; rewrite G in El; discriminate El.
Qed.

Lemma C79_dead_ends_example_proof :
  let yes := fun _ _ : str => true in
  terminates 5 dead_end = Ok true /\ dead_end_below dead_end yes random_alternatives (0, lit "s") /\
  terminates 5 never_reached = Ok true /\ ~ dead_end_below never_reached yes random_alternatives (0, lit "s") /\
  clos_refl_trans _ (calls never_reached) (lit "s") (lit "e").
Proof.
  intro yes. split; [reflexivity|]. split; [|split; [reflexivity|split; [apply never_reached_not|]]].
  - exists (1, lit "e"), (mkProd (N_ "e") [[]]). split; [|split].
    + apply rt_step. exists (mkProd (N_ "s") [[T_ "a"]; [N_ "e"]]), [], [], []. split; [exists [], [mkProd (N_ "e") [[]]]; repeat split; intros q []|].
      split; [split; discriminate|]. split; [reflexivity|]. split; [right; left; reflexivity|constructor].
    + exists [mkProd (N_ "s") [[T_ "a"]; [N_ "e"]]], []. repeat split. intros q [<-|[]]. discriminate.
    + intros [_ H]. apply H. reflexivity.
  - apply rt_step. exists (mkProd (N_ "s") [[T_ "a"]; [N_ "l"; N_ "e"]]), [N_ "l"; N_ "e"].
    split; [exists [], [mkProd (N_ "l") [[T_ "x"; N_ "l"]]; mkProd (N_ "e") [[]]]; repeat split; intros q []|].
    split; [right; left; reflexivity|]. split; [right; left; reflexivity|]. exists (mkProd (N_ "e") [[]]). cbn. auto.
Qed.

(** src/generation.rs:20-21 gives this case as an example for [None]. *)
Lemma C22_no_choice_refuted_proof : exists p, p_rhs p <> [] /\ (forall e, In e (p_rhs p) -> exists n, In (Nonterminal n) e) /\
  forall R (rng : rng_ops R) max r addr depth, max <= depth -> exists e r' n, depth_bounded rng max r addr p depth = Ok (Some e, r') /\ In (Nonterminal n) e.
Proof.
  assert (H : forall e, In e [[N_ "s"; T_ "a"]; [T_ "b"; N_ "t"]] -> exists n, In (Nonterminal n) e).
  { intros e [<-|[<-|[]]]; [exists (lit "s")|exists (lit "t")]; cbn; auto. }
  exists (mkProd (N_ "s") [[N_ "s"; T_ "a"]; [T_ "b"; N_ "t"]]). split; [discriminate|]. split; [exact H|].
  intros R rng max r addr depth _.
  destruct (Facts_Strategies.C22_depth_bounded_proof R rng max r addr (mkProd (N_ "s") [[N_ "s"; T_ "a"]; [T_ "b"; N_ "t"]]) depth ltac:(discriminate)) as (e & r' & E & He).
  destruct (H e He) as [n Hn]. exists e, r', n. auto.
Qed.
