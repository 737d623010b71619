(** Proofs of the theorems of Properties_Inside.v. *)
From Verif Require Import EarleySpec EarleyInv EarleyLoop EarleyMain ParseGrammarProofs EarleyTerm StepsSpec ParseExamples.
From Coq Require Import List Lia String Sorted.
Import ListNotations.
Open Scope list_scope.

Lemma later_inv g start input it st : opens g start input it -> later (gp_pg (it_parser it)) (it_state it) st ->
  exists gh d, Inv (pg_new_unchecked g) input start st gh d.
Proof.
  intros Ho Hl. destruct (opens_Inv _ _ _ _ Ho) as (st0 & Ep & gh & HI). rewrite Ep in Hl. cbn [gp_pg] in Hl.
  assert (H : exists gh d, Inv (pg_new_unchecked g) input start (it_state it) gh d) by eauto. clear gh HI Ho Ep st0.
  destruct (pg_new_unchecked_ok g) as [Hok _].
  induction Hl as [st|st st1 st2 id rest found Eq E _ IH]; [exact H|]. apply IH. destruct H as (gh & d & HI).
  destruct (process_inv _ Hok input start st gh d id rest HI Eq) as (_ & x & _ & found' & st' & new & E' & HI' & _).
  rewrite E in E'. injection E' as <- <-. eauto.
Qed.

Lemma inside_steps g start input it st id rest : opens g start input it -> later (gp_pg (it_parser it)) (it_state it) st ->
  q_queue (s_queue st) = id :: rest ->
  exists found st1, process (gp_pg (it_parser it)) (s_tree st) (mkQ (q_processed (s_queue st)) rest) (s_comp st) id = Ok (found, st1).
Proof.
  intros Ho Hl Eq. destruct (later_inv _ _ _ _ _ Ho Hl) as (gh & d & HI). destruct (opens_Inv _ _ _ _ Ho) as (st0 & -> & _). cbn [gp_pg].
  destruct (pg_new_unchecked_ok g) as [Hok _].
  destruct (process_inv _ Hok input start st gh d id rest HI Eq) as (_ & x & _ & found' & st' & new & E' & _). eauto.
Qed.

Lemma inside_boundaries g start input it st t : opens g start input it -> later (gp_pg (it_parser it)) (it_state it) st ->
  In t (tt_arena (s_tree st)) ->
  exists before matched after, input = before ++ matched ++ after /\
    r_input (t_range t) = input /\ r_start (t_range t) = byte_len before /\ r_len (t_range t) = byte_len matched /\
    range_next (t_range t) = after.
Proof.
  intros Ho Hl Hin. destruct (later_inv _ _ _ _ _ Ho Hl) as (gh & d & HI).
  pose proof (inv_t _ _ _ _ _ _ HI) as HT. apply In_nth_error in Hin. destruct Hin as [i Hi].
  destruct (nth_error gh i) as [x|] eqn:Ex.
  2:{ apply nth_error_None in Ex. apply nth_error_lt in Hi. rewrite (ti_len _ _ _ _ _ HT) in Hi. lia. }
  pose proof (ti_rel _ _ _ _ _ HT _ _ _ Hi Ex) as R.
  pose proof (tr_range _ _ _ _ _ _ _ R) as Er. destruct (tr_pos _ _ _ _ _ _ _ R) as (a & b & Ei & Ea).
  exists a, (yields (i_kids x)), b. rewrite Er. simpl. repeat (split; [congruence || reflexivity|]).
  unfold range_next; simpl. rewrite <- Ea, <- byte_len_app. rewrite Ei at 1. rewrite app_assoc, str_get_from_app. reflexivity.
Qed.

Lemma inside_no_clamp g start input it st i t m par : opens g start input it -> later (gp_pg (it_parser it)) (it_state it) st ->
  nth_error (tt_arena (s_tree st)) i = Some t -> t_from t = Some (m, par) ->
  exists tp, nth_error (tt_arena (s_tree st)) par = Some tp /\
    r_start (t_range t) = r_start (t_range tp) /\
    match m with
    | MTerminal s => r_len (t_range t) = r_len (t_range tp) + byte_len s
    | MNonterminal c => exists tc, nth_error (tt_arena (s_tree st)) c = Some tc /\
        r_start (t_range tc) = r_start (t_range tp) + r_len (t_range tp) /\
        r_len (t_range t) = r_len (t_range tp) + r_len (t_range tc)
    end.
Proof.
  intros Ho Hl Hi Hf. destruct (later_inv _ _ _ _ _ Ho Hl) as (gh & d & HI).
  pose proof (inv_t _ _ _ _ _ _ HI) as HT.
  destruct (nth_error gh i) as [x|] eqn:Ex.
  2:{ apply nth_error_None in Ex. apply nth_error_lt in Hi. rewrite (ti_len _ _ _ _ _ HT) in Hi. lia. }
  pose proof (ti_rel _ _ _ _ _ HT _ _ _ Hi Ex) as R.
  pose proof (tr_from _ _ _ _ _ _ _ R) as Hfr. unfold from_ok in Hfr. rewrite Hf in Hfr.
  destruct Hfr as (_ & pit & k & Hpit & -> & Hk).
  destruct (TInv_arena _ _ _ _ _ _ _ HT Hpit) as (tp & Htp & Rp).
  exists tp. split; [assumption|]. rewrite (tr_range _ _ _ _ _ _ _ R), (tr_range _ _ _ _ _ _ _ Rp).
  cbn [r_start r_len i_start i_kids i_snoc]. split; [reflexivity|]. rewrite yields_snoc, byte_len_app.
  destruct m as [s|c].
  - subst k. reflexivity.
  - destruct Hk as (_ & cit & Hcit & -> & Hst). destruct (TInv_arena _ _ _ _ _ _ _ HT Hcit) as (tc & Htc & Rc).
    exists tc. split; [assumption|]. rewrite (tr_range _ _ _ _ _ _ _ Rc). cbn [r_start r_len].
    split; [exact Hst|reflexivity].
Qed.

Lemma inside_sorted g start input it st k : opens g start input it -> later (gp_pg (it_parser it)) (it_state it) st ->
  StronglySorted lt (cm_lookup (cm_incomplete (s_comp st)) k) /\ StronglySorted lt (cm_lookup (cm_complete (s_comp st)) k).
Proof. intros Ho Hl. destruct (later_inv _ _ _ _ _ Ho Hl) as (gh & d & HI). exact (inv_sorted _ _ _ _ _ _ HI k). Qed.

(** The state after taking [n] traversals from the queue, for examples. *)
Definition after_steps (n : nat) (pg : parse_grammar) (st : pstate) : option pstate :=
  Nat.iter n (fun o => match o with
                       | Some st => match q_queue (s_queue st) with
                                    | id :: rest => match process pg (s_tree st) (mkQ (q_processed (s_queue st)) rest) (s_comp st) id with
                                                    | Ok (_, st1) => Some st1
                                                    | _ => None
                                                    end
                                    | [] => None
                                    end
                       | None => None
                       end) (Some st).
Lemma later_end pg st st1 st2 id rest found : later pg st st1 -> q_queue (s_queue st1) = id :: rest ->
  process pg (s_tree st1) (mkQ (q_processed (s_queue st1)) rest) (s_comp st1) id = Ok (found, st2) -> later pg st st2.
Proof. induction 1; intros Eq E; econstructor; eauto. constructor. Qed.
Lemma after_steps_later n pg st st1 : after_steps n pg st = Some st1 -> later pg st st1.
Proof.
  revert st1. unfold after_steps. induction n as [|n IH]; cbn [Nat.iter nat_rect]; intros st1 H; [injection H as <-; constructor|].
  destruct (Nat.iter n _ (Some st)) as [st'|] eqn:E; unfold Nat.iter in *; rewrite E in H; [|discriminate]. specialize (IH _ eq_refl).
  destruct (q_queue (s_queue st')) as [|id rest] eqn:Eq; [discriminate|].
  destruct (process _ _ _ _ _) as [[found st2]| |] eqn:Ep; try discriminate. injection H as <-. eapply later_end; eassumption.
Qed.

Definition inside_loop : piter := start_of loop_grammar (N_ "s") "z".
Lemma inside_example : exists it, opens loop_grammar (N_ "s") (lit "z") it /\ (forall fuel, iter_next fuel it = OutOfFuel) /\
  exists st, later (gp_pg (it_parser it)) (it_state it) st /\ List.length (tt_arena (s_tree st)) = 8 /\ q_queue (s_queue st) = [6; 7] /\
    option_map t_from (nth_error (tt_arena (s_tree st)) 7) = Some (Some (MNonterminal 5, 1)) /\
    cm_lookup (cm_complete (s_comp st)) (N_ "a", 0) = [3; 5].
Proof.
  assert (Ho : opens loop_grammar (N_ "s") (lit "z") inside_loop) by (apply opens_deprecated_with; vm_compute; reflexivity).
  exists inside_loop. split; [exact Ho|]. split; [exact (loop_diverges _ Ho)|].
  destruct (after_steps 6 (gp_pg (it_parser inside_loop)) (it_state inside_loop)) as [st|] eqn:E; [|vm_compute in E; discriminate].
  exists st. split; [exact (after_steps_later _ _ _ _ E)|]. vm_compute in E. injection E as <-. repeat split.
Qed.
