(** Proofs about the tree formats. *)
From Verif Require Export TreeFormat TreeSpec EarleyMain.
From Verif Require DecimalProofs.
From Coq Require String.
Import String.StringSyntax.

(** ** Display *)

(** The inner loop of [fmt_tree], by name. *)
Definition fmt_kids (depth : nat) := fix loop (ks : list (node term)) (set : format_set) {struct ks} : str * format_set :=
  match ks with
  | nil => ([], set)
  | k :: ks' =>
      let last := match ks' with nil => true | _ => false end in
      let set := if last then fs_remove depth set else set in
      let (out, set) := match k with
                        | Leaf s => (fmt_node_prefix set (depth + 1) last ++ quoted s ++ newline, set)
                        | Sub t => fmt_tree t set (depth + 1) last
                        end in
      let (rest, set) := loop ks' set in
      (out ++ rest, set)
  end.

Lemma fmt_kids_cons depth k ks' set : fmt_kids depth (k :: ks') set =
      let last := match ks' with nil => true | _ => false end in
      let set := if last then fs_remove depth set else set in
      let (out, set) := match k with
                        | Leaf s => (fmt_node_prefix set (depth + 1) last ++ quoted s ++ newline, set)
                        | Sub t => fmt_tree t set (depth + 1) last
                        end in
      let (rest, set) := fmt_kids depth ks' set in
      (out ++ rest, set).
Proof. reflexivity. Qed.

Lemma fmt_tree_eq lhs kids set depth il : fmt_tree (Node lhs kids) set depth il =
  let set := fs_insert depth set in
  let head := fmt_node_prefix set depth il ++ fmt_header lhs kids ++ newline in
  let (body, set) := fmt_kids depth kids set in (head ++ body, set).
Proof. reflexivity. Qed.

(** The column set shows, for each column, whether the ancestor there has further siblings. *)
Definition agree (set : format_set) (lasts : list bool) : Prop :=
  forall i b, nth_error lasts i = Some b -> fs_contains i set = negb b.

Lemma fs_contains_insert i d s : fs_contains i (fs_insert d s) = Nat.eqb i d || fs_contains i s.
Proof. reflexivity. Qed.
Lemma fs_contains_remove i d s : fs_contains i (fs_remove d s) = negb (Nat.eqb i d) && fs_contains i s.
Proof.
  unfold fs_contains, fs_remove. induction s as [|x s IH]; cbn [filter existsb]; [rewrite andb_false_r; reflexivity|].
  destruct (Nat.eqb_spec x d) as [->|Hx]; cbn [negb existsb].
  - rewrite IH. destruct (Nat.eqb_spec i d); cbn; reflexivity.
  - rewrite IH. destruct (Nat.eqb_spec i x) as [->|]; cbn; [|reflexivity].
    destruct (Nat.eqb_spec x d); [contradiction|]. reflexivity.
Qed.

Lemma prefix_glyphs set lasts own : agree set lasts ->
  match rev lasts with nil => True | b :: _ => b = own end ->
  fmt_node_prefix set (length lasts) own = glyphs lasts.
Proof.
  intros Ha Hown. destruct (rev lasts) as [|b anc] eqn:E.
  - apply (f_equal (@rev bool)) in E. rewrite rev_involutive in E. subst lasts. reflexivity.
  - apply (f_equal (@rev bool)) in E. rewrite rev_involutive in E. cbn in E. subst lasts b.
    set (l := rev anc) in *. clearbody l. clear anc. unfold fmt_node_prefix. rewrite app_length. cbn [length].
    replace (length l + 1) with (S (length l)) by lia. rewrite seq_S. rewrite flat_map_app.
    cbn [flat_map Nat.add]. replace (length l + 1) with (S (length l)) by lia. rewrite Nat.eqb_refl, app_nil_r.
    assert (Hg : glyphs (l ++ [own]) = flat_map (fun b : bool => if b then last_grandchild_prefix else grandchild_prefix) l
      ++ (if own then last_child_prefix else child_prefix)).
    { clear. induction l as [|a l IH]; [reflexivity|]. cbn [app flat_map]. rewrite <- app_assoc, <- IH.
      destruct l; reflexivity. }
    rewrite Hg. f_equal.
    assert (Hgen : forall l' off n, (forall i b, nth_error l' i = Some b -> fs_contains (off + i) set = negb b) ->
       off + length l' <= n ->
       flat_map (fun idx => if Nat.eqb (idx + 1) (S n) then if own then last_child_prefix else child_prefix
         else if fs_contains idx set then grandchild_prefix else last_grandchild_prefix) (seq off (length l')) =
       flat_map (fun b : bool => if b then last_grandchild_prefix else grandchild_prefix) l').
    { clear. induction l' as [|a l' IH]; intros off n H Hn; [reflexivity|]. cbn [length seq flat_map].
      cbn [length] in Hn. destruct (Nat.eqb_spec (off + 1) (S n)); [lia|].
      pose proof (H 0 a eq_refl) as H0. rewrite Nat.add_0_r in H0. rewrite H0. f_equal; [destruct a; reflexivity|].
      apply IH; [|lia]. intros i b Hi. specialize (H (S i) b Hi). replace (S off + i) with (off + S i) by lia. exact H. }
    apply Hgen; [|lia]. intros i b Hi. apply Ha. rewrite nth_error_app1; [assumption|].
    eapply nth_error_lt; exact Hi.
Qed.

Lemma flat_map_ext_in {A B} (f h : A -> list B) l : (forall x, In x l -> f x = h x) -> flat_map f l = flat_map h l.
Proof.
  intro H. induction l as [|a l IH]; [reflexivity|]. cbn. rewrite (H a (or_introl eq_refl)). f_equal.
  apply IH. intros; apply H; right; assumption.
Qed.

Lemma header_line l kids : fmt_header l kids = node_line (Sub (Node l kids)).
Proof.
  unfold fmt_header. cbn [node_line]. rewrite flat_map_concat_map. reflexivity.
Qed.

Lemma render_app a b : render (a ++ b) = render a ++ render b.
Proof. unfold render. rewrite map_app, concat_app. reflexivity. Qed.

Lemma agree_snoc set lasts b : agree set lasts -> fs_contains (length lasts) set = negb b -> agree set (lasts ++ [b]).
Proof.
  intros Ha Hb i x Hi. destruct (Nat.lt_ge_cases i (length lasts)) as [Hlt|Hge].
  - rewrite nth_error_app1 in Hi by assumption. apply Ha; assumption.
  - rewrite nth_error_app2 in Hi by assumption. destruct (i - length lasts) as [|k] eqn:Ek.
    + cbn in Hi. injection Hi as <-. replace i with (length lasts) by lia. assumption.
    + destruct k; discriminate.
Qed.

Lemma fmt_tree_spec : forall t set lasts own, agree set lasts ->
  match rev lasts with nil => True | b :: _ => b = own end ->
  exists out, drawing lasts (Sub t) out /\
    fst (fmt_tree t set (length lasts) own) = render out /\
    (forall i, i < length lasts -> fs_contains i (snd (fmt_tree t set (length lasts) own)) = fs_contains i set).
Proof.
  induction t as [l kids IH] using tree_ind'. intros set lasts own Ha Hown. rewrite fmt_tree_eq. cbv zeta.
  set (d := length lasts) in *. set (set1 := fs_insert d set).
  assert (Ha1 : agree set1 lasts).
  { intros i b Hi. unfold set1. rewrite fs_contains_insert. pose proof (nth_error_lt _ _ _ Hi).
    destruct (Nat.eqb_spec i d); [unfold d in *; lia|]. apply Ha. assumption. }
  assert (Hd1 : kids <> [] -> fs_contains d set1 = true) by (intros _; unfold set1; rewrite fs_contains_insert, Nat.eqb_refl; reflexivity).
  assert (Hkids : forall ks set, (forall t, In (Sub t) ks -> In (Sub t) kids) -> agree set lasts -> (ks <> [] -> fs_contains d set = true) ->
    exists outs, drawings lasts (with_last ks) outs /\ fst (fmt_kids d ks set) = render outs /\
      forall i, i < d -> fs_contains i (snd (fmt_kids d ks set)) = fs_contains i set).
  { clear set1 Ha1 Hd1 set Ha Hown. induction ks as [|k ks IHk]; intros set Hin Ha Hd.
    - exists []. split; [constructor|]. split; reflexivity.
    - rewrite fmt_kids_cons. cbn [with_last]. set (last := match ks with [] => true | _ => false end).
      set (set2 := if last then fs_remove d set else set).
      assert (Hlow : forall i, i < d -> fs_contains i set2 = fs_contains i set).
      { intros i Hi. unfold set2. destruct last; [|reflexivity]. rewrite fs_contains_remove.
        destruct (Nat.eqb_spec i d); [lia|reflexivity]. }
      assert (Ha2 : agree set2 lasts).
      { intros i b Hi. rewrite Hlow; [apply Ha; assumption|]. eapply nth_error_lt; exact Hi. }
      assert (Hd2 : fs_contains d set2 = negb last).
      { unfold set2. destruct last; [|apply Hd; discriminate]. rewrite fs_contains_remove, Nat.eqb_refl. reflexivity. }
      pose proof (agree_snoc _ _ _ Ha2 Hd2) as Ha3.
      assert (Hlen : length (lasts ++ [last]) = d + 1) by (rewrite app_length; reflexivity).
      assert (Hr : match rev (lasts ++ [last]) with nil => True | b :: _ => b = last end) by (rewrite rev_app_distr; reflexivity).
      assert (Hchild : exists out, drawing (lasts ++ [last]) k out /\
        let r := match k with
                 | Leaf s => (fmt_node_prefix set2 (d + 1) last ++ quoted s ++ newline, set2)
                 | Sub t => fmt_tree t set2 (d + 1) last
                 end in
        fst r = render out /\ forall i, i < d + 1 -> fs_contains i (snd r) = fs_contains i set2).
      { destruct k as [s|t].
        - eexists. split; [constructor|]. cbv zeta. cbn [fst snd]. split; [|reflexivity].
          rewrite <- Hlen, (prefix_glyphs set2 _ last Ha3 Hr). unfold render. cbn. rewrite app_nil_r.
          unfold quoted, newline. rewrite <- !app_assoc. reflexivity.
        - destruct (IH t (Hin t (or_introl eq_refl)) set2 (lasts ++ [last]) last Ha3 Hr) as (out & H1 & H2 & H3).
          rewrite Hlen in H2, H3. exists out. auto. }
      destruct Hchild as (out & Hdr & Hout & Hset). cbv zeta in Hout, Hset.
      match goal with |- context [match k with Leaf s => @?A s | Sub t => @?B t end] => idtac end.
      destruct (match k with
                 | Leaf s => (fmt_node_prefix set2 (d + 1) last ++ quoted s ++ newline, set2)
                 | Sub t => fmt_tree t set2 (d + 1) last
                 end) as [o set3]. cbn [fst snd] in Hout, Hset.
      destruct (IHk set3) as (outs & H1 & H2 & H3).
      + intros t Ht. apply Hin. right; assumption.
      + intros i b Hi. rewrite Hset; [apply Ha2; assumption|]. apply nth_error_lt in Hi. fold d in Hi. lia.
      + intro Hne. rewrite Hset by lia. rewrite Hd2. unfold last. destruct ks; [contradiction|reflexivity].
      + destruct (fmt_kids d ks set3) as [rest set4]. cbn [fst snd] in *.
        exists (out ++ outs). split; [constructor; assumption|]. split; [rewrite render_app; congruence|].
        intros i Hi. rewrite H3, Hset, Hlow by lia. reflexivity. }
  destruct (Hkids kids set1 (fun t H => H) Ha1 Hd1) as (outs & H1 & H2 & H3).
  destruct (fmt_kids d kids set1) as [body set2]. cbn [fst snd] in *.
  eexists. split; [constructor; exact H1|]. split.
  - unfold d. rewrite (prefix_glyphs set1 lasts own Ha1 Hown). rewrite header_line. unfold render. cbn [map concat fst snd].
    fold (render outs). rewrite H2. unfold newline. rewrite <- !app_assoc. reflexivity.
  - intros i Hi. rewrite H3 by assumption. unfold set1. rewrite fs_contains_insert.
    destruct (Nat.eqb_spec i d); [lia|reflexivity].
Qed.

Lemma display_tree_spec t : exists lines, drawing [] (Sub t) lines /\ display_tree t = render lines.
Proof.
  destruct (fmt_tree_spec t [] [] true) as (out & H1 & H2 & _); [intros i b H; destruct i; discriminate|exact I|].
  exists out. split; [assumption|exact H2].
Qed.

Lemma drawing_unique :
  (forall lasts k out, drawing lasts k out -> forall out', drawing lasts k out' -> out = out') /\
  (forall lasts ks out, drawings lasts ks out -> forall out', drawings lasts ks out' -> out = out').
Proof.
  apply drawing_mutind.
  - intros lasts s out' H. inversion H; subst. reflexivity.
  - intros lasts l kids out H IH out' H'. inversion H'; subst. f_equal. apply IH. assumption.
  - intros lasts out' H. inversion H; subst. reflexivity.
  - intros lasts b k ks out outs H IH Hs IHs out' H'. inversion H'; subst. f_equal; auto.
Qed.

(** ** Mermaid *)

Definition mermaid_kids (lhs_count : nat) (lhs_escaped : str) := fix loop (ks : list (node term)) (count : nat) {struct ks} : res (str * nat) :=
  match ks with
  | nil => Ok ([], count)
  | k :: ks' =>
      let count := count + 1 in
      let* (out, count) :=
        match k with
        | Leaf s => Ok (mermaid_line lhs_count lhs_escaped count (escape_mermaid_label s), count)
        | Sub t' =>
            let* rhs := mermaid_lhs (match t' with Node l' _ => l' end) in
            let line := mermaid_line lhs_count lhs_escaped count (escape_mermaid_label rhs) in
            let* (out, count) := mermaid_fmt t' count in
            Ok (line ++ out, count)
        end in
      let* (rest, count) := loop ks' count in
      Ok (out ++ rest, count)
  end.

Lemma mermaid_kids_cons lhs_count lhs_escaped k ks' count : mermaid_kids lhs_count lhs_escaped (k :: ks') count =
      let count := count + 1 in
      let* (out, count) :=
        match k with
        | Leaf s => Ok (mermaid_line lhs_count lhs_escaped count (escape_mermaid_label s), count)
        | Sub t' =>
            let* rhs := mermaid_lhs (match t' with Node l' _ => l' end) in
            let line := mermaid_line lhs_count lhs_escaped count (escape_mermaid_label rhs) in
            let* (out, count) := mermaid_fmt t' count in
            Ok (line ++ out, count)
        end in
      let* (rest, count) := mermaid_kids lhs_count lhs_escaped ks' count in
      Ok (out ++ rest, count).
Proof. reflexivity. Qed.

Lemma mermaid_fmt_eq l kids count : mermaid_fmt (Node l kids) count =
  let header := if Nat.eqb count 0 then lit "flowchart TD" ++ newline else [] in
  let* lhs := mermaid_lhs l in
  let* (body, count) := mermaid_kids count (escape_mermaid_label lhs) kids count in
  Ok (header ++ body, count).
Proof. reflexivity. Qed.

Definition edge_line (e : (nat * str) * (nat * str)) : str :=
  mermaid_line (fst (fst e)) (escape_mermaid_label (snd (fst e))) (fst (snd e)) (escape_mermaid_label (snd (snd e))).

Lemma tree_size_eq l kids : tree_size (Node l kids) = S (list_sum (map node_size kids)).
Proof. reflexivity. Qed.
Lemma tree_size_pos t : 1 <= tree_size t.
Proof. destruct t. rewrite tree_size_eq. lia. Qed.

Lemma mermaid_fmt_spec : forall t c, all_nonterminal t ->
  exists es, edges c t es /\
    mermaid_fmt t c = Ok ((if Nat.eqb c 0 then lit "flowchart TD" ++ newline else []) ++ concat (map edge_line es), c + tree_size t - 1).
Proof.
  induction t as [l kids IH] using tree_ind'. intros c Hn. inversion Hn as [n kids' Hk]; subst. rewrite mermaid_fmt_eq.
  cbn [mermaid_lhs rbind]. cbv zeta.
  assert (Hkids : forall ks m, (forall t, In (Sub t) ks -> In (Sub t) kids) ->
    exists es, edges_from c n (m + 1) ks es /\
      mermaid_kids c (escape_mermaid_label n) ks m = Ok (concat (map edge_line es), m + list_sum (map node_size ks))).
  { induction ks as [|k ks IHk]; intros m Hin.
    - exists []. split; [constructor|]. cbn. repeat f_equal. lia.
    - rewrite mermaid_kids_cons. destruct k as [s|t].
      + destruct (IHk (m + 1)) as (es & H1 & H2); [intros; apply Hin; right; assumption|].
        eexists. split; [constructor; exact H1|]. cbn [rbind]. rewrite H2. cbn [rbind map concat].
        f_equal. f_equal. change (list_sum (node_size (Leaf s) :: map node_size ks)) with (S (list_sum (map node_size ks))). lia.
      + pose proof (Hk t (Hin t (or_introl eq_refl))) as Hnt.
        destruct (IH t (Hin t (or_introl eq_refl)) (m + 1) Hnt) as (es1 & E1 & F1).
        inversion Hnt as [n' kids'' Hk' E]; subst t. cbn [mermaid_lhs rbind] in *. rewrite F1. cbn [rbind].
        destruct (IHk (m + tree_size (Node (Nonterminal n') kids''))) as (es2 & H1 & H2); [intros; apply Hin; right; assumption|].
        pose proof (tree_size_pos (Node (Nonterminal n') kids'')) as Hpos.
        replace (m + 1 + tree_size (Node (Nonterminal n') kids'') - 1) with (m + tree_size (Node (Nonterminal n') kids'')) by lia.
        rewrite H2. cbn [rbind]. eexists. split.
        * apply ef_sub; [exact E1|]. replace (m + 1 + tree_size (Node (Nonterminal n') kids'')) with (m + tree_size (Node (Nonterminal n') kids'') + 1) by lia. exact H1.
        * cbn [map concat]. rewrite map_app, concat_app. destruct (Nat.eqb_spec (m + 1) 0); [lia|]. cbn [app].
          unfold edge_line at 3. cbn [fst snd label root].
          rewrite app_assoc. f_equal. f_equal.
          change (list_sum (node_size (Sub (Node (Nonterminal n') kids'')) :: map node_size ks)) with (tree_size (Node (Nonterminal n') kids'') + list_sum (map node_size ks)). lia. }
  destruct (Hkids kids c (fun t H => H)) as (es & H1 & H2). exists es. split; [constructor; exact H1|].
  rewrite H2. cbn [rbind]. f_equal. f_equal. rewrite tree_size_eq. lia.
Qed.

Lemma display_mermaid_spec t : all_nonterminal t -> exists es, edges 0 t es /\
  display_mermaid t = Ok (lit "flowchart TD" ++ [10%N] ++ concat (map edge_line es)).
Proof.
  intro H. destruct (mermaid_fmt_spec t 0 H) as (es & H1 & H2). exists es. split; [assumption|].
  unfold display_mermaid. rewrite H2. cbn [Nat.eqb rbind]. unfold newline. rewrite <- app_assoc. reflexivity.
Qed.

Lemma edges_numbers :
  (forall n t es, edges n t es -> map (fun e => fst (snd e)) es = seq (n + 1) (tree_size t - 1) /\
     forall e, In e es -> n <= fst (fst e) /\ fst (fst e) < fst (snd e)) /\
  (forall n a m ks es, edges_from n a m ks es -> n < m -> map (fun e => fst (snd e)) es = seq m (list_sum (map node_size ks)) /\
     forall e, In e es -> n <= fst (fst e) /\ fst (fst e) < fst (snd e)).
Proof.
  apply edges_mutind.
  - intros n l kids es H IH. rewrite tree_size_eq. destruct (IH ltac:(lia)) as [H1 H2]. split; [|assumption].
    rewrite H1. f_equal. lia.
  - intros. split; [reflexivity|]. intros e [].
  - intros n a m s ks es H IH Hlt. destruct (IH ltac:(lia)) as [H1 H2]. cbn [map snd fst].
    split.
    + change (list_sum (node_size (Leaf s) :: map node_size ks)) with (S (list_sum (map node_size ks))). cbn [seq].
      f_equal. rewrite H1. f_equal. lia.
    + intros e [<-|He]; [cbn; lia|auto].
  - intros n a m t ks es1 es2 H1 IH1 H2 IH2 Hlt. pose proof (tree_size_pos t) as Hp.
    destruct IH1 as [A1 B1]. destruct (IH2 ltac:(lia)) as [A2 B2]. cbn [map snd fst]. split.
    + change (list_sum (node_size (Sub t) :: map node_size ks)) with (tree_size t + list_sum (map node_size ks)).
      rewrite map_app, A1, A2.
      replace (tree_size t + list_sum (map node_size ks)) with (S (tree_size t - 1) + list_sum (map node_size ks)) by lia.
      rewrite seq_app. cbn [seq app]. f_equal. replace (m + 1) with (S m) by lia.
      replace (m + S (tree_size t - 1)) with (m + tree_size t) by lia. reflexivity.
    + intros e [<-|He]; [cbn; lia|]. apply in_app_or in He. destruct He as [He|He]; [|auto].
      destruct (B1 e He). split; [lia|assumption].
Qed.

(** ** Escaping *)

Lemma special_dec c : existsb (N.eqb c) mermaid_escape_chars = true <-> mermaid_special c.
Proof.
  unfold mermaid_special. rewrite existsb_exists. split.
  - intros (x & Hx & E). apply N.eqb_eq in E. subst x. exact Hx.
  - intro H. exists c. split; [exact H|apply N.eqb_refl].
Qed.

Lemma escape_eq s : escape_mermaid_label s = flat_map escape_char s.
Proof.
  unfold escape_mermaid_label. assert (H : forall s acc, fold_left (fun out c => out ++ escape_char c) s acc = acc ++ flat_map escape_char s).
  { induction s0 as [|c s0 IH]; intro acc; cbn; [rewrite app_nil_r; reflexivity|]. rewrite IH, <- app_assoc. reflexivity. }
  apply H.
Qed.

Lemma escape_decodes s : decodes (escape_mermaid_label s) s.
Proof.
  rewrite escape_eq. induction s as [|c s IH]; [constructor|]. cbn [flat_map]. unfold escape_char at 1.
  destruct (existsb (N.eqb c) mermaid_escape_chars) eqn:E.
  - rewrite <- !app_assoc. apply dc_entity; [apply DecimalProofs.dec_N_decimal|assumption].
  - cbn [app]. apply dc_plain; [|assumption]. intros ->. discriminate.
Qed.

Lemma digits_split a b a' b' : Forall (fun c => is_digit c = true) a -> Forall (fun c => is_digit c = true) a' ->
  a ++ 59%N :: b = a' ++ 59%N :: b' -> a = a' /\ b = b'.
Proof.
  intros Ha. revert a'. induction Ha as [|c a Hc Ha IH]; intros a' Ha' E; destruct Ha' as [|c' a' Hc' Ha'].
  - injection E as <-. auto.
  - injection E as <- _. discriminate.
  - injection E as -> _. discriminate.
  - injection E as <- E. destruct (IH _ Ha' E) as [-> ->]. auto.
Qed.

Lemma dec_N_inj n m : dec_N n = dec_N m -> n = m.
Proof.
  intro H. apply uint_str_inj in H. rewrite <- (DecimalN.Unsigned.of_to n), <- (DecimalN.Unsigned.of_to m), H. reflexivity.
Qed.

Lemma decodes_det s t : decodes s t -> forall t', decodes s t' -> t = t'.
Proof.
  induction 1 as [|c s t Hc H IH|d c s t Hd H IH]; intros t' H'.
  - inversion H'; reflexivity.
  - inversion H' as [|? ? ? ? Ht|? ? ? ? ? ? E]; subst; [f_equal; auto|congruence].
  - inversion H' as [|? ? ? Hne ? E|d' c' s' t'' Hd' Hs E]; [congruence|].
    apply DecimalProofs.C41_numbers_proof in Hd. apply DecimalProofs.C41_numbers_proof in Hd'. subst d d'.
    apply app_inv_head in E || idtac.
    assert (E' : dec_N c' ++ 59%N :: s' = dec_N c ++ 59%N :: s) by congruence.
    apply digits_split in E'; try apply dec_N_digits. destruct E' as [E1 ->]. apply dec_N_inj in E1. subst. f_equal. auto.
Qed.

Lemma escape_inj s s' : escape_mermaid_label s = escape_mermaid_label s' -> s = s'.
Proof.
  intro H. pose proof (escape_decodes s) as Hs. rewrite H in Hs.
  exact (decodes_det _ _ Hs _ (escape_decodes s')).
Qed.

Lemma escape_safe s c : In c (escape_mermaid_label s) -> mermaid_special c -> c = 35%N \/ c = 59%N.
Proof.
  rewrite escape_eq, in_flat_map. intros (x & Hx & Hc) Hsp. unfold escape_char in Hc.
  destruct (existsb (N.eqb x) mermaid_escape_chars) eqn:E.
  - cbn in Hc. destruct Hc as [<-|Hc]; [auto|]. apply in_app_or in Hc. destruct Hc as [Hc|[<-|[]]]; [|auto].
    pose proof (dec_N_digits x) as Hd. rewrite Forall_forall in Hd. specialize (Hd c Hc).
    exfalso. unfold mermaid_special in Hsp. cbn in Hsp.
    repeat match type of Hsp with _ \/ _ => destruct Hsp as [<-|Hsp]; [discriminate|] end. destruct Hsp.
  - destruct Hc as [<-|[]]. apply special_dec in Hsp. congruence.
Qed.

Lemma escape_plain s : (forall c, In c s -> ~ mermaid_special c) -> escape_mermaid_label s = s.
Proof.
  intro H. rewrite escape_eq. induction s as [|c s IH]; [reflexivity|]. cbn [flat_map]. unfold escape_char.
  destruct (existsb (N.eqb c) mermaid_escape_chars) eqn:E.
  - apply special_dec in E. destruct (H c (or_introl eq_refl) E).
  - cbn. f_equal. apply IH. intros; apply H; right; assumption.
Qed.

(** ** Trees returned by the parser *)

Lemma derives_all_nonterminal g t : (forall p, In p g -> exists n, p_lhs p = Nonterminal n) ->
  derives g t -> all_nonterminal t.
Proof.
  intro Hg. induction t as [l kids IH] using tree_ind'. intro Hd.
  inversion Hd as [p rhs kids' Hp Hr Hk E]; subst. destruct (Hg p Hp) as [n ->]. constructor.
  intros t Ht. apply IH; [assumption|]. clear - Hk Ht.
  induction Hk as [|s r ks Hk IHk|m t' r ks Hroot Ht' Hk IHk]; [destruct Ht|destruct Ht as [E|Ht]; [discriminate|auto]|].
  destruct Ht as [E|Ht]; [injection E as <-; assumption|auto].
Qed.

Lemma mermaid_no_panic t : all_nonterminal t -> exists s, display_mermaid t = Ok s.
Proof. intro H. destruct (display_mermaid_spec t H) as (es & _ & ->). eauto. Qed.
