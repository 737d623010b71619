(** The parse trees of random postal addresses: a name of k letters can be cut into first names in
    2 ^ (k - 1) ways, and has probability of the order of 1 / 2 ^ k. *)
From Verif Require Export PostalProofs.
From Verif Require Import Facts_Walks WalkProofs EarleyMain.
From Coq Require Import Lia ArithRing.
From Coq Require String.
Import String.StringSyntax.
Open Scope list_scope.

(** ** Checking trees *)
Section Check.
  Variable g : grammar.
  Fixpoint match_kids (chk : ptree -> bool) (e : expression) (ks : list pnode) : bool :=
    match e, ks with
    | [], [] => true
    | Terminal s :: e, Leaf s' :: ks => str_eqb s s' && match_kids chk e ks
    | Nonterminal n :: e, Sub t :: ks => term_eqb (root t) (Nonterminal n) && chk t && match_kids chk e ks
    | _, _ => false
    end.
  Fixpoint check_tree (fuel : nat) (t : ptree) : bool :=
    match fuel, t with
    | 0, _ => false
    | S fuel, Node l ks => existsb (fun p => term_eqb (p_lhs p) l && existsb (fun e => match_kids (check_tree fuel) e ks) (p_rhs p)) g
    end.
  Lemma match_kids_spec chk e : (forall t, chk t = true -> derives g t) -> forall ks, match_kids chk e ks = true -> kids_match g e ks.
  Proof.
    intro Hc. induction e as [|[s|n] e IH]; intros [|[s'|t] ks] H; cbn [match_kids] in H; try discriminate; [constructor| |].
    - apply andb_true_iff in H. destruct H as [H1 H2]. apply str_eqb_eq in H1. subst s'. constructor. exact (IH _ H2).
    - apply andb_true_iff in H. destruct H as [H1 H2]. apply andb_true_iff in H1. destruct H1 as [H0 H1]. apply term_eqb_eq in H0.
      constructor; [exact H0|exact (Hc _ H1)|exact (IH _ H2)].
  Qed.
  Lemma check_tree_spec fuel : forall t, check_tree fuel t = true -> derives g t.
  Proof.
    induction fuel as [|fuel IH]; intros [l ks] H; [discriminate|]. cbn [check_tree] in H.
    apply existsb_exists in H. destruct H as (p & Hp & H). apply andb_true_iff in H. destruct H as [Hl H]. apply term_eqb_eq in Hl. subst l.
    apply existsb_exists in H. destruct H as (e & He & H). exact (derives_node g p e ks Hp He (match_kids_spec _ _ IH _ H)).
  Qed.
End Check.

Notation g := postal_grammar.

(** ** Cutting a word into pieces *)
Definition glue (c : char) (ss : list str) : list str := match ss with [] => [[c]] | s :: ss => (c :: s) :: ss end.
Fixpoint cuts (w : str) : list (list str) :=
  match w with
  | [] => []
  | [c] => [[[c]]]
  | c :: w' => map (cons [c]) (cuts w') ++ map (glue c) (cuts w')
  end.

Lemma cuts_cons c d w : cuts (c :: d :: w) = map (cons [c]) (cuts (d :: w)) ++ map (glue c) (cuts (d :: w)).
Proof. reflexivity. Qed.

Lemma cuts_spec c w : forall ss, In ss (cuts (c :: w)) -> concat ss = c :: w /\ ss <> [] /\ ~ In [] ss.
Proof.
  revert c. induction w as [|d w IH]; intros c ss H.
  - destruct H as [<-|[]]. split; [reflexivity|]. split; [discriminate|]. intros [H|[]]. discriminate.
  - rewrite cuts_cons, in_app_iff, !in_map_iff in H. destruct H as [(s & <- & H)|(s & <- & H)]; destruct (IH d s H) as (H1 & H2 & H3).
    + split; [cbn [concat app]; rewrite H1; reflexivity|]. split; [discriminate|]. intros [E|Hi]; [discriminate|contradiction].
    + destruct s as [|s0 s]; [contradiction|]. cbn [glue concat app] in *. split; [rewrite H1; reflexivity|]. split; [discriminate|].
      intros [E|Hi]; [discriminate|]. apply H3. right. exact Hi.
Qed.

Lemma cuts_length c w : length (cuts (c :: w)) = 2 ^ length w.
Proof.
  revert c. induction w as [|d w IH]; intro c; [reflexivity|].
  rewrite cuts_cons, app_length, !map_length, IH. change (length (d :: w)) with (S (length w)). rewrite Nat.pow_succ_r'. unfold str, char in *. rewrite (IH d). lia.
Qed.

Lemma NoDup_map_on {A B} (f : A -> B) l : (forall x y, In x l -> In y l -> f x = f y -> x = y) -> NoDup l -> NoDup (map f l).
Proof.
  intros Hf. induction 1 as [|x l Hx _ IH]; [constructor|]. cbn [map]. constructor.
  - intro H. apply in_map_iff in H. destruct H as (y & E & Hy). apply Hx. rewrite (Hf x y); [exact Hy|left; reflexivity|right; exact Hy|congruence].
  - apply IH. intros a b Ha Hb. apply Hf; right; assumption.
Qed.

Lemma cuts_NoDup c w : NoDup (cuts (c :: w)).
Proof.
  revert c. induction w as [|d w IH]; intro c.
  - constructor; [intros []|constructor].
  - rewrite cuts_cons. apply NoDup_app'.
    + apply NoDup_map_on; [|apply IH]. intros x y _ _ E. injection E as E. exact E.
    + apply NoDup_map_on; [|apply IH]. intros x y Hx Hy E. destruct (cuts_spec _ _ _ Hx) as (_ & Nx & _). destruct (cuts_spec _ _ _ Hy) as (_ & Ny & _).
      destruct x as [|x0 x]; [contradiction|]. destruct y as [|y0 y]; [contradiction|]. cbn [glue] in E. injection E as E1 E2. subst. reflexivity.
    + intros x H1 H2. apply in_map_iff in H1. destruct H1 as (a & <- & _). apply in_map_iff in H2. destruct H2 as (b & E & Hb).
      destruct (cuts_spec _ _ _ Hb) as (_ & Nb & Eb). destruct b as [|b0 b]; [contradiction|]. cbn [glue] in E. injection E as E _.
      apply Eb. left. exact E.
Qed.

(** ** The trees *)
Definition nd (n : String.string) (ks : list pnode) : ptree := Node (N_ n) ks.
Arguments nd n%string ks.
Definition letter_tree (c : char) : ptree := nd "letter" [Leaf [c]].
Fixpoint word_tree (w : str) : ptree :=
  match w with
  | [] => nd "name-word" []
  | [c] => nd "name-word" [Sub (letter_tree c)]
  | c :: w' => nd "name-word" [Sub (letter_tree c); Sub (word_tree w')]
  end.
Definition personal_tree (w : str) : ptree := nd "personal-part" [Sub (nd "first-name" [Sub (word_tree w)])].
Definition a_letter : ptree := letter_tree 65%N.
Definition eol_tree : ptree := nd "EOL" [Leaf (lit ";")].
Fixpoint name_tree (ss : list str) : ptree :=
  match ss with
  | [] => nd "name-part" []
  | [s] => nd "name-part" [Sub (personal_tree s); Sub (nd "last-name" [Sub (word_tree [65%N])]); Sub (nd "opt-suffix-part" [Leaf []]); Sub eol_tree]
  | s :: ss' => nd "name-part" [Sub (personal_tree s); Sub (name_tree ss')]
  end.
Definition digit_tree : ptree := nd "digit" [Leaf (lit "0")].
Definition plain_word : ptree := nd "word" [Sub a_letter].
Definition street_tree : ptree :=
  nd "street-address" [Sub (nd "house-num" [Sub digit_tree]); Sub (nd "street-name" [Sub plain_word]); Sub (nd "opt-apt-num" [Leaf []]); Sub eol_tree].
Definition zip_tree : ptree :=
  nd "zip-part" [Sub (nd "town-name" [Sub plain_word]); Leaf (lit ","); Sub (nd "state-code" [Sub a_letter; Sub a_letter]);
                 Sub (nd "ZIP-code" [Sub digit_tree; Sub digit_tree; Sub digit_tree; Sub digit_tree; Sub digit_tree]); Sub eol_tree].
Definition address_tree (ss : list str) : ptree := nd "postal-address" [Sub (name_tree ss); Sub street_tree; Sub zip_tree].

Lemma prod_in i p : nth_error g i = Some p -> In p g.
Proof. apply nth_error_In. Qed.

Lemma letter_derives c : In c letters -> derives g (letter_tree c).
Proof.
  intro H. apply (derives_node g (mkProd (N_ "letter") (one_of letters)) [Terminal [c]]).
  - apply (prod_in 20). reflexivity.
  - apply in_map_iff. exists c. split; [reflexivity|exact H].
  - repeat constructor.
Qed.

Lemma word_cons c d w : word_tree (c :: d :: w) = nd "name-word" [Sub (letter_tree c); Sub (word_tree (d :: w))].
Proof. reflexivity. Qed.
Lemma word_root w : root (word_tree w) = N_ "name-word".
Proof. destruct w as [|c [|d w]]; reflexivity. Qed.
Lemma word_yield w : yield (word_tree w) = w.
Proof.
  induction w as [|c w IH]; [reflexivity|]. destruct w as [|d w]; [reflexivity|]. rewrite word_cons.
  change (yield (nd "name-word" [Sub (letter_tree c); Sub (word_tree (d :: w))])) with ([c] ++ (yield (word_tree (d :: w)) ++ [])).
  rewrite IH, app_nil_r. reflexivity.
Qed.
Lemma word_derives w : w <> [] -> (forall c, In c w -> In c letters) -> derives g (word_tree w).
Proof.
  induction w as [|c w IH]; [contradiction|]. intros _ H.
  pose (p := mkProd (N_ "name-word") [[N_ "letter"]; [N_ "letter"; N_ "name-word"]]).
  assert (Hp : In p g) by (apply (prod_in 10); reflexivity).
  assert (Hc : derives g (letter_tree c)) by (apply letter_derives, H; left; reflexivity).
  destruct w as [|d w].
  - apply (derives_node g p [N_ "letter"]); [exact Hp|left; reflexivity|]. constructor; [reflexivity|exact Hc|constructor].
  - rewrite word_cons. apply (derives_node g p [N_ "letter"; N_ "name-word"]); [exact Hp|right; left; reflexivity|].
    constructor; [reflexivity|exact Hc|]. constructor; [apply word_root| |constructor]. apply IH; [discriminate|].
    intros x Hx. apply H. right. exact Hx.
Qed.

Lemma personal_yield w : yield (personal_tree w) = w.
Proof. change (yield (personal_tree w)) with ((yield (word_tree w) ++ []) ++ []). rewrite !app_nil_r. apply word_yield. Qed.
Lemma personal_derives w : w <> [] -> (forall c, In c w -> In c letters) -> derives g (personal_tree w).
Proof.
  intros Hw Hc.
  apply (derives_node g (mkProd (N_ "personal-part") [[N_ "initial"; T_ "."]; [N_ "first-name"]]) [N_ "first-name"]);
    [apply (prod_in 2); reflexivity|right; left; reflexivity|]. constructor; [reflexivity| |constructor].
  apply (derives_node g (mkProd (N_ "first-name") [[N_ "name-word"]]) [N_ "name-word"]);
    [apply (prod_in 8); reflexivity|left; reflexivity|]. constructor; [apply word_root| |constructor]. apply word_derives; assumption.
Qed.

Lemma name_cons s s' ss : name_tree (s :: s' :: ss) = nd "name-part" [Sub (personal_tree s); Sub (name_tree (s' :: ss))].
Proof. reflexivity. Qed.
Lemma name_root ss : root (name_tree ss) = N_ "name-part".
Proof. destruct ss as [|s [|s' ss]]; reflexivity. Qed.
Lemma name_yield ss : ss <> [] -> yield (name_tree ss) = concat ss ++ lit "A;".
Proof.
  induction ss as [|s ss IH]; [contradiction|]. intros _. destruct ss as [|s' ss].
  - change (yield (name_tree [s])) with (yield (personal_tree s) ++ (lit "A" ++ [] ++ (lit ";"))). rewrite personal_yield.
    cbn [concat]. rewrite app_nil_r. reflexivity.
  - rewrite name_cons. change (yield (nd "name-part" [Sub (personal_tree s); Sub (name_tree (s' :: ss))])) with (yield (personal_tree s) ++ (yield (name_tree (s' :: ss)) ++ [])).
    rewrite app_nil_r, IH, personal_yield by discriminate. cbn [concat]. rewrite <- !app_assoc. reflexivity.
Qed.

Definition name_rule : production :=
  mkProd (N_ "name-part") [[N_ "personal-part"; N_ "last-name"; N_ "opt-suffix-part"; N_ "EOL"]; [N_ "personal-part"; N_ "name-part"]].
Lemma last_derives : derives g (nd "last-name" [Sub (word_tree [65%N])]).
Proof. apply (check_tree_spec g 5). vm_compute. reflexivity. Qed.
Lemma suffix_derives : derives g (nd "opt-suffix-part" [Leaf []]).
Proof. apply (check_tree_spec g 5). vm_compute. reflexivity. Qed.
Lemma eol_derives : derives g eol_tree.
Proof. apply (check_tree_spec g 5). vm_compute. reflexivity. Qed.
Lemma name_derives ss : ss <> [] -> ~ In [] ss -> (forall c, In c (concat ss) -> In c letters) -> derives g (name_tree ss).
Proof.
  induction ss as [|s ss IH]; [contradiction|]. intros _ Hne Hc.
  assert (Hs : derives g (personal_tree s)).
  { apply personal_derives; [intros ->; apply Hne; left; reflexivity|]. intros c H. apply Hc. cbn [concat]. apply in_or_app. left. exact H. }
  destruct ss as [|s' ss].
  - apply (derives_node g name_rule [N_ "personal-part"; N_ "last-name"; N_ "opt-suffix-part"; N_ "EOL"]); [apply (prod_in 1); reflexivity|left; reflexivity|].
    constructor; [reflexivity|exact Hs|]. constructor; [reflexivity|exact last_derives|]. constructor; [reflexivity|exact suffix_derives|].
    constructor; [reflexivity|exact eol_derives|constructor].
  - rewrite name_cons. apply (derives_node g name_rule [N_ "personal-part"; N_ "name-part"]); [apply (prod_in 1); reflexivity|right; left; reflexivity|].
    constructor; [reflexivity|exact Hs|]. constructor; [apply name_root| |constructor]. apply IH; [discriminate| |].
    + intro H. apply Hne. right. exact H.
    + intros c H. apply Hc. cbn [concat] in *. apply in_or_app. right. exact H.
Qed.

Definition rest_of_address : str := lit "A;0A;A,AA00000;".
Lemma address_parses ss : ss <> [] -> ~ In [] ss -> (forall c, In c (concat ss) -> In c letters) ->
  parses g (N_ "postal-address") (concat ss ++ rest_of_address) (address_tree ss).
Proof.
  intros H1 H2 H3. split; [|split; [reflexivity|]].
  - apply (derives_node g (mkProd (N_ "postal-address") [[N_ "name-part"; N_ "street-address"; N_ "zip-part"]]) [N_ "name-part"; N_ "street-address"; N_ "zip-part"]);
      [apply (prod_in 0); reflexivity|left; reflexivity|].
    constructor; [apply name_root|exact (name_derives ss H1 H2 H3)|].
    constructor; [reflexivity|apply (check_tree_spec g 9); vm_compute; reflexivity|].
    constructor; [reflexivity|apply (check_tree_spec g 9); vm_compute; reflexivity|constructor].
  - change (yield (address_tree ss)) with (yield (name_tree ss) ++ (lit "0A;A,AA00000;")). rewrite name_yield by exact H1.
    rewrite <- app_assoc. reflexivity.
Qed.

Lemma name_inj ss : ss <> [] -> forall ss', ss' <> [] -> name_tree ss = name_tree ss' -> ss = ss'.
Proof.
  assert (Hp : forall a b, personal_tree a = personal_tree b -> a = b).
  { intros a b E. rewrite <- (personal_yield a), <- (personal_yield b), E. reflexivity. }
  induction ss as [|s ss IH]; [contradiction|]. intros _ [|s' ss'] H E; [contradiction|].
  destruct ss as [|t ss]; destruct ss' as [|t' ss']; rewrite ?name_cons in E.
  - unfold name_tree, nd in E. apply (f_equal (fun x => match x with Node _ (Sub y :: _) => y | _ => x end)) in E. cbv iota beta in E. f_equal. exact (Hp _ _ E).
  - exfalso. apply (f_equal (fun x => match x with Node _ ks => length ks end)) in E. change (4 = 2) in E. discriminate.
  - exfalso. apply (f_equal (fun x => match x with Node _ ks => length ks end)) in E. change (2 = 4) in E. discriminate.
  - pose proof (f_equal (fun x => match x with Node _ (Sub y :: _) => y | _ => x end) E) as E1. cbv iota beta delta [nd] in E1.
    pose proof (f_equal (fun x => match x with Node _ (_ :: Sub y :: _) => y | _ => x end) E) as E2. cbv iota beta delta [nd] in E2.
    rewrite (Hp _ _ E1), (IH ltac:(discriminate) (t' :: ss') ltac:(discriminate) E2). reflexivity.
Qed.
Lemma address_inj ss ss' : ss <> [] -> ss' <> [] -> address_tree ss = address_tree ss' -> ss = ss'.
Proof.
  intros H H' E. apply name_inj; [exact H|exact H'|].
  exact (f_equal (fun x => match x with Node _ (Sub y :: _) => y | _ => x end) E).
Qed.

(** As many trees as there are ways to cut the name. *)
Lemma many_trees c w : (forall x, In x (c :: w) -> In x letters) ->
  exists L, NoDup L /\ length L = 2 ^ length w /\ forall t, In t L -> parses g (N_ "postal-address") ((c :: w) ++ rest_of_address) t.
Proof.
  intro H. exists (map address_tree (cuts (c :: w))). split; [|split].
  - apply NoDup_map_on; [|apply cuts_NoDup]. intros x y Hx Hy. destruct (cuts_spec _ _ _ Hx) as (_ & Nx & _). destruct (cuts_spec _ _ _ Hy) as (_ & Ny & _).
    apply address_inj; assumption.
  - rewrite map_length. apply cuts_length.
  - intros t Ht. apply in_map_iff in Ht. destruct Ht as (ss & <- & Hs). destruct (cuts_spec _ _ _ Hs) as (E & Hn & He).
    rewrite <- E. apply address_parses; [exact Hn|exact He|]. rewrite E. exact H.
Qed.

(** ** The random walks *)
Notation wk := (walk g (fun _ _ : str => true) random_alternatives no_alternative).
Notation wks := (walks g (fun _ _ : str => true) random_alternatives no_alternative).

Lemma wk_one d n p k e m ds w : rule_of g n = Some p -> nth_error (p_rhs p) k = Some e -> length (p_rhs p) = m ->
  wks (d + 1) e ds (ROk w) -> wk d n ((k, m) :: ds) (ROk w).
Proof.
  intros Hr Hk <- Hw. apply rule_some in Hr. apply (wk_accept g _ random_alternatives no_alternative d n p k e ds w); [exact Hr| |exact Hk|exact Hw|reflexivity].
  destruct (first_for_In _ _ _ Hr) as [Hp _]. exact (postal_no_lone p Hp).
Qed.

Definition pick (n : str) : nat := if str_eqb n (lit "opt-apt-num") then 1 else if str_eqb n (lit "opt-suffix-part") then 3 else 0.
Ltac go := repeat match goal with
  | |- walk _ _ _ _ ?d ?n _ _ => let k := eval vm_compute in (pick n) in eapply (wk_one d n _ k); [vm_compute; reflexivity|vm_compute; reflexivity|vm_compute; reflexivity|]
  | |- walks _ _ _ _ _ [] _ _ => apply wks_nil
  | |- walks _ _ _ _ _ (Terminal _ :: _) _ _ => eapply wks_terminal
  | |- walks _ _ _ _ _ (Nonterminal _ :: _) _ _ => eapply wks_nonterminal
  end.

Lemma last_walk d : exists ds w, wk d (lit "last-name") ds (ROk w) /\ w = lit "A".
Proof. eexists _, _. split; [go|vm_compute; reflexivity]. Qed.
Lemma suffix_walk d : exists ds w, wk d (lit "opt-suffix-part") ds (ROk w) /\ w = [].
Proof. eexists _, _. split; [go|vm_compute; reflexivity]. Qed.
Lemma eol_walk d : exists ds w, wk d (lit "EOL") ds (ROk w) /\ w = lit ";".
Proof. eexists _, _. split; [go|vm_compute; reflexivity]. Qed.
Lemma street_walk d : exists ds w, wk d (lit "street-address") ds (ROk w) /\ w = lit "0A;".
Proof. eexists _, _. split; [go|vm_compute; reflexivity]. Qed.
Lemma zip_walk d : exists ds w, wk d (lit "zip-part") ds (ROk w) /\ w = lit "A,AA00000;".
Proof. eexists _, _. split; [go|vm_compute; reflexivity]. Qed.

(** The draws for a word, given by the numbers of its letters. *)
Definition letter_at (i : nat) : char := nth i letters 0%N.
Fixpoint word_draws (is : list nat) : list draw :=
  match is with
  | [] => []
  | [i] => [(0, 2); (i, 52)]
  | i :: is' => (1, 2) :: (i, 52) :: word_draws is'
  end.
Lemma word_draws_cons i j is : word_draws (i :: j :: is) = (1, 2) :: (i, 52) :: word_draws (j :: is).
Proof. reflexivity. Qed.

Lemma letter_walk d i : i < 52 -> wk d (lit "letter") [(i, 52)] (ROk [letter_at i]).
Proof.
  intro Hi. apply (wk_one d (lit "letter") (mkProd (N_ "letter") (one_of letters)) i [Terminal [letter_at i]]); [vm_compute; reflexivity| |reflexivity|].
  - cbn [p_rhs]. unfold one_of. apply (map_nth_error (fun c => [Terminal [c]])). apply nth_error_nth'. exact Hi.
  - change [letter_at i] with ([letter_at i] ++ []). apply wks_terminal. apply wks_nil.
Qed.
Lemma word_walk is : is <> [] -> (forall i, In i is -> i < 52) -> forall d, wk d (lit "name-word") (word_draws is) (ROk (map letter_at is)).
Proof.
  induction is as [|i is IH]; [contradiction|]. intros _ H d.
  assert (Hi : forall d, wk d (lit "letter") [(i, 52)] (ROk [letter_at i])) by (intro; apply letter_walk, H; left; reflexivity).
  pose (p := mkProd (N_ "name-word") [[N_ "letter"]; [N_ "letter"; N_ "name-word"]]).
  destruct is as [|j is].
  - apply (wk_one d (lit "name-word") p 0 [N_ "letter"] 2 ([(i, 52)] ++ []) ([letter_at i] ++ [])); [reflexivity..|].
    apply wks_nonterminal; [apply Hi|apply wks_nil].
  - rewrite word_draws_cons.
    change (map letter_at (i :: j :: is)) with ([letter_at i] ++ map letter_at (j :: is)). rewrite <- (app_nil_r (map letter_at (j :: is))).
    change ((i, 52) :: word_draws (j :: is)) with ([(i, 52)] ++ word_draws (j :: is)). rewrite <- (app_nil_r (word_draws (j :: is))).
    apply (wk_one d (lit "name-word") p 1 [N_ "letter"; N_ "name-word"] 2); [reflexivity..|].
    apply wks_nonterminal; [apply Hi|]. apply wks_nonterminal; [|apply wks_nil]. apply IH; [discriminate|]. intros x Hx. apply H. right. exact Hx.
Qed.

Lemma address_walk : exists pre post, forall is, is <> [] -> (forall i, In i is -> i < 52) ->
  wk 0 (lit "postal-address") (pre ++ word_draws is ++ post) (ROk (map letter_at is ++ rest_of_address)).
Proof.
  destruct (last_walk 2) as (dl & wl & Hl & El). destruct (suffix_walk 2) as (ds & ws & Hs & Es). destruct (eol_walk 2) as (de & we & He & Ee).
  destruct (street_walk 1) as (dt & wt & Ht & Et). destruct (zip_walk 1) as (dz & wz & Hz & Ez).
  exists [(0, 1); (0, 2); (1, 2); (0, 1)], (dl ++ ds ++ de ++ dt ++ dz). intros is Hne H.
  assert (Hw : wk 0 (lit "postal-address")
    ((0, 1) :: ((0, 2) :: ((1, 2) :: ((0, 1) :: word_draws is ++ []) ++ []) ++ dl ++ ds ++ de ++ []) ++ dt ++ dz ++ [])
    (ROk ((((map letter_at is ++ []) ++ []) ++ wl ++ ws ++ we ++ []) ++ wt ++ wz ++ []))).
  { apply (wk_one 0 (lit "postal-address") (mkProd (N_ "postal-address") [[N_ "name-part"; N_ "street-address"; N_ "zip-part"]]) 0
      [N_ "name-part"; N_ "street-address"; N_ "zip-part"] 1); [reflexivity..|].
    apply wks_nonterminal; [|apply wks_nonterminal; [exact Ht|apply wks_nonterminal; [exact Hz|apply wks_nil]]].
    apply (wk_one _ (lit "name-part") name_rule 0 [N_ "personal-part"; N_ "last-name"; N_ "opt-suffix-part"; N_ "EOL"] 2); [reflexivity..|].
    apply wks_nonterminal; [|apply wks_nonterminal; [exact Hl|apply wks_nonterminal; [exact Hs|apply wks_nonterminal; [exact He|apply wks_nil]]]].
    apply (wk_one _ (lit "personal-part") (mkProd (N_ "personal-part") [[N_ "initial"; T_ "."]; [N_ "first-name"]]) 1 [N_ "first-name"] 2); [reflexivity..|].
    apply wks_nonterminal; [|apply wks_nil].
    apply (wk_one _ (lit "first-name") (mkProd (N_ "first-name") [[N_ "name-word"]]) 0 [N_ "name-word"] 1); [reflexivity..|].
    apply wks_nonterminal; [|apply wks_nil]. apply word_walk; assumption. }
  rewrite El, Es, Ee, Et, Ez, !app_nil_r in Hw. rewrite <- !app_assoc in Hw. cbn [app] in Hw. rewrite <- !app_assoc in Hw. exact Hw.
Qed.

(** ** Counting *)
Lemma product_app a b : product (a ++ b) = product a * product b.
Proof.
  induction a as [|x a IH]; [symmetry; apply Nat.mul_1_l|].
  change (product ((x :: a) ++ b)) with (x * product (a ++ b)). rewrite IH. apply Nat.mul_assoc.
Qed.
Lemma word_draws_product is : product (map snd (word_draws is)) = 104 ^ length is.
Proof.
  induction is as [|i is IH]; [reflexivity|]. destruct is as [|j is]; [reflexivity|]. rewrite word_draws_cons.
  change (product (map snd ((1, 2) :: (i, 52) :: word_draws (j :: is)))) with (2 * (52 * product (map snd (word_draws (j :: is))))).
  rewrite IH. change (length (i :: j :: is)) with (S (length (j :: is))). rewrite Nat.pow_succ_r'. lia.
Qed.
Lemma word_draws_length is : length (word_draws is) = 2 * length is.
Proof.
  induction is as [|i is IH]; [reflexivity|]. destruct is as [|j is]; [reflexivity|]. rewrite word_draws_cons.
  change (length ((1, 2) :: (i, 52) :: word_draws (j :: is))) with (2 + length (word_draws (j :: is))). rewrite IH. cbn [length]. lia.
Qed.
Fixpoint numbers (ds : list draw) : list nat := match ds with _ :: (i, _) :: ds => i :: numbers ds | _ => [] end.
Lemma numbers_draws is : numbers (word_draws is) = is.
Proof.
  induction is as [|i is IH]; [reflexivity|]. destruct is as [|j is]; [reflexivity|]. rewrite word_draws_cons. cbn [numbers]. rewrite IH. reflexivity.
Qed.

Lemma NoDup_flat_map {A B} (f : A -> list B) l : NoDup l -> (forall x, In x l -> NoDup (f x)) ->
  (forall x y z, In x l -> In y l -> In z (f x) -> In z (f y) -> x = y) -> NoDup (flat_map f l).
Proof.
  induction 1 as [|x l Hx _ IH]; intros Hf Hd; [constructor|]. cbn [flat_map]. apply NoDup_app'.
  - apply Hf. left. reflexivity.
  - apply IH; [intros y Hy; apply Hf; right; exact Hy|]. intros y y' z Hy Hy'. apply Hd; right; assumption.
  - intros z H1 H2. apply in_flat_map in H2. destruct H2 as (y & Hy & H2). apply Hx. rewrite (Hd x y z); [exact Hy|left; reflexivity|right; exact Hy|exact H1|exact H2].
Qed.

Lemma choose_lists {A B} (P : A -> list B -> Prop) (L : list (A * nat)) : (forall s m, In (s, m) L -> exists ts, P s ts /\ m <= length ts) ->
  exists R, map fst R = map fst L /\ (forall s ts, In (s, ts) R -> P s ts) /\ list_sum (map snd L) <= list_sum (map (fun x => length (snd x)) R).
Proof.
  induction L as [|[s m] L IH]; intro H.
  - exists []. split; [reflexivity|]. split; [intros s ts []|]. reflexivity.
  - destruct (H s m (or_introl eq_refl)) as (ts & Hp & Hm). destruct IH as (R & E & HR & Hs); [intros s' m' Hi; apply H; right; exact Hi|].
    exists ((s, ts) :: R). split; [cbn [map fst]; rewrite E; reflexivity|]. split.
    + intros s' ts' [X|X]; [injection X as <- <-; exact Hp|exact (HR _ _ X)].
    + change (list_sum (map snd ((s, m) :: L))) with (m + list_sum (map snd L)).
      change (list_sum (map (fun x => length (snd x)) ((s, ts) :: R))) with (length ts + list_sum (map (fun x => length (snd x)) R)). lia.
Qed.

Lemma sum_map_scale {A} (f : A -> nat) k c l : (forall x, In x l -> k * f x = c) -> k * list_sum (map f l) = length l * c.
Proof.
  induction l as [|x l IH]; intro H; [cbn; lia|]. change (list_sum (map f (x :: l))) with (f x + list_sum (map f l)).
  rewrite Nat.mul_add_distr_l, IH by (intros y Hy; apply H; right; exact Hy). rewrite (H x (or_introl eq_refl)). cbn [length]. lia.
Qed.

Lemma list_sum_app' a b : list_sum (a ++ b) = list_sum a + list_sum b.
Proof. apply list_sum_app. Qed.
Lemma sum_flat' {A B} (f : A -> list B) (h : B -> nat) l : list_sum (map h (flat_map f l)) = list_sum (map (fun x => list_sum (map h (f x))) l).
Proof.
  induction l as [|x l IH]; [reflexivity|]. cbn [flat_map map]. rewrite map_app, list_sum_app', IH. reflexivity.
Qed.

Lemma letters_in i : i < 52 -> In (letter_at i) letters.
Proof. intro H. apply nth_In. exact H. Qed.

Lemma C94_trees_proof : forall ho p base, build_parser ho postal_grammar = ROk p -> 0 < base -> Nat.divide 260 base ->
  forall B, exists len (R : list (list nat * list ptree)), NoDup (map fst R) /\
    (forall s ts, In (s, ts) R -> In s (scripts base len) /\ exists fuel w l it, l <= len /\
       generate_random (stream_rng (source s)) (fun _ _ => true) postal_grammar fuel 0 = Ok (ROk w, l) /\
       parse_input p w = Ok it /\ collects it ts) /\
    B * base ^ len <= list_sum (map (fun x => length (snd x)) R).
Proof.
  intros ho p base Hb Hpos Hdiv B. destruct address_walk as (pre & post & Hwalk).
  set (draws is := pre ++ word_draws is ++ post) in *.
  set (c := product (map snd pre) * product (map snd post)).
  assert (Hprod : forall is, product (map snd (draws is)) = c * 104 ^ length is).
  { intro is. unfold draws. rewrite !map_app, !product_app, word_draws_product. unfold c. rewrite <- Nat.mul_assoc, (Nat.mul_comm (104 ^ length is)). reflexivity. }
  set (K := 2 * c * B). set (len := length pre + 2 * K + length post).
  set (I := flat_map (fun k => scripts 52 k) (seq 1 K)).
  assert (HI : forall is, In is I -> is <> [] /\ (forall i, In i is -> i < 52) /\ 1 <= length is /\ length (draws is) <= len).
  { intros is H. apply in_flat_map in H. destruct H as (k & Hk & H). apply in_seq in Hk. apply scripts_spec in H. destruct H as [E H].
    split; [intros ->; cbn in E; lia|]. split; [exact H|]. split; [lia|]. unfold draws, len. rewrite !app_length, word_draws_length. clearbody K. lia. }
  assert (Hdivs : forall (d : nat) q, In q g -> choosable q -> Nat.divide (length (random_alternatives d q)) base).
  { intros d q Hq _. apply (divides_N_spec postal_grammar p_rhs 260 base); [vm_compute; reflexivity|exact Hdiv|exact Hq]. }
  pose (hits is := filter (gives (draws is)) (scripts base len)).
  assert (Hhits : forall is, In is I -> length (hits is) * (c * 104 ^ length is) = base ^ len /\
    forall s, In s (hits is) -> In s (scripts base len) /\ follows (source s) 0 (draws is)).
  { intros is H. destruct (HI is H) as (H1 & H2 & _ & H3).
    destruct (C70_share_proof _ _ _ _ _ _ _ _ base len (Hwalk is H1 H2) Hpos Hdivs H3) as [Hg Hc]. split.
    - rewrite <- Hprod. exact Hc.
    - intros s Hs. unfold hits in Hs. apply filter_In in Hs. destruct Hs as [Hs Hgs]. split; [exact Hs|]. apply Hg; [|exact Hgs]. apply scripts_spec in Hs. tauto. }
  pose (L := flat_map (fun is => map (fun s => (s, 2 ^ (length is - 1))) (hits is)) I).
  destruct (choose_lists (fun s ts => In s (scripts base len) /\ exists fuel w l it, l <= len /\
       generate_random (stream_rng (source s)) (fun _ _ => true) postal_grammar fuel 0 = Ok (ROk w, l) /\
       parse_input p w = Ok it /\ collects it ts) L) as (R & E & HR & Hsum).
  - intros s m Hs. unfold L in Hs. apply in_flat_map in Hs. destruct Hs as (is & His & Hs). apply in_map_iff in Hs. destruct Hs as (s0 & E & Hs).
    injection E as -> <-. destruct (HI is His) as (H1 & H2 & H3 & H4). destruct (Hhits is His) as [_ Hh]. destruct (Hh s Hs) as [Hsc Hf].
    destruct (proj2 (C70_random_walk_proof g _ _ (lit "postal-address") 30 eq_refl eq_refl postal_terminates (fun _ _ => true) (source s) _ (length (draws is)))
      (ex_intro _ _ (conj (Hwalk is H1 H2) (conj eq_refl Hf)))) as [fuel Hgen].
    destruct (C94_ends_proof ho) as (p' & Hb' & Hall & _). rewrite Hb in Hb'. injection Hb' as <-.
    destruct (Hall (map letter_at is ++ rest_of_address)) as (it & ts & Hi & _ & Hc & Hts). exists ts. split.
    + split; [exact Hsc|]. exists fuel, (map letter_at is ++ rest_of_address), (length (draws is)), it. split; [exact H4|]. split; [exact Hgen|]. split; [exact Hi|exact Hc].
    + destruct is as [|i is]; [contradiction|].
      destruct (many_trees (letter_at i) (map letter_at is)) as (T & HN & HL & HT).
      { intros x Hx. change (letter_at i :: map letter_at is) with (map letter_at (i :: is)) in Hx. apply in_map_iff in Hx. destruct Hx as (j & <- & Hj). apply letters_in, H2, Hj. }
      rewrite map_length in HL. change (length (i :: is) - 1) with (length is - 0). rewrite Nat.sub_0_r, <- HL. apply NoDup_incl_length; [exact HN|].
      intros t Ht. apply Hts. exact (HT t Ht).
  - exists len, R. split; [|split; [exact HR|]].
    + rewrite E. unfold L. rewrite flat_map_concat_map, concat_map, map_map, <- flat_map_concat_map.
      apply NoDup_flat_map.
      * unfold I. apply NoDup_flat_map; [apply seq_NoDup|intros k _; apply scripts_NoDup|].
        intros k k' is _ _ Hk Hk'. apply scripts_spec in Hk. apply scripts_spec in Hk'. lia.
      * intros is _. rewrite map_map. cbn [fst]. rewrite map_id. apply NoDup_filter, scripts_NoDup.
      * intros is is' s Hi Hi' Hs Hs'. rewrite map_map in Hs, Hs'. cbn [fst] in Hs, Hs'. rewrite map_id in Hs, Hs'.
        destruct (HI is Hi) as (H1 & H2 & _). destruct (HI is' Hi') as (H1' & H2' & _).
        destruct (C70_one_walk_proof _ _ _ _ _ _ _ _ _ _ _ (Hwalk is H1 H2) (Hwalk is' H1' H2') (proj2 (proj2 (Hhits is Hi) s Hs)) (proj2 (proj2 (Hhits is' Hi') s Hs'))) as [Ed _].
        unfold draws in Ed. apply app_inv_head in Ed. apply app_inv_tail in Ed. rewrite <- (numbers_draws is), <- (numbers_draws is'), Ed. reflexivity.
    + apply Nat.le_trans with (list_sum (map snd L)); [|exact Hsum].
      assert (Hk : forall is, In is I -> 2 * c * 52 ^ length is * (length (hits is) * 2 ^ (length is - 1)) = base ^ len).
      { intros is H. destruct (Hhits is H) as [Hh _]. destruct (HI is H) as (_ & _ & H1 & _). rewrite <- Hh. change 104 with (52 * 2). rewrite Nat.pow_mul_l.
        destruct (length is) as [|k]; [lia|]. replace (S k - 1) with k by lia. rewrite (Nat.pow_succ_r' 2). ring. }
      assert (HS : 2 * c * list_sum (map snd L) = K * base ^ len).
      { unfold L. rewrite sum_flat'.
        assert (E1 : forall is, list_sum (map snd (map (fun s => (s, 2 ^ (length is - 1))) (hits is))) = length (hits is) * 2 ^ (length is - 1)).
        { intro is. rewrite map_map. cbn [snd]. rewrite sum_const. lia. }
        rewrite (map_ext _ _ E1). unfold I in *. rewrite sum_flat'. rewrite <- (seq_length K 1) at 2.
        apply sum_map_scale. intros k Hin.
        assert (E2 : 52 ^ k * (2 * c * list_sum (map (fun is => length (hits is) * 2 ^ (length is - 1)) (scripts 52 k))) = 52 ^ k * base ^ len).
        { rewrite Nat.mul_assoc. rewrite <- (scripts_length 52 k) at 2. apply sum_map_scale. intros is His.
          rewrite <- (Hk is); [|apply in_flat_map; exists k; split; assumption]. apply scripts_spec in His. destruct His as [<- _]. ring. }
        apply Nat.mul_cancel_l in E2; [exact E2|]. apply Nat.pow_nonzero. discriminate. }
      destruct (Nat.eq_dec B 0) as [->|HB]; [lia|].
      assert (Hc0 : 0 < c).
      { destruct (Nat.eq_dec c 0) as [Z|]; [|lia]. exfalso.
        destruct (C70_share_proof _ _ _ _ _ _ _ _ base (length (draws [0])) (Hwalk [0] ltac:(discriminate) ltac:(intros i [<-|[]]; lia)) Hpos Hdivs (le_n _)) as [_ Hc1].
        assert (Hz : product (map snd (draws [0])) = 0) by (rewrite Hprod, Z; reflexivity).
        apply (Nat.pow_nonzero base (length (draws [0]))); [lia|]. rewrite <- Hc1. refine (eq_trans (f_equal (Nat.mul _) Hz) _). apply Nat.mul_0_r. }
      apply (Nat.mul_le_mono_pos_l _ _ (2 * c)); [lia|]. rewrite HS. unfold K. rewrite Nat.mul_assoc. reflexivity.
Qed.
