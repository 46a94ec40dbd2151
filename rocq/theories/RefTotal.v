(** Without left recursion the reference semantics decides everything, and its trees are nested. *)
From Verif Require Import Base Utf8 Parser Build Syntax ListFacts Lang Grammar WsLang ApiSpec RefSpec RefFuel.

Section TOTAL.
Context {A : Type}.
Variable G : A -> option (gobj A).
Variable K : list (list rune).
Variable input : list rune.
Notation ev := (eval G K input).

Lemma evalItems_le (rec : A -> nat -> outcome) : (forall x o t ns, rec x o = Match t ns -> o < t -> t <= List.length input) ->
  (forall x o t ns, rec x o = Match t ns -> o <= t) ->
  forall k items count o t ns, evalItems rec k items count o = Match t ns -> o < t -> t <= List.length input.
Proof.
  intros Hr Hge. induction k as [|k IH]; intros items count o t ns H Hot; [discriminate|]. cbn [evalItems] in H.
  destruct items as [|[x [mn mx]] items]; [inversion H; lia|].
  assert (Haft : forall ms its c o', o <= o' -> (o < o' -> o' <= List.length input) -> after ms (evalItems rec k its c o') = Match t ns -> t <= List.length input).
  { intros ms its c o' Ho Hl H'. destruct (evalItems rec k its c o') as [| |t1 ns1] eqn:E1; try discriminate. simpl in H'. inversion H'; subst.
    destruct (Nat.eq_dec o' t) as [->|]; [apply Hl; auto|]. apply (IH _ _ _ _ _ E1). pose proof (evalItems_ge rec Hge _ _ _ _ _ _ E1). lia. }
  destruct (rec x o) as [| |t1 ns1] eqn:E1; [discriminate| |].
  - destruct (mn <=? count); [|discriminate]. eapply IH; eauto.
  - pose proof (Hge _ _ _ _ E1) as H1. destruct (Nat.ltb_spec o t1) as [Hlt|Hge1].
    + pose proof (Hr _ _ _ _ E1 Hlt). destruct (match mx with Some m => S count =? m | None => false end); eapply Haft; eauto.
    + assert (t1 = o) by lia. subst t1. eapply (Haft _ _ _ o); [lia|intros X; lia|exact H].
Qed.
Lemma eval_le n : forall a o t ns, ev n a o = Match t ns -> o < t -> t <= List.length input.
Proof.
  induction n as [|n IH]; intros a o t ns H Hot; [discriminate|]. cbn [eval] in H.
  destruct (G a) as [[cn ch rs|lb nk items|lb options]|]; try discriminate.
  - destruct (nth_error input o) eqn:E; [|discriminate]. destruct (classHas _ _ _ _); [|discriminate]. inversion H; subst.
    assert (o < List.length input) by (apply nth_error_Some; congruence). lia.
  - destruct (evalItems (ev n) n items 0 o) as [| |t1 ns1] eqn:E; try discriminate. destruct (_ && _); [discriminate|]. simpl in H. inversion H; subst.
    eapply (evalItems_le (ev n)); eauto. intros x o' t' ns'. apply eval_ge.
  - destruct (evalOptions (ev n) options o NoMatch) as [| |t1 ns1] eqn:E; try discriminate. simpl in H. inversion H; subst.
    destruct (evalOptions_case (ev n) options o NoMatch) as [E'|(x & _ & E')]; rewrite E in E'; [discriminate|]. symmetry in E'. eapply IH; eauto.
Qed.

Section RANK.
Variables (E : A -> bool) (rank : A -> nat).
Hypothesis HE : mayBeEmpty G E.

Lemma evalItems_empty (rec : A -> nat -> outcome) : (forall x o ns, rec x o = Match o ns -> E x = true) ->
  (forall x o t ns, rec x o = Match t ns -> o <= t) ->
  forall k items o ns, evalItems rec k items 0 o = Match o ns -> forall x mn mx, In (x, (mn, mx)) items -> mn = 0 \/ E x = true.
Proof.
  intros Hr Hge. induction k as [|k IH]; intros items o ns H; [discriminate|]. cbn [evalItems] in H.
  destruct items as [|[y [m M]] items]; [intros ? ? ? []|].
  destruct (rec y o) as [| |t1 ns1] eqn:E1; [discriminate| |].
  - destruct (Nat.leb_spec m 0); [|discriminate]. intros x mn mx [X|X]; [inversion X; subst; left; lia|eapply IH; eauto].
  - pose proof (Hge _ _ _ _ E1) as H1. destruct (Nat.ltb_spec o t1) as [Hlt|Hge1].
    + exfalso. assert (Haft : forall its c, after ns1 (evalItems rec k its c t1) = Match o ns -> False).
      { intros its c H'. destruct (evalItems rec k its c t1) as [| |t2 ns2] eqn:E2; try discriminate. simpl in H'. inversion H'; subst.
        pose proof (evalItems_ge rec Hge _ _ _ _ _ _ E2). lia. }
      destruct (match M with Some m' => _ | None => false end); eapply Haft; eauto.
    + assert (t1 = o) by lia. subst t1. intros x mn mx [X|X]; [inversion X; subst; right; eapply Hr; eauto|].
      destruct (evalItems rec k items 0 o) as [| |t2 ns2] eqn:E2; try discriminate. simpl in H. inversion H; subst. eapply IH; eauto.
Qed.
Lemma eval_empty n : forall a o ns, ev n a o = Match o ns -> E a = true.
Proof.
  induction n as [|n IH]; intros a o ns H; [discriminate|]. cbn [eval] in H. pose proof (HE a) as Ha.
  destruct (G a) as [[cn ch rs|lb nk items|lb options]|]; try discriminate.
  - destruct (nth_error input o); [|discriminate]. destruct (classHas _ _ _ _); [|discriminate]. inversion H; lia.
  - destruct (evalItems (ev n) n items 0 o) as [| |t1 ns1] eqn:Ei; try discriminate. destruct (_ && _); [discriminate|]. simpl in H. inversion H; subst.
    apply Ha. eapply (evalItems_empty (ev n)); eauto. intros x o' t' ns'. apply eval_ge.
  - destruct (evalOptions (ev n) options o NoMatch) as [| |t1 ns1] eqn:Eo; try discriminate. simpl in H. inversion H; subst.
    destruct (evalOptions_case (ev n) options o NoMatch) as [E'|(x & Hx & E')]; rewrite Eo in E'; [discriminate|]. symmetry in E'. eapply Ha; eauto.
Qed.

Definition avail (x : A) (o : nat) : Prop := exists n, ev n x o <> Unfinished.
Lemma evalItems_up n m k j items c o : n <= m -> k <= j -> evalItems (ev n) k items c o <> Unfinished -> evalItems (ev m) j items c o <> Unfinished.
Proof.
  intros H1 H2 H. pose proof (evalItems_mono (ev n) (ev m)) as X. rewrite X with (k := k); auto. intros x o'. apply eval_mono; auto.
Qed.
Lemma eval_up n m x o : n <= m -> ev n x o <> Unfinished -> ev m x o = ev n x o.
Proof. intros H. apply eval_mono; auto. Qed.

Lemma items_total : forall m items c o, List.length input - o <= m ->
  ((c = 0 /\ forall before x b behind, items = before ++ (x, b) :: behind -> (forall y mn mx, In (y, (mn, mx)) before -> mn = 0 \/ E y = true) -> avail x o) \/
   (forall x b, In (x, b) items -> avail x o)) ->
  (forall x b o', In (x, b) items -> o < o' -> o' <= List.length input -> avail x o') ->
  exists n, evalItems (ev n) n items c o <> Unfinished.
Proof.
  induction m as [m IHm] using lt_wf_ind. induction items as [|[x [mn mx]] items IH]; intros c o Hm H1 H2; [exists 1; simpl; discriminate|].
  assert (Hx : avail x o). { destruct H1 as [[_ H1]|H1]; [apply (H1 [] x (mn, mx) items); auto; intros ? ? ? []|apply (H1 x (mn, mx)); left; auto]. }
  destruct Hx as (n0 & Hn0).
  assert (Hnext : forall c', (c' = 0 /\ (ev n0 x o = NoMatch -> mn <= c) /\ (ev n0 x o = NoMatch \/ exists ns, ev n0 x o = Match o ns)) -> exists n, evalItems (ev n) n items c' o <> Unfinished).
  { intros c' (-> & Hc1 & Hc2). apply IH; auto; [|intros; eapply H2; eauto; right; eauto].
    destruct H1 as [[Hc H1]|H1]; [left; split; auto|right; intros y b Hy; apply (H1 y b); right; auto].
    intros before y b behind -> Hb. apply (H1 ((x, (mn, mx)) :: before) y b behind); auto.
    intros z mn' mx' [Z|Z]; [|eapply Hb; eauto]. inversion Z; subst. destruct Hc2 as [Hc2|(ns & Hc2)]; [left; specialize (Hc1 Hc2); lia|right; eapply eval_empty; eauto]. }
  destruct (ev n0 x o) as [| |t ns] eqn:Ex; [contradiction| |].
  - destruct (Nat.leb_spec mn c) as [Hle|Hgt].
    + destruct (Hnext 0) as (n1 & Hn1); [split; auto|]. exists (S (n0 + n1)). cbn [evalItems]. rewrite (eval_up n0) by (rewrite ?Ex; try discriminate; lia). rewrite Ex.
      destruct (Nat.leb_spec mn c); [|lia]. eapply evalItems_up; [| |exact Hn1]; lia.
    + exists (S n0). cbn [evalItems]. rewrite (eval_up n0) by (rewrite ?Ex; try discriminate; lia). rewrite Ex. destruct (Nat.leb_spec mn c); [lia|discriminate].
  - assert (Haft : forall ms its c' n1 j o', evalItems (ev n1) n1 its c' o' <> Unfinished -> n1 <= j -> after ms (evalItems (ev (S (n0 + j))) (n0 + j) its c' o') <> Unfinished).
    { intros ms its c' n1 j o' H3 H4. assert (X : evalItems (ev (S (n0 + j))) (n0 + j) its c' o' <> Unfinished) by (eapply evalItems_up; [| |exact H3]; lia).
      destruct (evalItems (ev (S (n0 + j))) (n0 + j) its c' o'); simpl; congruence. }
    pose proof (eval_ge _ _ _ _ _ _ _ _ Ex) as Hge. destruct (Nat.ltb_spec o t) as [Hlt|Hnl].
    + pose proof (eval_le _ _ _ _ _ Ex Hlt) as Hlen.
      assert (Hnx : forall its c', (forall y b, In (y, b) its -> In (y, b) ((x, (mn, mx)) :: items)) -> exists n, evalItems (ev n) n its c' t <> Unfinished).
      { intros its c' Hin. apply (IHm (List.length input - t)); [lia|lia| |].
        - right. intros y b Hy. eapply H2; eauto.
        - intros y b o' Hy Ho Hl. eapply H2; eauto. lia. }
      destruct (match mx with Some m' => S c =? m' | None => false end) eqn:Emx.
      * destruct (Hnx items 0) as (n1 & Hn1); [intros; right; auto|]. exists (S (n0 + n1)). cbn [evalItems]. rewrite (eval_up n0) by (rewrite ?Ex; try discriminate; lia). rewrite Ex.
        destruct (Nat.ltb_spec o t); [|lia]. rewrite Emx. eapply Haft; eauto.
      * destruct (Hnx ((x, (mn, mx)) :: items) (S c)) as (n1 & Hn1); [auto|]. exists (S (n0 + n1)). cbn [evalItems]. rewrite (eval_up n0) by (rewrite ?Ex; try discriminate; lia). rewrite Ex.
        destruct (Nat.ltb_spec o t); [|lia]. rewrite Emx. eapply Haft; eauto.
    + assert (t = o) by lia. subst t. destruct (Hnext 0) as (n1 & Hn1); [split; auto; split; [discriminate|right; eauto]|].
      exists (S (n0 + n1)). cbn [evalItems]. rewrite (eval_up n0) by (rewrite ?Ex; try discriminate; lia). rewrite Ex.
      destruct (Nat.ltb_spec o o); [lia|]. eapply Haft; eauto.
Qed.
Lemma options_total o options : (forall x, In x options -> avail x o) -> exists n, forall best, best <> Unfinished -> evalOptions (ev n) options o best <> Unfinished.
Proof.
  induction options as [|x options IH]; intros H; [exists 0; simpl; auto|].
  destruct IH as (n1 & Hn1); [intros; apply H; right; auto|]. destruct (H x) as (n0 & Hn0); [left; auto|].
  exists (n0 + n1). intros best Hb. cbn [evalOptions]. rewrite (eval_up n0) by (auto; lia).
  assert (Hg : forall r, r <> Unfinished -> evalOptions (ev (n0 + n1)) options o r <> Unfinished).
  { intros r Hr. rewrite (evalOptions_mono (ev n1) (ev (n0 + n1))); [auto|intros y o'; apply eval_mono; lia|auto]. }
  destruct (ev n0 x o) eqn:Ex; [contradiction| |]; apply Hg; destruct best; simpl; try congruence. destruct (_ <? _); congruence.
Qed.

Hypothesis Hrank : forall a x, startsWith G E a x -> rank x < rank a.
Hypothesis Hclosed : forall a, match G a with
  | Some (GSeq _ _ items) => forall x b, In (x, b) items -> G x <> None
  | Some (GChoice _ options) => forall x, In x options -> G x <> None
  | _ => True end.

Theorem eval_total : forall m o, List.length input - o <= m -> forall k a, rank a <= k -> G a <> None -> avail a o.
Proof.
  induction m as [m IHm] using lt_wf_ind. intros o Hm. induction k as [k IHk] using lt_wf_ind. intros a Hk Ha.
  destruct (G a) as [[cn ch rs|lb nk items|lb options]|] eqn:Ea; [| | |contradiction].
  - exists 1. cbn [eval]. rewrite Ea. destruct (nth_error input o); [destruct (classHas _ _ _ _)|]; discriminate.
  - pose proof (Hclosed a) as Hc. rewrite Ea in Hc. destruct (items_total m items 0 o Hm) as (n & Hn).
    + left. split; auto. intros before x b behind -> Hb. apply (IHk (rank x)); auto.
      * assert (rank x < rank a) by (apply Hrank; eapply sw_item; eauto). lia.
      * apply (Hc x b). apply in_or_app; right; left; auto.
    + intros x b o' Hx Ho Hl. apply (IHm (List.length input - o')) with (k := rank x); auto; [lia|]. eapply Hc; eauto.
    + exists (S n). cbn [eval]. rewrite Ea. destruct (evalItems (ev n) n items 0 o) as [| |t ns]; [contradiction|discriminate|]. destruct (_ && _); [discriminate|]. simpl. discriminate.
  - pose proof (Hclosed a) as Hc. rewrite Ea in Hc. destruct (options_total o options) as (n & Hn).
    + intros x Hx. apply (IHk (rank x)); auto. assert (rank x < rank a) by (apply Hrank; eapply sw_option; eauto). lia.
    + exists (S n). cbn [eval]. rewrite Ea. specialize (Hn NoMatch ltac:(discriminate)). destruct (evalOptions (ev n) options o NoMatch); [contradiction|discriminate|discriminate].
Qed.
End RANK.

(** ** reference trees are nested *)
Lemma inOrder_le from to ns : inOrder from to ns -> from <= to.
Proof. revert from. induction ns as [|n ns IH]; intros from; simpl; auto. intros (H1 & H2 & H3). apply IH in H3. lia. Qed.
Lemma inOrder_app a b c ns ms : inOrder a b ns -> inOrder b c ms -> inOrder a c (ns ++ ms).
Proof.
  revert a. induction ns as [|n ns IH]; intros a H1 H2; simpl in *.
  - destruct ms as [|x ms]; simpl in *; [lia|]. destruct H2 as (H3 & H4 & H5). split; [lia|auto].
  - destruct H1 as (H3 & H4 & H5). auto.
Qed.
Lemma inOrder_repeat o ns k : inOrder o o ns -> inOrder o o (List.concat (repeat ns k)).
Proof. intros H. induction k; simpl; [lia|]. eapply inOrder_app; eauto. Qed.
Definition nestedTo (o t : nat) (ns : list node) : Prop := inOrder o t ns /\ Forall wellNested ns.
Lemma nested_app a b c ns ms : nestedTo a b ns -> nestedTo b c ms -> nestedTo a c (ns ++ ms).
Proof. intros [H1 H2] [H3 H4]. split; [eapply inOrder_app; eauto|apply Forall_app; auto]. Qed.
Lemma evalItems_nested (rec : A -> nat -> outcome) : (forall x o t ns, rec x o = Match t ns -> nestedTo o t ns) ->
  forall k items count o t ns, evalItems rec k items count o = Match t ns -> nestedTo o t ns.
Proof.
  intros Hr. induction k as [|k IH]; intros items count o t ns H; [discriminate|]. cbn [evalItems] in H.
  destruct items as [|[x [mn mx]] items]; [inversion H; subst; split; [simpl; lia|constructor]|].
  destruct (rec x o) as [| |t1 ns1] eqn:E1; [discriminate| |].
  - destruct (mn <=? count); [|discriminate]. eapply IH; eauto.
  - apply Hr in E1. assert (Haft : forall ms its c, nestedTo o t1 ms -> after ms (evalItems rec k its c t1) = Match t ns -> nestedTo o t ns).
    { intros ms its c Hms H'. destruct (evalItems rec k its c t1) as [| |t2 ns2] eqn:E2; try discriminate. simpl in H'. inversion H'; subst.
      eapply nested_app; eauto. }
    destruct (Nat.ltb_spec o t1) as [Hlt|Hnl].
    + destruct (match mx with Some m => _ | None => false end); eapply Haft; eauto.
    + pose proof E1 as [E3 E4]. pose proof (inOrder_le _ _ _ E3). assert (t1 = o) by lia. subst t1. eapply Haft; [|exact H].
      split; [apply inOrder_repeat; auto|]. clear - E4. induction (mn - count) as [|j IHj]; simpl; [constructor|]. apply Forall_app; auto.
Qed.
Lemma wellNested_node n o t ns : nestedTo o t ns -> wellNested (Node n o t ns).
Proof.
  intros [H1 H2] m Hm. inversion Hm; subst; [exact H1|]. rewrite Forall_forall in H2. eapply H2; eauto.
Qed.
Lemma eval_nested n : forall a o t ns, ev n a o = Match t ns -> nestedTo o t ns.
Proof.
  induction n as [|n IH]; intros a o t ns H; [discriminate|]. cbn [eval] in H.
  assert (Hl : forall l t1 ns1, nestedTo o t1 ns1 -> labelled l o (Match t1 ns1) = Match t ns -> nestedTo o t ns).
  { intros l t1 ns1 Hn Hl. simpl in Hl. inversion Hl; subst. destruct l as [lb|]; auto. split.
    - simpl. destruct Hn as [Hn _]. apply inOrder_le in Hn. lia.
    - constructor; [apply wellNested_node; auto|constructor]. }
  destruct (G a) as [[cn ch rs|lb nk items|lb options]|]; try discriminate.
  - destruct (nth_error input o); [|discriminate]. destruct (classHas _ _ _ _); [|discriminate]. inversion H; subst. split; [simpl; lia|constructor].
  - destruct (evalItems (ev n) n items 0 o) as [| |t1 ns1] eqn:E; try discriminate. destruct (_ && _); [discriminate|]. eapply Hl; eauto.
    eapply (evalItems_nested (ev n)); eauto.
  - destruct (evalOptions (ev n) options o NoMatch) as [| |t1 ns1] eqn:E; try discriminate. eapply Hl; eauto.
    destruct (evalOptions_case (ev n) options o NoMatch) as [E'|(x & _ & E')]; rewrite E in E'; [discriminate|]. symmetry in E'. eapply IH; eauto.
Qed.
End TOTAL.
