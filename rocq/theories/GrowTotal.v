(** Grounded definitions with extensions always have an outcome, and its trees are nested. *)
From Verif Require Import Base Utf8 Parser Build Syntax ListFacts Lang Grammar WsLang ApiSpec RefSpec RefFuel RefTotal LeftSpec GrowSpec GrowFuel.

Section TOTAL.
Context {A : Type}.
Variable eqA : A -> A -> bool.
Variable G : A -> option (gobj A).
Variable K : list (list rune).
Variable input : list rune.
Notation ev := (evalL eqA G K input).
Notation isExt := (isExtension eqA G).
Notation extn := (extending eqA G).
Notation exts := (extensionsOf eqA G).
Notation bases := (basesOf eqA G).

Section RANK.
Variables (E : A -> bool) (rank : A -> nat).
Hypothesis HE : mayBeEmpty G E.

Lemma evalL_empty n : forall a o ns, ev n a o = Match o ns -> E a = true.
Proof.
  induction n as [|n IH]; intros a o ns H; [discriminate|]. cbn [evalL] in H. pose proof (HE a) as Ha.
  destruct (G a) as [[cn ch rs|lb nk items|lb options]|]; try discriminate.
  - destruct (nth_error input o); [|discriminate]. destruct (classHas _ _ _ _); [|discriminate]. inversion H; lia.
  - destruct (extn a); [discriminate|]. destruct (evalItems (ev n) n items 0 o) as [| |t1 ns1] eqn:Ei; try discriminate. destruct (_ && _); [discriminate|]. simpl in H. inversion H; subst.
    apply Ha. eapply (evalItems_empty E (ev n)); eauto. intros x o' t' ns'. apply evalL_ge.
  - destruct (exts a options) as [|x xs].
    + destruct (evalOptions (ev n) options o NoMatch) as [| |t1 ns1] eqn:Eo; try discriminate. simpl in H. inversion H; subst.
      destruct (evalOptions_case (ev n) options o NoMatch) as [E'|(x & Hx & E')]; rewrite Eo in E'; [discriminate|]. symmetry in E'. eapply Ha; eauto.
    + destruct (inBlocks eqA G a options); [|discriminate]. destruct (evalOptions (ev n) (bases a options) o NoMatch) as [| |t1 ns1]; try discriminate.
      destruct (Nat.ltb_spec o t1); [|discriminate]. apply evalGrow_ge in H. lia.
Qed.

Definition avail (x : A) (o : nat) : Prop := exists n, ev n x o <> Unfinished.
Lemma evalItems_up n m k j items c o : n <= m -> k <= j -> evalItems (ev n) k items c o <> Unfinished -> evalItems (ev m) j items c o <> Unfinished.
Proof.
  intros H1 H2 H. pose proof (evalItems_mono (ev n) (ev m)) as X. rewrite X with (k := k); auto. intros x o'. apply evalL_mono; auto.
Qed.
Lemma evalL_up n m x o : n <= m -> ev n x o <> Unfinished -> ev m x o = ev n x o.
Proof. intros H. apply evalL_mono; auto. Qed.

Lemma items_total : forall m items c o, List.length input - o <= m ->
  ((c = 0 /\ forall before x b behind, items = before ++ (x, b) :: behind -> (forall y mn mx, In (y, (mn, mx)) before -> mn = 0 \/ E y = true) -> avail x o) \/
   (forall x b, In (x, b) items -> avail x o)) ->
  (forall x b o', In (x, b) items -> o < o' -> o' <= List.length input -> avail x o') ->
  exists n, evalItems (ev n) n items c o <> Unfinished.
Proof.
  induction m as [m IHm] using lt_wf_ind. induction items as [|[x [mn mx]] items IH]; intros c o Hm H1 H2; [exists 1; simpl; discriminate|].
  assert (Hx : avail x o). { destruct H1 as [[_ H1]|H1]; [apply (H1 [] x (mn, mx) items); auto; intros ? ? ? []|apply (H1 x (mn, mx)); left; auto]. }
  destruct Hx as (n0 & Hn0).
  assert (Hnext : forall c', (c' = 0 /\ (ev n0 x o = NoMatch -> mn <= c) /\ (ev n0 x o = NoMatch \/ exists ns, ev n0 x o = Match o ns)) -> exists n, evalItems (ev n) n items c' o <> Unfinished).
  { intros c' (-> & Hc1 & Hc2). apply IH; auto; [|intros; eapply H2; eauto; right; eauto].
    destruct H1 as [[Hc H1]|H1]; [left; split; auto|right; intros y b Hy; apply (H1 y b); right; auto].
    intros before y b behind -> Hb. apply (H1 ((x, (mn, mx)) :: before) y b behind); auto.
    intros z mn' mx' [Z|Z]; [|eapply Hb; eauto]. inversion Z; subst. destruct Hc2 as [Hc2|(ns & Hc2)]; [left; specialize (Hc1 Hc2); lia|right; eapply evalL_empty; eauto]. }
  destruct (ev n0 x o) as [| |t ns] eqn:Ex; [contradiction| |].
  - destruct (Nat.leb_spec mn c) as [Hle|Hgt].
    + destruct (Hnext 0) as (n1 & Hn1); [split; auto|]. exists (S (n0 + n1)). cbn [evalItems]. rewrite (evalL_up n0) by (rewrite ?Ex; try discriminate; lia). rewrite Ex.
      destruct (Nat.leb_spec mn c); [|lia]. eapply evalItems_up; [| |exact Hn1]; lia.
    + exists (S n0). cbn [evalItems]. rewrite (evalL_up n0) by (rewrite ?Ex; try discriminate; lia). rewrite Ex. destruct (Nat.leb_spec mn c); [lia|discriminate].
  - assert (Haft : forall ms its c' n1 j o', evalItems (ev n1) n1 its c' o' <> Unfinished -> n1 <= j -> after ms (evalItems (ev (S (n0 + j))) (n0 + j) its c' o') <> Unfinished).
    { intros ms its c' n1 j o' H3 H4. assert (X : evalItems (ev (S (n0 + j))) (n0 + j) its c' o' <> Unfinished) by (eapply evalItems_up; [| |exact H3]; lia).
      destruct (evalItems (ev (S (n0 + j))) (n0 + j) its c' o'); simpl; congruence. }
    pose proof (evalL_ge _ _ _ _ _ _ _ _ _ Ex) as Hge. destruct (Nat.ltb_spec o t) as [Hlt|Hnl].
    + pose proof (evalL_le _ _ _ _ _ _ _ _ _ Ex Hlt) as Hlen.
      assert (Hnx : forall its c', (forall y b, In (y, b) its -> In (y, b) ((x, (mn, mx)) :: items)) -> exists n, evalItems (ev n) n its c' t <> Unfinished).
      { intros its c' Hin. apply (IHm (List.length input - t)); [lia|lia| |].
        - right. intros y b Hy. eapply H2; eauto.
        - intros y b o' Hy Ho Hl. eapply H2; eauto. lia. }
      destruct (match mx with Some m' => S c =? m' | None => false end) eqn:Emx.
      * destruct (Hnx items 0) as (n1 & Hn1); [intros; right; auto|]. exists (S (n0 + n1)). cbn [evalItems]. rewrite (evalL_up n0) by (rewrite ?Ex; try discriminate; lia). rewrite Ex.
        destruct (Nat.ltb_spec o t); [|lia]. rewrite Emx. eapply Haft; eauto.
      * destruct (Hnx ((x, (mn, mx)) :: items) (S c)) as (n1 & Hn1); [auto|]. exists (S (n0 + n1)). cbn [evalItems]. rewrite (evalL_up n0) by (rewrite ?Ex; try discriminate; lia). rewrite Ex.
        destruct (Nat.ltb_spec o t); [|lia]. rewrite Emx. eapply Haft; eauto.
    + assert (t = o) by lia. subst t. destruct (Hnext 0) as (n1 & Hn1); [split; auto; split; [discriminate|right; eauto]|].
      exists (S (n0 + n1)). cbn [evalItems]. rewrite (evalL_up n0) by (rewrite ?Ex; try discriminate; lia). rewrite Ex.
      destruct (Nat.ltb_spec o o); [lia|]. eapply Haft; eauto.
Qed.
Lemma options_total o options : (forall x, In x options -> avail x o) -> exists n, forall best, best <> Unfinished -> evalOptions (ev n) options o best <> Unfinished.
Proof.
  induction options as [|x options IH]; intros H; [exists 0; simpl; auto|].
  destruct IH as (n1 & Hn1); [intros; apply H; right; auto|]. destruct (H x) as (n0 & Hn0); [left; auto|].
  exists (n0 + n1). intros best Hb. cbn [evalOptions]. rewrite (evalL_up n0) by (auto; lia).
  assert (Hg : forall r, r <> Unfinished -> evalOptions (ev (n0 + n1)) options o r <> Unfinished).
  { intros r Hr. rewrite (evalOptions_mono (ev n1) (ev (n0 + n1))); [auto|intros y o'; apply evalL_mono; lia|auto]. }
  destruct (ev n0 x o) eqn:Ex; [contradiction| |]; apply Hg; destruct best; simpl; try congruence. destruct (_ <? _); congruence.
Qed.


Variable U : A -> Prop.
Hypothesis Hg : forall a, U a -> groundedAt eqA G E rank a.
Hypothesis HU : forall a x, U a -> refersTo G a x -> U x.
Lemma Hrank a x : U a -> startsWith G E a x -> extn a = false -> extn x = false -> rank x < rank a.
Proof. intros H. destruct (Hg a H) as [X _]. apply X. Qed.
Lemma Hseq a label nokw items x b : U a -> G a = Some (GSeq label nokw items) -> In (x, b) items -> extn x = false.
Proof. intros H Ea. destruct (Hg a H) as [_ X]. rewrite Ea in X. destruct X as [X _]. apply X. Qed.
Lemma Hopt a label options x : U a -> G a = Some (GChoice label options) -> In x options -> extn x = isExt a x.
Proof. intros H Ea. destruct (Hg a H) as [_ X]. rewrite Ea in X. destruct X as [X _]. apply X. Qed.
Lemma Hbase a label options : U a -> G a = Some (GChoice label options) -> exts a options <> [] ->
  inBlocks eqA G a options = true /\ forall b, In b (bases a options) -> E b = false.
Proof. intros H Ea. destruct (Hg a H) as [_ X]. rewrite Ea in X. destruct X as [_ X]. apply X. Qed.
Lemma Hmore x label nokw first rest : U x -> G x = Some (GSeq label nokw (first :: rest)) -> extn x = true ->
  exists y mn mx, In (y, (mn, mx)) rest /\ 0 < mn /\ E y = false.
Proof. intros H Ea. destruct (Hg x H) as [_ X]. rewrite Ea in X. destruct X as [_ X]. apply X. Qed.

Lemma evalRound_up label from xs n m t ns : n <= m -> evalRound G (ev n) n label from xs t ns <> Unfinished ->
  evalRound G (ev m) m label from xs t ns = evalRound G (ev n) n label from xs t ns.
Proof. intros H Hn. apply evalRound_mono; auto. intros x o. apply evalL_mono; auto. Qed.
Lemma rest_grows n k x label nokw first rest t t' ns' : U x -> G x = Some (GSeq label nokw (first :: rest)) -> extn x = true ->
  evalItems (ev n) k rest 0 t = Match t' ns' -> t < t'.
Proof.
  intros Hu Hx He H. pose proof (evalItems_ge (ev n) (fun x o t ns => evalL_ge eqA G K input n x o t ns) _ _ _ _ _ _ H) as Hge.
  destruct (Nat.eq_dec t t') as [<-|]; [|lia]. exfalso.
  destruct (Hmore _ _ _ _ _ Hu Hx He) as (y & mn & mx & Hin & Hmn & Hy).
  destruct (evalItems_empty E (ev n) (evalL_empty n) (fun x o t ns => evalL_ge eqA G K input n x o t ns) _ _ _ _ H _ _ _ Hin); [lia|congruence].
Qed.

Section ROUNDS.
Variables (e : A) (label : option string) (from : nat).
Hypothesis Hlater : forall t x, from < t -> t <= List.length input -> extn x = false -> U x -> avail x t.
Lemma round_total : forall xs t ns, (forall x, In x xs -> U x /\ isExt e x = true /\ extn x = true) -> from < t -> t <= List.length input ->
  exists n t' ns', evalRound G (ev n) n label from xs t ns = Match t' ns' /\ t <= t' /\ t' <= List.length input.
Proof.
  induction xs as [|x xs IH]; intros t ns Hxs H1 H2; [exists 0, t, ns; simpl; auto|].
  destruct (Hxs x) as (Hu & Hx & He); [left; auto|]. pose proof Hx as Hx'. unfold isExtension in Hx'.
  destruct (G x) as [[cn ch rs|l nk [|[y0 [mn mx]] rest]|l os]|] eqn:Ex; try discriminate; [destruct nk; discriminate|]. clear Hx'.
  assert (Hav : forall y b o', In (y, b) rest -> from < o' -> o' <= List.length input -> avail y o').
  { intros y b o' Hy Ho Hl. apply Hlater; auto; [eapply (Hseq x); [exact Hu|exact Ex|right; eauto]|]. eapply HU; [exact Hu|]. eapply rt_item; [exact Ex|right; eauto]. }
  destruct (items_total (List.length input - t) rest 0 t (Nat.le_refl _)) as (n0 & Hn0).
  { right. intros y b Hy. eapply Hav; eauto. }
  { intros y b o' Hy Ho Hl. eapply Hav; eauto. lia. }
  assert (Hup : forall m, n0 <= m -> evalItems (ev m) m rest 0 t = evalItems (ev n0) n0 rest 0 t).
  { intros m Hm. apply evalItems_mono; auto. intros z o. apply evalL_mono; auto. }
  destruct (evalItems (ev n0) n0 rest 0 t) as [| |t1 ns1] eqn:Ei; [contradiction| |].
  - destruct (IH t ns) as (n1 & t' & ns' & R1 & R2 & R3); auto; [intros; apply Hxs; right; auto|].
    exists (n0 + n1), t', ns'. split; auto. cbn [evalRound]. rewrite Ex, Hup by lia.
    rewrite (evalRound_up label from xs n1) by (rewrite ?R1; try discriminate; lia). auto.
  - pose proof (rest_grows _ _ _ _ _ _ _ _ _ _ Hu Ex He Ei) as Hlt.
    assert (Hl1 : t1 <= List.length input).
    { eapply (evalItems_le input (ev n0)); [intros z o' t2 ns2; apply evalL_le|intros z o' t2 ns2; apply evalL_ge|exact Ei|auto]. }
    destruct (IH t1 (named label from t1 (named l from t1 (ns ++ ns1)))) as (n1 & t' & ns' & R1 & R2 & R3); auto; [intros; apply Hxs; right; auto|lia|].
    exists (n0 + n1), t', ns'. split; [|lia]. cbn [evalRound]. rewrite Ex, Hup by lia. destruct (Nat.ltb_spec t t1); [|lia].
    rewrite (evalRound_up label from xs n1) by (rewrite ?R1; try discriminate; lia). auto.
Qed.
Lemma grow_total xs : (forall x, In x xs -> U x /\ isExt e x = true /\ extn x = true) -> forall m t ns, List.length input - t <= m -> from < t -> t <= List.length input ->
  exists n, evalGrow G (ev n) n label from n xs t ns <> Unfinished.
Proof.
  intros Hxs. induction m as [m IH] using lt_wf_ind. intros t ns Hm H1 H2.
  destruct (round_total xs t ns Hxs H1 H2) as (n0 & t' & ns' & R1 & R2 & R3).
  destruct (Nat.eq_dec t t') as [<-|Hne].
  - exists (S n0). cbn [evalGrow]. rewrite (evalRound_up label from xs n0) by (rewrite ?R1; try discriminate; lia). rewrite R1.
    destruct (Nat.ltb_spec t t); [lia|discriminate].
  - destruct (IH (List.length input - t') ltac:(lia) t' ns' (Nat.le_refl _) ltac:(lia) R3) as (n1 & Hn1).
    exists (S (n0 + n1)). cbn [evalGrow]. rewrite (evalRound_up label from xs n0) by (rewrite ?R1; try discriminate; lia). rewrite R1.
    destruct (Nat.ltb_spec t t'); [|lia].
    rewrite (evalGrow_mono G label from (ev n1) (ev (S (n0 + n1))) n1 (S (n0 + n1))) with (j := n1); auto; try lia. intros z o. apply evalL_mono. lia.
Qed.
End ROUNDS.

Theorem evalL_total : forall m o, List.length input - o <= m -> forall k a, rank a <= k -> extn a = false -> U a -> avail a o.
Proof.
  induction m as [m IHm] using lt_wf_ind. intros o Hm. induction k as [k IHk] using lt_wf_ind. intros a Hk Hxa Ha.
  assert (Hlater : forall o' x, o < o' -> o' <= List.length input -> extn x = false -> U x -> avail x o').
  { intros o' x H1 H2 H3 H4. apply (IHm (List.length input - o')) with (k := rank x); auto. lia. }
  destruct (G a) as [[cn ch rs|lb nk items|lb options]|] eqn:Ea; [| | |destruct (Hg a Ha) as [_ X]; rewrite Ea in X; destruct X].
  - exists 1. cbn [evalL]. rewrite Ea. destruct (nth_error input o); [destruct (classHas _ _ _ _)|]; discriminate.
  - assert (Hc : forall x b, In (x, b) items -> U x) by (intros; eapply HU; [exact Ha|eapply rt_item; eauto]). destruct (items_total m items 0 o Hm) as (n & Hn).
    + left. split; auto. intros before x b behind -> Hb.
      assert (Hin : In (x, b) (before ++ (x, b) :: behind)) by (apply in_or_app; right; left; auto).
      assert (Hx : extn x = false) by (eapply Hseq; eauto). apply (IHk (rank x)); auto.
      * assert (rank x < rank a) by (apply Hrank; auto; eapply sw_item; eauto). lia.
      * apply (Hc x b). auto.
    + intros x b o' Hx Ho Hl. apply Hlater; auto; [eapply Hseq; eauto|eapply Hc; eauto].
    + exists (S n). cbn [evalL]. rewrite Ea, Hxa. destruct (evalItems (ev n) n items 0 o) as [| |t ns]; [contradiction|discriminate|]. destruct (_ && _); [discriminate|]. simpl. discriminate.
  - assert (Hc : forall x, In x options -> U x) by (intros; eapply HU; [exact Ha|eapply rt_option; eauto]).
    assert (Hplain : forall x, In x options -> isExt a x = false -> avail x o).
    { intros x Hx Hi. assert (Hxx : extn x = false) by (rewrite (Hopt a lb options); auto). apply (IHk (rank x)); auto.
      assert (rank x < rank a) by (apply Hrank; auto; eapply sw_option; eauto). lia. }
    destruct (exts a options) as [|x0 xs0] eqn:Exs.
    + destruct (options_total o options) as (n & Hn).
      * intros x Hx. apply Hplain; auto. destruct (isExt a x) eqn:Ei; auto. exfalso. assert (In x (exts a options)) by (apply filter_In; auto). rewrite Exs in H. destruct H.
      * exists (S n). cbn [evalL]. rewrite Ea, Exs. specialize (Hn NoMatch ltac:(discriminate)). destruct (evalOptions (ev n) options o NoMatch); [contradiction|discriminate|discriminate].
    + destruct (Hbase a lb options Ha Ea ltac:(rewrite Exs; discriminate)) as [Hib Heb].
      destruct (options_total o (bases a options)) as (n & Hn).
      { intros x Hx. apply filter_In in Hx. destruct Hx as [Hx Hi]. apply Hplain; auto. destruct (isExt a x); auto; discriminate. }
      specialize (Hn NoMatch ltac:(discriminate)).
      assert (Hup : forall n', n <= n' -> evalOptions (ev n') (bases a options) o NoMatch = evalOptions (ev n) (bases a options) o NoMatch).
      { intros n' Hn'. apply evalOptions_mono; auto. intros z o'. apply evalL_mono; auto. }
      destruct (evalOptions (ev n) (bases a options) o NoMatch) as [| |t ns] eqn:Eo; [contradiction| |].
      * exists (S n). cbn [evalL]. rewrite Ea, Exs, Hib, Eo. discriminate.
      * destruct (evalOptions_case (ev n) (bases a options) o NoMatch) as [E'|(b & Hb & E')]; rewrite Eo in E'; [discriminate|]. symmetry in E'.
        pose proof (evalL_ge _ _ _ _ _ _ _ _ _ E') as Hge.
        assert (Hlt : o < t) by (destruct (Nat.eq_dec o t) as [<-|]; [|lia]; exfalso; pose proof (evalL_empty _ _ _ _ E'); rewrite (Heb b Hb) in *; discriminate).
        pose proof (evalL_le _ _ _ _ _ _ _ _ _ E' Hlt) as Hlen.
        destruct (grow_total a lb o Hlater (exts a options)) with (m := List.length input - t) (t := t) (ns := named lb o t ns) as (n1 & Hn1); auto.
        { intros x Hx. apply filter_In in Hx. destruct Hx as [Hx Hi]. split; auto. split; auto. rewrite (Hopt a lb options); auto. }
        exists (S (n + n1)). cbn [evalL]. rewrite Ea, Exs, Hib, Hup by lia. destruct (Nat.ltb_spec o t); [|lia]. rewrite <- Exs.
        rewrite (evalGrow_mono G lb o (ev n1) (ev (n + n1)) n1 (n + n1)) with (j := n1); auto; try lia. intros z o'. apply evalL_mono. lia.
Qed.
End RANK.

(** ** trees are nested *)
Lemma named_nested l o t ns : nestedTo o t ns -> nestedTo o t (named l o t ns).
Proof.
  intros Hn. destruct l as [lb|]; auto. split.
  - simpl. destruct Hn as [Hn _]. apply inOrder_le in Hn. lia.
  - constructor; [apply wellNested_node; auto|constructor].
Qed.
Lemma evalRound_nested (rec : A -> nat -> outcome) k label from : (forall x o t ns, rec x o = Match t ns -> nestedTo o t ns) ->
  forall xs t ns t' ns', nestedTo from t ns -> evalRound G rec k label from xs t ns = Match t' ns' -> nestedTo from t' ns'.
Proof.
  intros Hr. induction xs as [|x xs IH]; intros t ns t' ns' Hn H; cbn [evalRound] in H; [inversion H; subst; auto|].
  destruct (G x) as [[cn ch rs|l nk [|first rest]|l os]|]; try discriminate.
  destruct (evalItems rec k rest 0 t) as [| |t1 ns1] eqn:E; try discriminate; [eapply IH; eauto|].
  destruct (t <? t1); [|discriminate]. eapply IH; [|exact H]. apply named_nested, named_nested. eapply nested_app; eauto. eapply evalItems_nested; eauto.
Qed.
Lemma evalGrow_nested (rec : A -> nat -> outcome) k label from : (forall x o t ns, rec x o = Match t ns -> nestedTo o t ns) ->
  forall j xs t ns t' ns', nestedTo from t ns -> evalGrow G rec k label from j xs t ns = Match t' ns' -> nestedTo from t' ns'.
Proof.
  intros Hr. induction j as [|j IH]; intros xs t ns t' ns' Hn H; [discriminate|]. cbn [evalGrow] in H.
  destruct (evalRound G rec k label from xs t ns) as [| |t1 ns1] eqn:E; try discriminate.
  destruct (t <? t1); [|inversion H; subst; auto]. eapply IH; [|exact H]. eapply evalRound_nested; eauto.
Qed.
Lemma evalL_nested n : forall a o t ns, ev n a o = Match t ns -> nestedTo o t ns.
Proof.
  induction n as [|n IH]; intros a o t ns H; [discriminate|]. cbn [evalL] in H.
  assert (Ho : forall os t1 ns1, evalOptions (ev n) os o NoMatch = Match t1 ns1 -> nestedTo o t1 ns1).
  { intros os t1 ns1 E. destruct (evalOptions_case (ev n) os o NoMatch) as [E'|(x & _ & E')]; rewrite E in E'; [discriminate|]. symmetry in E'. eapply IH; eauto. }
  destruct (G a) as [[cn ch rs|lb nk items|lb options]|]; try discriminate.
  - destruct (nth_error input o); [|discriminate]. destruct (classHas _ _ _ _); [|discriminate]. inversion H; subst. split; [simpl; lia|constructor].
  - destruct (extn a); [discriminate|]. destruct (evalItems (ev n) n items 0 o) as [| |t1 ns1] eqn:E; try discriminate. destruct (_ && _); [discriminate|].
    simpl in H. inversion H; subst. apply named_nested. eapply (evalItems_nested (ev n)); eauto.
  - destruct (exts a options) as [|x xs].
    + destruct (evalOptions (ev n) options o NoMatch) as [| |t1 ns1] eqn:E; try discriminate. simpl in H. inversion H; subst. apply named_nested. eauto.
    + destruct (inBlocks eqA G a options); [|discriminate]. destruct (evalOptions (ev n) (bases a options) o NoMatch) as [| |t1 ns1] eqn:E; try discriminate.
      destruct (o <? t1); [|discriminate]. eapply (evalGrow_nested (ev n)); [|  |exact H]; eauto. apply named_nested. eauto.
Qed.
End TOTAL.
