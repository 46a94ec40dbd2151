(** Without left recursion a tree has linearly many nodes. *)
From Verif Require Import Base Utf8 Parser Build Syntax ListFacts Lang Grammar WsLang ApiSpec RefSpec RefFuel RefTotal RefCheck SizeSpec TextFacts.
Local Open Scope nat_scope.

Definition sizes (ns : list node) : nat := fold_right (fun x k => nodeCount x + k) 0 ns.
Lemma sizes_app a b : sizes (a ++ b) = sizes a + sizes b.
Proof. unfold sizes. induction a as [|x a IH]; simpl; auto. rewrite IH. lia. Qed.
Lemma sizes_rep l k : sizes (List.concat (repeat l k)) = k * sizes l.
Proof. induction k as [|k IH]; cbn [repeat List.concat]; auto. rewrite sizes_app, IH. simpl. lia. Qed.
Lemma sizes_label lb o t ns : sizes (match lb with Some n => [Node n o t ns] | None => ns end) <= S (sizes ns).
Proof. destruct lb; unfold sizes; simpl; lia. Qed.

Section SIZE.
Context {A : Type}.
Variable G : A -> option (gobj A).
Variable K : list (list rune).
Variables (E : A -> bool) (rank : A -> nat).
Hypothesis HE : mayBeEmpty G E.
Hypothesis Hr : forall a x, startsWith G E a x -> rank x < rank a.
(** the sum of the minimums of the items *)
Definition mins (items : list (A * (nat * option nat))) : nat := fold_right (fun it k => fst (snd it) + k) 0 items.
Variables R M : nat.
Hypothesis HR : forall a, G a <> None -> rank a <= R.
Hypothesis HM : forall a label nokw items, G a = Some (GSeq label nokw items) -> mins items < M.
Variable input : list rune.
Notation ev := (eval G K input).

(** nodes of an empty match, by rank *)
Fixpoint Zf (r : nat) : nat := match r with 0 => 1 | S r' => 1 + M * Zf r' end.
Definition D : nat := 1 + M * Zf R.
(** nodes of a match of [w] characters, by rank *)
Definition bnd (w r : nat) : nat := D * (S R * (w - 1) + r + 1).

Lemma Zf_mono r r' : 0 < M -> r <= r' -> Zf r <= Zf r'.
Proof. intros Hm. induction 1 as [|r' _ IH]; auto. cbn [Zf]. assert (1 * Zf r' <= M * Zf r') by (apply Nat.mul_le_mono_r; lia). lia. Qed.
Lemma mul_split a b c : a * b + a * c = a * (b + c).
Proof. ring. Qed.

(** what a match may take *)
Definition small (n : nat) : Prop := forall a o t ns, ev n a o = Match t ns ->
  (o = t -> sizes ns <= Zf (rank a)) /\ (o < t -> sizes ns <= bnd (t - o) (rank a)).

Lemma defined_of n a o t ns : ev n a o = Match t ns -> G a <> None.
Proof. destruct n; [discriminate|]. cbn [eval]. destruct (G a); congruence. Qed.

(** items somewhere in a sequence *)
Lemma items_any n : 0 < M -> small n -> forall k items c o t ns, evalItems (ev n) k items c o = Match t ns -> sizes ns <= mins items * Zf R + D * S R * (t - o).
Proof.
  intros Hm Hn. induction k as [|k IH]; intros items c o t ns H; [discriminate|]. cbn [evalItems] in H. destruct items as [|[x [mn mx]] items]; [injection H as <- <-; simpl; lia|].
  destruct (ev n x o) as [| |t1 ns1] eqn:E1; [discriminate| |].
  - destruct (mn <=? c); [|discriminate]. apply IH in H. cbn [mins fold_right fst snd]. fold (mins items). rewrite Nat.mul_add_distr_r. lia.
  - pose proof (eval_ge _ _ _ _ _ _ _ _ E1) as Hge. pose proof (HR x (defined_of _ _ _ _ _ E1)) as Hx. destruct (Hn _ _ _ _ E1) as [N1 N2]. destruct (Nat.ltb_spec o t1) as [Hlt|Hge1].
    + specialize (N2 Hlt). assert (Hb : sizes ns1 <= D * S R * (t1 - o)).
      { etransitivity; [exact N2|]. unfold bnd. rewrite <- Nat.mul_assoc. apply Nat.mul_le_mono_l. destruct (t1 - o) as [|w] eqn:Ew; [lia|]. replace (S w - 1) with w by lia. rewrite (Nat.mul_succ_r (S R) w). lia. }
      assert (Haft : forall its c', mins its <= mins ((x, (mn, mx)) :: items) -> (forall t2 ns2, evalItems (ev n) k its c' t1 = Match t2 ns2 -> sizes ns2 <= mins its * Zf R + D * S R * (t2 - t1)) ->
        after ns1 (evalItems (ev n) k its c' t1) = Match t ns -> sizes ns <= mins ((x, (mn, mx)) :: items) * Zf R + D * S R * (t - o)).
      { intros its c' Hle Hi H'. destruct (evalItems (ev n) k its c' t1) as [| |t2 ns2] eqn:E2; try discriminate. simpl in H'. injection H' as <- <-. rewrite sizes_app.
        specialize (Hi _ _ eq_refl). pose proof (evalItems_ge (ev n) (fun x o t ns => eval_ge G K input n x o t ns) _ _ _ _ _ _ E2) as Hg2.
        replace (t2 - o) with ((t1 - o) + (t2 - t1)) by lia. rewrite (Nat.mul_add_distr_l (D * S R)). pose proof (Nat.mul_le_mono_r _ _ (Zf R) Hle). lia. }
      destruct (match mx with Some m => S c =? m | None => false end); (eapply Haft; [|intros t2 ns2 E2; apply IH in E2; exact E2|exact H]); simpl; lia.
    + assert (t1 = o) by lia. subst t1. specialize (N1 eq_refl). pose proof (Zf_mono _ _ Hm Hx) as Hz.
      destruct (evalItems (ev n) k items 0 o) as [| |t2 ns2] eqn:E2; try discriminate. simpl in H. injection H as <- <-. apply IH in E2. rewrite sizes_app, sizes_rep.
      cbn [mins fold_right fst snd]. fold (mins items). rewrite Nat.mul_add_distr_r. assert ((mn - c) * sizes ns1 <= mn * Zf R) by (apply Nat.mul_le_mono; lia). lia.
Qed.
(** items at the start of a sequence *)
Lemma items_start n a label nokw all : 0 < M -> small n -> G a = Some (GSeq label nokw all) ->
  forall k items o t ns before, all = before ++ items -> (forall y mn mx, In (y, (mn, mx)) before -> mn = 0 \/ E y = true) -> evalItems (ev n) k items 0 o = Match t ns ->
  (o = t -> sizes ns <= mins items * Zf (rank a - 1)) /\ (o < t -> sizes ns <= mins items * Zf R + D * (S R * (t - o - 1) + rank a)).
Proof.
  intros Hm Hn Ha. induction k as [|k IH]; intros items o t ns before Hall Hb H; [discriminate|]. cbn [evalItems] in H. destruct items as [|[x [mn mx]] items]; [injection H as <- <-; simpl; lia|].
  assert (Hsx : rank x < rank a). { apply Hr. eapply sw_item; [rewrite Ha, Hall; reflexivity|exact Hb]. }
  assert (Hb' : mn = 0 \/ E x = true -> forall y mn' mx', In (y, (mn', mx')) (before ++ [(x, (mn, mx))]) -> mn' = 0 \/ E y = true).
  { intros Hx y mn' mx' Hy. apply in_app_or in Hy. destruct Hy as [Hy|[Hy|[]]]; [eauto|]. injection Hy as <- <- <-. auto. }
  assert (Hall' : all = (before ++ [(x, (mn, mx))]) ++ items) by (rewrite <- app_assoc; auto).
  destruct (ev n x o) as [| |t1 ns1] eqn:E1; [discriminate| |].
  - destruct (Nat.leb_spec mn 0); [|discriminate]. assert (mn = 0) by lia. subst mn. destruct (IH _ _ _ _ _ Hall' (Hb' (or_introl eq_refl)) H) as [I1 I2]. cbn [mins fold_right fst snd]. fold (mins items). auto.
  - pose proof (eval_ge _ _ _ _ _ _ _ _ E1) as Hge. destruct (Hn _ _ _ _ E1) as [N1 N2]. destruct (Nat.ltb_spec o t1) as [Hlt|Hge1].
    + specialize (N2 Hlt). assert (Hbd : sizes ns1 <= D * (S R * (t1 - o - 1) + rank a)) by (etransitivity; [exact N2|]; unfold bnd; apply Nat.mul_le_mono_l; lia).
      assert (Haft : forall its c', mins its <= mins ((x, (mn, mx)) :: items) -> after ns1 (evalItems (ev n) k its c' t1) = Match t ns ->
        o < t /\ sizes ns <= mins ((x, (mn, mx)) :: items) * Zf R + D * (S R * (t - o - 1) + rank a)).
      { intros its c' Hle H'. destruct (evalItems (ev n) k its c' t1) as [| |t2 ns2] eqn:E2; try discriminate. simpl in H'. injection H' as <- <-. rewrite sizes_app.
        pose proof (evalItems_ge (ev n) (fun x o t ns => eval_ge G K input n x o t ns) _ _ _ _ _ _ E2) as Hg2. apply items_any in E2; auto. split; [lia|].
        replace (t2 - o - 1) with ((t1 - o - 1) + (t2 - t1)) by lia. rewrite (Nat.mul_add_distr_l (S R)). pose proof (Nat.mul_le_mono_r _ _ (Zf R) Hle).
        replace (D * (S R * (t1 - o - 1) + S R * (t2 - t1) + rank a)) with (D * (S R * (t1 - o - 1) + rank a) + D * S R * (t2 - t1)) by ring. lia. }
      assert (o < t /\ sizes ns <= mins ((x, (mn, mx)) :: items) * Zf R + D * (S R * (t - o - 1) + rank a)) as [X1 X2].
      { destruct (match mx with Some m => 1 =? m | None => false end); (eapply Haft; [|exact H]); simpl; lia. }
      split; [lia|auto].
    + assert (t1 = o) by lia. subst t1. specialize (N1 eq_refl). assert (Hex : E x = true) by (eapply eval_empty; eauto).
      destruct (evalItems (ev n) k items 0 o) as [| |t2 ns2] eqn:E2; try discriminate. simpl in H. injection H as <- <-.
      destruct (IH _ _ _ _ _ Hall' (Hb' (or_intror Hex)) E2) as [I1 I2]. rewrite sizes_app, sizes_rep, Nat.sub_0_r.
      cbn [mins fold_right fst snd]. fold (mins items). rewrite !Nat.mul_add_distr_r.
      pose proof (HR x (defined_of _ _ _ _ _ E1)) as HxR. pose proof (Zf_mono _ _ Hm HxR) as Hz1. pose proof (Zf_mono (rank x) (rank a - 1) Hm ltac:(lia)) as Hz2.
      assert (mn * sizes ns1 <= mn * Zf R) by (apply Nat.mul_le_mono_l; lia). assert (mn * sizes ns1 <= mn * Zf (rank a - 1)) by (apply Nat.mul_le_mono_l; lia).
      split; intros Ht; [specialize (I1 Ht)|specialize (I2 Ht)]; lia.
Qed.

Lemma D_pos : 1 <= D.
Proof. unfold D. lia. Qed.
Theorem eval_small : 0 < M -> forall n, small n.
Proof.
  intros Hm. induction n as [|n IH]; intros a o t ns H; [discriminate|]. cbn [eval] in H. pose proof (HM a) as HMa.
  destruct (G a) as [[cn ch rs|lb nk items|lb options]|] eqn:Eg; try discriminate.
  - destruct (nth_error input o); [|discriminate]. destruct (classHas _ _ _ _); [|discriminate]. injection H as <- <-. split; [lia|]. intros _. simpl. lia.
  - destruct (evalItems (ev n) n items 0 o) as [| |t1 ns1] eqn:Ei; try discriminate. destruct (_ && _); [discriminate|]. simpl in H. injection H as <- <-.
    pose proof (sizes_label lb o t1 ns1) as Hs. specialize (HMa _ _ _ eq_refl).
    destruct (items_start n a lb nk items Hm IH Eg n items o t1 ns1 [] eq_refl ltac:(intros ? ? ? []) Ei) as [I1 I2]. split; intros Ht.
    + specialize (I1 Ht). destruct items as [|[x b] items].
      { destruct n; [discriminate|]. cbn [evalItems] in Ei. injection Ei as _ <-. assert (1 <= Zf (rank a)) by (destruct (rank a); cbn [Zf]; lia). simpl in Hs. simpl sizes in Hs. lia. }
      assert (Hsx : rank x < rank a) by (apply Hr; apply (sw_item G E a x lb nk [] b items Eg); intros ? ? ? []). destruct (rank a) as [|r] eqn:Er; [lia|]. cbn [Zf].
      replace (S r - 1) with r in I1 by lia. pose proof (Nat.mul_le_mono_r _ _ (Zf r) (Nat.lt_le_incl _ _ HMa)). lia.
    + specialize (I2 Ht). pose proof (Nat.mul_le_mono_r _ _ (Zf R) (Nat.lt_le_incl _ _ HMa)) as Hz. unfold bnd. replace (S R * (t1 - o - 1) + rank a + 1) with ((S R * (t1 - o - 1) + rank a) + 1) by lia.
      rewrite Nat.mul_add_distr_l, Nat.mul_1_r. unfold D at 2. lia.
  - destruct (evalOptions (ev n) options o NoMatch) as [| |t1 ns1] eqn:Eo; try discriminate. simpl in H. injection H as <- <-.
    destruct (evalOptions_case (ev n) options o NoMatch) as [E'|(x & Hx & E')]; rewrite Eo in E'; [discriminate|]. symmetry in E'.
    assert (Hsx : rank x < rank a) by (apply Hr; eapply sw_option; eauto). destruct (IH _ _ _ _ E') as [N1 N2]. pose proof (sizes_label lb o t1 ns1) as Hs. split; intros Ht.
    + specialize (N1 Ht). destruct (rank a) as [|r]; [lia|]. cbn [Zf]. pose proof (Zf_mono (rank x) r Hm ltac:(lia)). assert (1 * Zf r <= M * Zf r) by (apply Nat.mul_le_mono_r; lia). lia.
    + specialize (N2 Ht). assert (bnd (t1 - o) (rank x) + D <= bnd (t1 - o) (rank a)); [|pose proof D_pos; lia]. unfold bnd. rewrite <- (Nat.mul_1_r D) at 2. rewrite mul_split. apply Nat.mul_le_mono_l. lia.
Qed.
End SIZE.

(** the constant *)
Lemma list_bound {B} (f : B -> nat) l : exists k, forall x, In x l -> f x <= k.
Proof. induction l as [|y l [k IH]]; [exists 0; intros x []|]. exists (f y + k). intros x [->|H]; [lia|specialize (IH x H); lia]. Qed.
Theorem means_linear calls : noLeftRecursion calls -> exists C, forall input n t ns, Means calls input n 0 (Match t ns) -> sizes ns <= C * S t.
Proof.
  intros (E & rank & HE & Hr). destruct (list_bound rank (keysOf calls)) as (R & HR).
  destruct (list_bound (fun k => match graphOf calls k with Some (GSeq _ _ items) => mins items | _ => 0 end) (keysOf calls)) as (M & HM).
  exists (D R (S M) * (S R + R + 1) + Zf (S M) R). intros input n t ns (_ & m & Hm).
  assert (HR' : forall a, graphOf calls a <> None -> rank a <= R) by (intros a Ha; apply HR, keys_cover; auto).
  assert (HM' : forall a lb nk items, graphOf calls a = Some (GSeq lb nk items) -> mins items < S M).
  { intros a lb nk items Ha. specialize (HM a (keys_cover calls a ltac:(congruence))). cbn beta in HM. rewrite Ha in HM. lia. }
  destruct (eval_small (graphOf calls) (keywordTexts calls) E rank HE Hr R (S M) HR' HM' input ltac:(lia) m _ _ _ _ Hm) as [S1 S2].
  pose proof (HR' _ (defined_of _ _ _ _ _ _ _ _ Hm)) as Hk. pose proof (eval_ge _ _ _ _ _ _ _ _ Hm) as Hge.
  rewrite Nat.mul_add_distr_r. destruct (Nat.eq_dec 0 t) as [E0|Hne].
  - specialize (S1 E0). pose proof (Zf_mono (S M) _ _ ltac:(lia) Hk) as Hz. rewrite (Nat.mul_succ_r (Zf _ _) t). lia.
  - specialize (S2 ltac:(lia)). unfold bnd in S2. rewrite Nat.sub_0_r in S2. etransitivity; [exact S2|]. etransitivity; [|apply Nat.le_add_r]. rewrite <- Nat.mul_assoc. apply Nat.mul_le_mono_l.
    destruct t as [|t]; [lia|]. replace (S t - 1) with t by lia. rewrite !Nat.mul_add_distr_r. assert (S R * t <= S R * S (S t)) by (apply Nat.mul_le_mono_l; lia). assert (R * 1 <= R * S (S t)) by (apply Nat.mul_le_mono_l; lia). lia.
Qed.

(** of a parse *)
Theorem tree_linear : forall calls s name, Defined calls s -> refersToDefs calls -> literalKeywords calls -> nokwOnSequences calls -> noLeftRecursion calls -> rootName calls = Some name ->
  exists C, forall input s' t toks, Parses s input REof s' (Tree t toks) -> nodeCount t <= C * S (List.length input).
Proof.
  intros calls s name Hd Hr Hk Hn Hl Hroot. destruct (means_linear calls Hl) as (C & HC). exists C. intros input s' t toks HP.
  destruct (Parses_spans _ _ _ _ _ _ HP) as (_ & _ & Hv & _).
  destruct (tree_means calls s s' name input t toks Hd Hr Hk Hn Hl Hroot Hv HP) as [_ Hm]. specialize (HC _ _ _ _ Hm). unfold sizes in HC. simpl in HC. lia.
Qed.
