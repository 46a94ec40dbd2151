(** The definitions of a syntax text have the texts that their expressions denote. *)
From Verif Require Import Base Utf8 Parser Build Syntax ListFacts Lang Grammar WsLang LangGen Api ApiSpec WsApi ApiFacts ReadSpec ReadUse ReadLang ReadMeans SyntaxFacts FormatSpec FormatNestSpec Utf8Facts Format FormatAllSpec FormatAll MeaningSpec.
Local Open Scope string_scope.
Local Open Scope list_scope.
Local Open Scope nat_scope.

Definition sameTexts (L M : list rune -> Prop) : Prop := forall w, L w <-> M w.
Lemma inTurn_same Ls Ms : Forall2 sameTexts Ls Ms -> sameTexts (inTurn Ls) (inTurn Ms).
Proof.
  induction 1 as [|L M Ls Ms H _ IH]; [intros w; tauto|]. intros w. split; intros G; inversion G; subst; constructor; try apply H; try apply IH; auto.
Qed.
Lemma repeated_same mn mx L M : sameTexts L M -> sameTexts (repeated mn mx L) (repeated mn mx M).
Proof.
  intros H w. split; intros (k & Hq & Hk); exists k; (split; [auto|]); revert Hk; apply inTurn_same; clear Hq; induction k; constructor; auto.
  intros v. symmetry. apply H.
Qed.
Lemma repeated_once L w : repeated 0 0 L w <-> L w.
Proof.
  split.
  - intros (k & [(_ & _ & ->)|[N _]] & H); [|exfalso; apply N; auto]. inversion H as [|? ? u v H1 H2]; subst. inversion H2; subst. rewrite app_nil_r. auto.
  - intros H. exists 1. split; [left; auto|]. rewrite <- (app_nil_r w). constructor; [auto|constructor].
Qed.
Lemma inTurn_one L w : inTurn [L] w <-> L w.
Proof.
  split; [intros H; inversion H as [|? ? u v H1 H2]; subst; inversion H2; subst; rewrite app_nil_r; auto|].
  intros H. rewrite <- (app_nil_r w). constructor; [auto|constructor].
Qed.
Lemma quantity_normal b k : quantity (fst (normalBounds b)) (snd (normalBounds b)) k <-> quantity (fst b) (snd b) k.
Proof.
  destruct b as [mn mx]. unfold normalBounds, normalizeItemRange, quantity. cbn [fst snd siMin siMax].
  destruct (Z.eqb_spec mn 0), (Z.eqb_spec mx 0); cbn [andb]; cbn [fst snd siMin siMax siName]; try (cbn; lia);
    destruct (Z.leb_spec mn 0), (Z.leb_spec mx 0);
    repeat match goal with |- context [Z.eqb ?a ?b] => destruct (Z.eqb_spec a b) end; cbn [andb fst snd]; lia.
Qed.
Lemma repeated_normal b L w : repeated (fst (normalBounds b)) (snd (normalBounds b)) L w <-> repeated (fst b) (snd b) L w.
Proof. split; intros (k & Hq & H); exists k; (split; [apply quantity_normal; auto|auto]). Qed.

Section ENV.
Variable env : string -> list rune -> Prop.
Notation D := (denotes env).
Definition itemTexts (xb : expr * (Z * Z)) : list rune -> Prop := repeated (fst (snd xb)) (snd (snd xb)) (D (fst xb)).
Lemma joinItems_same items w : D (joinItems items) w <-> D (ESequence items) w.
Proof.
  destruct items as [|[x [mn mx]] [|? ?]]; try tauto; cbn [joinItems].
  - destruct mn, mx; try tauto. cbn [denotes map fst snd]. rewrite inTurn_one, repeated_once. tauto.
  - destruct mn, mx; tauto.
Qed.
Lemma joinItem_same x b : sameTexts (itemTexts (joinItem x b)) (itemTexts (x, b)).
Proof.
  intros w. destruct x as [| | | |[|it [|? ?]]|]; try tauto. unfold joinItem. destruct b as [mn mx]. destruct mn, mx; try tauto. unfold itemTexts at 2.
  cbn [fst snd]. rewrite repeated_once. cbn [denotes map]. rewrite inTurn_one. tauto.
Qed.
Lemma optionsOf_same x w : Exists (fun o => D o w) (optionsOf x) <-> D x w.
Proof.
  destruct x; cbn [optionsOf]; try (rewrite Exists_cons, Exists_nil; tauto). cbn [denotes]. rewrite !Exists_exists. split.
  - intros (o & H1 & H2). exists (D o). split; auto. apply in_map. auto.
  - intros (L & H1 & H2). apply in_map_iff in H1. destruct H1 as (o & <- & H1). eauto.
Qed.
Lemma choice_texts options w : D (EChoice options) w <-> exists o, In o options /\ D o w.
Proof. rewrite <- (optionsOf_same (EChoice options) w), Exists_exists. cbn [optionsOf]. tauto. Qed.

Theorem normal_same x : sameTexts (D (normalAll x)) (D x).
Proof.
  induction x as [|cn cs rs|cs|n|items IH|options IH] using expr_rec'; intros w; cbn [normalAll normal].
  - tauto.
  - destruct cn, cs, rs; try tauto. cbn [denotes]. split; [intros [r ->]; exists r; split; auto|intros (r & -> & _); eauto].
    unfold inClass. cbn. intros [[]|(? & ? & [] & _)].
  - destruct cs as [|c [|? ?]]; try tauto. cbn [denotes]. split.
    + intros (r & -> & [[->|[]]|(? & ? & [] & _)]). auto.
    + intros ->. exists c. split; auto. left. left. auto.
  - tauto.
  - rewrite joinItems_same. cbn [denotes]. rewrite map_map. apply inTurn_same. clear w. induction IH as [|[x b] l Hx _ IHl]; [constructor|]. cbn [map fst snd] in *. constructor; [|exact IHl].
    intros w. change (itemTexts (joinItem (normalAll x) (normalBounds b)) w <-> itemTexts (x, b) w). rewrite (joinItem_same _ _ w). unfold itemTexts. cbn [fst snd].
    rewrite repeated_normal. apply repeated_same. auto.
  - rewrite !choice_texts. rewrite Forall_forall in IH. split.
    + intros (o & Ho & Hw). apply in_flat_map in Ho. destruct Ho as (y & Hy & Ho). exists y. split; auto. apply (IH y Hy w).
      destruct y; try (destruct Ho as [<-|[]]; exact Hw). apply optionsOf_same, Exists_exists. eauto.
    + intros (y & Hy & Hw). apply (IH y Hy w) in Hw. destruct y as [| | | |?|?] eqn:Ey; rewrite <- Ey in *;
        try (exists (normalAll y); split; auto; apply in_flat_map; exists y; split; auto; rewrite Ey; left; reflexivity).
      apply optionsOf_same, Exists_exists in Hw. destruct Hw as (o & Ho & Hw). exists o. split; auto. apply in_flat_map. exists y. split; auto. rewrite Ey in Ho |- *. auto.
Qed.
End ENV.

(** ** definitions *)
Section GRAMMAR.
Variable calls : list defcall.
Hypothesis Hn : NoDup (map fst (flat_map callRules calls)).
Variable K : list (list rune).
Notation G := (grammarOf calls).
Notation T := (gen G K).

Lemma rule_at d n r : In d calls -> In (n, r) (callRules d) -> G n = Some r.
Proof. intros Hd Hr. apply ruleIn_unique; auto. apply in_flat_map. eauto. Qed.
Lemma rep_turn n k w : genRep G K n k w <-> inTurn (repeat (T n) k) w.
Proof. revert w. induction k as [|k IH]; intros w; cbn [repeat]; split; intros H; inversion H; subst; constructor; auto; apply IH; auto. Qed.
Lemma items_turn items w : genItems G K items w <-> inTurn (map (fun it => repeated (siMin it) (siMax it) (T (siName it))) items) w.
Proof.
  revert w. induction items as [|it items IH]; intros w; cbn [map]; split; intros H; inversion H; subst; try constructor.
  - exists k. split; auto. apply rep_turn. auto.
  - apply IH. auto.
  - match goal with X : repeated _ _ _ _ |- _ => destruct X as (k & Hq & Hk) end. econstructor; eauto. apply rep_turn. auto. apply IH. auto.
Qed.
Lemma char_texts n cn cs rs w : G n = Some (RChar cn cs rs) -> (T n w <-> exists r, w = [r] /\ inClass cn cs rs r).
Proof.
  intros Hr. split.
  - intros H. inversion H; subst; try congruence. eexists. split; [reflexivity|]. congruence.
  - intros (r & -> & H). econstructor; eauto.
Qed.
Lemma seq_texts n ct items w : G n = Some (RSeq ct items) ->
  (T n w <-> inTurn (map (fun it => repeated (siMin it) (siMax it) (T (siName it))) items) w /\ (hasFlag ct CNoKeyword = true -> ~ In w K)).
Proof.
  intros Hr. rewrite <- items_turn. split.
  - intros H. inversion H as [| ? ? ? ? Hr' Hk Hi | ]; subst; try congruence. rewrite Hr in Hr'. injection Hr' as <- <-. auto.
  - intros [H1 H2]. eapply gen_seq; eauto.
Qed.
Lemma choice_gen n ct os w : G n = Some (RChoice ct os) -> (T n w <-> exists o, In o os /\ T o w).
Proof.
  intros Hr. split.
  - intros H. inversion H as [| | ? ? ? o ? Hr' Ho Hw]; subst; try congruence. rewrite Hr in Hr'. injection Hr' as <- <-. eauto.
  - intros (o & H1 & H2). eapply gen_choice; eauto.
Qed.
Lemma repeated_one L w : repeated 1 1 L w <-> L w.
Proof.
  rewrite <- (repeated_once L w). split; intros (k & Hq & H); exists k; (split; [|auto]); unfold quantity in *; lia.
Qed.

Definition unlessChoice (ct : commitType) (x : expr) (w : list rune) : Prop :=
  hasFlag ct CNoKeyword = true -> (exists options, x = EChoice options) \/ ~ In w K.
Lemma inner_nokw ct : hasFlag (innerFlags ct) CNoKeyword = false.
Proof. unfold innerFlags. change CNoKeyword with (2 ^ 5)%N. rewrite hasFlag_bit, N.lor_spec, N.land_spec. simpl. apply andb_false_r. Qed.
Lemma literal_texts name cs w i : (forall j c, nth_error cs j = Some c -> G (childName name (i + j)) = Some (RChar false [c] [])) ->
  (inTurn (map (fun it => repeated (siMin it) (siMax it) (T (siName it))) (map (fun i => once (childName name i)) (seq i (List.length cs)))) w <-> w = cs).
Proof.
  revert w i. induction cs as [|c cs IH]; intros w i H; cbn [List.length seq map].
  - split; [intros X; inversion X; auto|intros ->; constructor].
  - assert (H0 : forall u, repeated 1 1 (T (childName name i)) u <-> u = [c]).
    { intros u. specialize (H 0 c eq_refl). rewrite Nat.add_0_r in H. rewrite repeated_one, (char_texts _ _ _ _ _ H). split.
      - intros (r & -> & [[->|[]]|(? & ? & [] & _)]). auto.
      - intros ->. exists c. split; auto. left. left. auto. }
    assert (H1 : forall j d, nth_error cs j = Some d -> G (childName name (S i + j)) = Some (RChar false [d] [])).
    { intros j d Hj. replace (S i + j) with (i + S j) by lia. apply H. auto. }
    split.
    + intros X. inversion X as [|? ? u v X1 X2]; subst. apply H0 in X1. apply (IH _ _ H1) in X2. subst. auto.
    + intros ->. change (c :: cs) with ([c] ++ cs). constructor; [apply H0; auto|apply (IH _ _ H1); auto].
Qed.
Lemma charRules_at name cs : forall i j c, nth_error cs j = Some c -> In (childName name (i + j), RChar false [c] []) (charRules name i cs).
Proof.
  induction cs as [|d cs IH]; intros i [|j] c H; try discriminate; cbn [charRules].
  - injection H as ->. rewrite Nat.add_0_r. left. auto.
  - right. replace (i + S j) with (S i + j) by lia. apply IH. auto.
Qed.
Lemma one_char n ct cn cs rs w : G (childName n 0) = Some (RChar cn cs rs) -> G n = Some (RSeq ct [once (childName n 0)]) ->
  (T n w <-> (exists r, w = [r] /\ inClass cn cs rs r) /\ (hasFlag ct CNoKeyword = true -> ~ In w K)).
Proof. intros H1 H2. rewrite (seq_texts _ _ _ _ H2). cbn [map once siMin siMax siName]. rewrite inTurn_one, repeated_one, (char_texts _ _ _ _ _ H1). tauto. Qed.
Lemma nokw_literal ct : hasFlag (N.lor ct CNoWhitespace) CNoKeyword = hasFlag ct CNoKeyword.
Proof. change CNoKeyword with (2 ^ 5)%N. rewrite !hasFlag_bit, N.lor_spec. simpl. apply orb_false_r. Qed.

Definition meant (name : string) (ct : commitType) (x : expr) : Prop :=
  forall w, T name w <-> denotes T x w /\ unlessChoice ct x w.
Lemma refs_meant name i ct x : (isSymbol x = false -> meant (childName name i) (innerFlags ct) x) -> sameTexts (T (refTo name i x)) (denotes T x).
Proof.
  intros H w. destruct (isSymbol x) eqn:E; [destruct x; try discriminate; cbn; tauto|].
  replace (refTo name i x) with (childName name i) by (destruct x; auto; discriminate). rewrite (H eq_refl w). unfold unlessChoice. rewrite inner_nokw. intuition discriminate.
Qed.
Theorem expr_meant x : forall name ct, (forall d, In d (callsOf name ct x) -> In d calls) -> meant name ct x.
Proof.
  induction x as [|cn cs rs|cs|n|items IH|options IH] using expr_rec'; intros name ct Hin w; rewrite callsOf_eq in Hin; unfold unlessChoice.
  - pose proof (Hin _ (or_introl eq_refl)) as Hd. rewrite (one_char name ct true [] [] w).
    + cbn [denotes]. split.
      * intros ((r & -> & _) & Hk). split; eauto.
      * intros ((r & ->) & Hk). split; [exists r; split; auto; unfold inClass; cbn; intros [[]|(? & ? & [] & _)]|]. intros E. destruct (Hk E) as [[? X]|X]; [discriminate|auto].
    + eapply rule_at; [exact Hd|]. left. auto.
    + eapply rule_at; [exact Hd|]. right. left. auto.
  - pose proof (Hin _ (or_introl eq_refl)) as Hd. rewrite (one_char name ct cn cs rs w).
    + cbn [denotes]. split; intros [H Hk]; (split; [exact H|]); intros E; [auto|]. destruct (Hk E) as [[? X]|X]; [discriminate|auto].
    + eapply rule_at; [exact Hd|]. left. auto.
    + eapply rule_at; [exact Hd|]. right. left. auto.
  - pose proof (Hin _ (or_introl eq_refl)) as Hd.
    rewrite (seq_texts name (N.lor ct CNoWhitespace) (map (fun i => once (childName name i)) (seq 0 (List.length cs))) w).
    + rewrite nokw_literal. rewrite (literal_texts name cs w 0).
      * cbn [denotes]. split; intros [H Hk]; (split; [exact H|]); intros E; [auto|]. destruct (Hk E) as [[? X]|X]; [discriminate|auto].
      * intros j c Hj. eapply rule_at; [exact Hd|]. cbn [callRules]. apply in_or_app. left. apply charRules_at. auto.
    + eapply rule_at; [exact Hd|]. cbn [callRules]. apply in_or_app. right. left. auto.
  - pose proof (Hin _ (or_introl eq_refl)) as Hd. rewrite (seq_texts name ct [mkItem n 0 0] w).
    + cbn [map siMin siMax siName]. rewrite inTurn_one, repeated_once. cbn [denotes]. split; intros [H Hk]; (split; [exact H|]); intros E; [auto|]. destruct (Hk E) as [[? X]|X]; [discriminate|auto].
    + eapply rule_at; [exact Hd|]. left. auto.
  - assert (Hd : In (DSequence name ct (itemRefs name 0 items)) calls) by (apply Hin; apply in_or_app; right; left; auto).
    rewrite (seq_texts name ct (itemRefs name 0 items) w) by (eapply rule_at; [exact Hd|left; auto]). cbn [denotes].
    assert (Hi : forall d, In d (innerItems name ct 0 items) -> In d calls) by (intros d H; apply Hin; apply in_or_app; left; auto).
    assert (Hs : forall w, inTurn (map (fun it => repeated (siMin it) (siMax it) (T (siName it))) (itemRefs name 0 items)) w <->
      inTurn (map (fun xb => repeated (fst (snd xb)) (snd (snd xb)) (denotes T (fst xb))) items) w).
    { apply inTurn_same. clear Hin Hd w. revert Hi. generalize 0. induction IH as [|[x [mn mx]] l Hx _ IHl]; intros i Hi; [constructor|].
      cbn [itemRefs map fst snd siMin siMax siName innerItems] in *. constructor; [|apply IHl; intros d H; apply Hi; apply in_or_app; auto].
      apply repeated_same. apply (refs_meant name i ct). intros E. rewrite E in Hi. apply Hx. intros d H. apply Hi. apply in_or_app. auto. }
    rewrite Hs. split; intros [H Hk]; (split; [exact H|]); intros E; [auto|]. destruct (Hk E) as [[? X]|X]; [discriminate|auto].
  - assert (Hd : In (DChoice name ct (optionRefs name 0 options)) calls) by (apply Hin; apply in_or_app; right; left; auto).
    rewrite (choice_gen name ct (optionRefs name 0 options) w) by (eapply rule_at; [exact Hd|left; auto]).
    assert (Hi : forall d, In d (innerOptions name ct 0 options) -> In d calls) by (intros d H; apply Hin; apply in_or_app; left; auto).
    rewrite choice_texts. transitivity (exists o, In o options /\ denotes T o w); [|split; [intros H; split; [auto|left; eauto]|intros [H _]; auto]].
    clear Hin Hd. revert Hi. generalize 0. induction IH as [|x l Hx _ IHl]; intros i Hi; cbn [optionRefs In innerOptions] in *; [split; intros (? & [] & _)|].
    assert (Hi1 : forall d, In d (innerOptions name ct (S i) l) -> In d calls) by (intros d H; apply Hi; apply in_or_app; auto).
    specialize (IHl (S i) Hi1). assert (Hr : sameTexts (T (refTo name i x)) (denotes T x)).
    { apply (refs_meant name i ct). intros E. rewrite E in Hi. apply Hx. intros d H. apply Hi. apply in_or_app. auto. }
    split.
    + intros (o & [<-|Ho] & H); [exists x; split; auto; apply Hr; auto|]. destruct IHl as [IHl _]. destruct IHl as (o' & H1 & H2); eauto.
    + intros (o & [<-|Ho] & H); [exists (refTo name i x); split; auto; apply Hr; auto|]. destruct IHl as [_ IHl]. destruct IHl as (o' & H1 & H2); eauto.
Qed.
End GRAMMAR.

(** ** syntax texts *)
Lemma callsOf_ws x : forall name ct d, In d (callsOf name ct x) -> callFlags d = ct \/ hasFlag (callFlags d) CWhitespace = false.
Proof.
  assert (Hf : forall ct, hasFlag (innerFlags ct) CWhitespace = false).
  { intros ct. unfold innerFlags. change CWhitespace with (2 ^ 2)%N. rewrite hasFlag_bit, N.lor_spec, N.land_spec. simpl. apply andb_false_r. }
  assert (Hi : forall ct d, callFlags d = innerFlags ct \/ hasFlag (callFlags d) CWhitespace = false -> hasFlag (callFlags d) CWhitespace = false).
  { intros ct d [-> |H]; auto. }
  induction x as [|cn cs rs|cs|n|items IH|options IH] using expr_rec'; intros name ct d Hd; rewrite callsOf_eq in Hd; try (destruct Hd as [<-|[]]; left; reflexivity);
    (apply in_app_or in Hd; destruct Hd as [Hd|[<-|[]]]; [right|left; reflexivity]; revert Hd; generalize 0).
  - induction IH as [|[x b] l Hx _ IHl]; intros i Hd; [destruct Hd|]. cbn [innerItems fst] in *. apply in_app_or in Hd. destruct Hd as [Hd|Hd]; [|exact (IHl _ Hd)]. destruct (isSymbol x); [destruct Hd|]. exact (Hi ct d (Hx _ _ _ Hd)).
  - induction IH as [|x l Hx _ IHl]; intros i Hd; [destruct Hd|]. cbn [innerOptions] in *. apply in_app_or in Hd. destruct Hd as [Hd|Hd]; [|exact (IHl _ Hd)]. destruct (isSymbol x); [destruct Hd|]. exact (Hi ct d (Hx _ _ _ Hd)).
Qed.
Lemma text_noWs defs : (forall d, In d defs -> hasFlag (tdFlags d) CWhitespace = false) -> noWhitespaceDefs (flat_map textCalls defs).
Proof.
  intros H c Hc. apply in_flat_map in Hc. destruct Hc as (d & Hd & Hc). destruct (callsOf_ws _ _ _ _ Hc) as [-> |E]; auto. rewrite <- (H d Hd).
  change CWhitespace with (2 ^ 2)%N. rewrite !hasFlag_bit, N.lor_spec. simpl. apply orb_false_r.
Qed.
Lemma denotes_env E F x : (forall n, sameTexts (E n) (F n)) -> sameTexts (denotes E x) (denotes F x).
Proof.
  intros H. induction x as [|cn cs rs|cs|n|items IH|options IH] using expr_rec'; try (intros w; cbn [denotes]; tauto).
  - intros w. apply H.
  - intros w. cbn [denotes]. apply inTurn_same. clear w. induction IH as [|[x b] l Hx _ IHl]; [constructor|]. cbn [map fst snd]. constructor; auto. apply repeated_same. auto.
  - intros w. rewrite !choice_texts. rewrite Forall_forall in IH. split; intros (o & Ho & Hw); exists o; (split; [auto|]); apply (IH o Ho w); auto.
Qed.
Theorem text_meant text defs s name flags x root :
  spells text defs -> Reads emptySyntax text REof s None ->
  (forall d, In d defs -> hasFlag (tdFlags d) CWhitespace = false) ->
  In (mkTextDef name flags x) defs ->
  let calls := flat_map textCalls defs in
  forall w, texts calls root name w <->
    denotes (texts calls root) x w /\ (hasFlag flags CNoKeyword = true -> (exists options, x = EChoice options) \/ ~ In w (keywordTexts calls)).
Proof.
  intros Hs HR Hw Hd calls w. apply (spells_means emptySyntax text defs eq_refl Hs) in HR. apply raw_names in HR. fold calls in HR.
  assert (E : forall n, sameTexts (texts calls root n) (gen (grammarOf calls) (keywordTexts calls) n)).
  { intros n v. unfold texts. rewrite noWs_names by (apply text_noWs; auto). apply wgen_plain. }
  rewrite (E name w), (denotes_env _ _ x E w).
  assert (H : meant calls (keywordTexts calls) name (N.lor flags CUserDefined) x).
  { apply expr_meant; auto. intros d H. apply in_flat_map. eexists. split; [exact Hd|]. exact H. }
  specialize (H w). unfold unlessChoice in H. replace (hasFlag (N.lor flags CUserDefined) CNoKeyword) with (hasFlag flags CNoKeyword) in H; [exact H|].
  change CNoKeyword with (2 ^ 5)%N. rewrite !hasFlag_bit, N.lor_spec. simpl. symmetry. apply orb_false_r.
Qed.
Theorem printed_same text defs s name flags x :
  Forall scalar text -> spells text defs -> Reads emptySyntax text REof s None -> In (mkTextDef name flags x) defs ->
  (forall m, In (ESymbol m) (inside x) -> In m (map tdName defs)) ->
  (forall chars, In (EText chars) (inside x) -> List.length chars = 1 \/ ~ In 34%Z chars) ->
  (forall items y b it, In (ESequence items) (inside x) -> In (y, b) items -> normalAll y = ESequence [it] -> normalBounds b = (0, 0)%Z) ->
  exists t N y, (forall k, N <= k -> formatOf k s name = Ok t) /\
    spells (stringRunes (name ++ "=" ++ t)) [mkTextDef name CNone y] /\
    forall env w, denotes env y w <-> denotes env x w.
Proof.
  intros A B C D E F H. destruct (all_back text defs s name flags x A B C D E F H) as (t & N & H1 & H2). exists t, N, (normalAll x). split; auto. split; auto.
  intros env. apply normal_same.
Qed.
