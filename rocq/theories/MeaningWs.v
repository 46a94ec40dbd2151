(** The definitions of a syntax text have the texts that their expressions denote, with whitespace. *)
From Verif Require Import Base Utf8 Parser Build Syntax ListFacts Lang Grammar WsLang LangGen Api ApiSpec WsNames WsApi ApiFacts ReadSpec ReadUse ReadLang ReadMeans SyntaxFacts BlameApi MeaningSpec Meaning.
Local Open Scope string_scope.
Local Open Scope list_scope.
Local Open Scope nat_scope.

Definition sameItem (a b : Z * Z * (list rune -> Prop)) : Prop := fst a = fst b /\ sameTexts (snd a) (snd b).
Lemma sameItem_sym a b : sameItem a b -> sameItem b a.
Proof. intros [H1 H2]. split; auto. intros w. symmetry. apply H2. Qed.
Lemma after_same sp L M : sameTexts L M -> sameTexts (after sp L) (after sp M).
Proof. intros H w. split; intros (s & u & -> & H1 & H2); exists s, u; split; auto; split; auto; apply H; auto. Qed.
Lemma turn_repeat L M k : sameTexts L M -> sameTexts (inTurn (repeat L k)) (inTurn (repeat M k)).
Proof. intros H. apply inTurn_same. induction k; constructor; auto. Qed.
Lemma spaced_mono sp first l w : spaced sp first l w -> forall m, Forall2 sameItem l m -> spaced sp first m w.
Proof.
  induction 1 as [first|first mn mx L items v Hq _ IH|mn L items u v Hq Hu _ IH|mn mx L items k u v w Hq Hu Hv _ IH|mn mx L items k v w Hq Hv _ IH];
    intros m Hm; inversion Hm as [|? [[mn' mx'] M] ? m' [E HL] Hm']; subst; cbn [fst snd] in *; try injection E as <- <-.
  - constructor.
  - apply spaced_none; auto.
  - apply spaced_gap; auto.
  - eapply spaced_first; eauto; [apply HL; auto|]. eapply turn_repeat; [|exact Hv]. apply after_same. intros z. symmetry. apply HL.
  - eapply spaced_next; eauto. eapply turn_repeat; [|exact Hv]. apply after_same. intros z. symmetry. apply HL.
Qed.
Lemma spaced_same sp l m : Forall2 sameItem l m -> forall first w, spaced sp first l w <-> spaced sp first m w.
Proof.
  intros H first w. split; intros X; eapply spaced_mono; eauto. clear X. induction H; constructor; auto. apply sameItem_sym. auto.
Qed.
Lemma spaced_space sp sp' l : sameTexts sp sp' -> forall first w, spaced sp first l w -> spaced sp' first l w.
Proof.
  intros Hs first w. assert (Ha : forall L, sameTexts (after sp L) (after sp' L)).
  { intros L z. split; intros (s & u & -> & H1 & H2); exists s, u; split; auto; split; auto; apply Hs; auto. }
  induction 1; [constructor|apply spaced_none; auto|apply spaced_gap; auto; apply Hs; auto|eapply spaced_first; eauto; eapply turn_repeat; [|eauto]; intros z; symmetry; apply Ha|
    eapply spaced_next; eauto; eapply turn_repeat; [|eauto]; intros z; symmetry; apply Ha].
Qed.
Lemma spaced_once sp L w : spaced sp true [(0%Z, 0%Z, L)] w <-> L w.
Proof.
  assert (N : ~ quantity 0 0 0) by (unfold quantity; lia). split.
  - intros H. inversion H as [|? ? ? ? ? ? Hq| |? ? ? ? k u v z Hq Hu Hv Hz|]; subst; [contradiction|].
    destruct Hq as [(_ & _ & E)|[E _]]; [|exfalso; apply E; auto]. injection E as ->. cbn [repeat] in Hv. inversion Hv; subst. inversion Hz; subst. rewrite !app_nil_r. auto.
  - intros H. replace w with (w ++ [] ++ []) by (rewrite !app_nil_r; auto). eapply spaced_first with (k := 0); [left; auto|auto|constructor|constructor].
Qed.
Lemma spaced_one sp L w : spaced sp true [(1%Z, 1%Z, L)] w <-> L w.
Proof.
  assert (N : ~ quantity 1 1 0) by (unfold quantity; lia). split.
  - intros H. inversion H as [|? ? ? ? ? ? Hq| |? ? ? ? k u v z Hq Hu Hv Hz|]; subst; [contradiction|].
    assert (k = 0) by (unfold quantity in Hq; lia). subst k. cbn [repeat] in Hv. inversion Hv; subst. inversion Hz; subst. rewrite !app_nil_r. auto.
  - intros H. replace w with (w ++ [] ++ []) by (rewrite !app_nil_r; auto). eapply spaced_first with (k := 0); [right; lia|auto|constructor|constructor].
Qed.
Lemma choice_spaced sp env tight nows options w : denotesSpaced sp env tight nows (EChoice options) w <-> exists o, In o options /\ denotesSpaced sp env nows nows o w.
Proof.
  cbn [denotesSpaced]. rewrite Exists_exists. split.
  - intros (L & H1 & H2). apply in_map_iff in H1. destruct H1 as (o & <- & H1). eauto.
  - intros (o & H1 & H2). exists (denotesSpaced sp env nows nows o). split; auto. apply in_map. auto.
Qed.

Section GRAMMAR.
Variable calls : list defcall.
Hypothesis Hn : NoDup (map fst (flat_map callRules calls)).
Variable K : list (list rune).
Variable wsn : list string.
Variable root : string.
Hypothesis Hroot : forall n i, childName n i <> root.
Notation G := (grammarOf calls).
Notation T := (wgen G K wsn root).
Notation B := (wbody G K wsn root).
Notation sp := (spaces wsn T).

Lemma T_def n w : n <> root -> (T n w <-> B n w).
Proof. clear Hroot Hn. intros H. split; [intros X; inversion X; [congruence|auto]|apply wgen_def; auto]. Qed.
Lemma space_spaces w : wspace G K wsn root w <-> sp w.
Proof.
  split.
  - induction 1 as [|n u v Hi Hu _ (k & Hk)]; [exists 0; constructor|]. exists (S k). cbn [repeat]. constructor; eauto.
  - intros (k & H). revert w H. induction k as [|k IH]; intros w H; cbn [repeat] in H; inversion H as [|? ? u v H1 H3]; subst; [constructor|]. destruct H1 as (n & H1 & H2). econstructor; eauto.
Qed.
Lemma more_turn n k w : wmore G K wsn root n k w <-> inTurn (repeat (after sp (T n)) k) w.
Proof.
  revert w. induction k as [|k IH]; intros w; cbn [repeat]; split; intros H.
  - inversion H; subst. constructor.
  - inversion H; subst. constructor.
  - inversion H as [|? ? s u v Hs Hu Hv]; subst. rewrite app_assoc. constructor; [exists s, u; split; auto; split; auto; apply space_spaces; auto|apply IH; auto].
  - inversion H as [|? ? u v H1 Hv]; subst. destruct H1 as (s & x & -> & Hs & Hx). rewrite <- app_assoc. constructor; [apply space_spaces; auto|auto|apply IH; auto].
Qed.
Lemma wrep_turn n k w : wrep G K wsn root n k w <-> inTurn (repeat (T n) k) w.
Proof. revert w. induction k as [|k IH]; intros w; cbn [repeat]; split; intros H; inversion H; subst; constructor; auto; apply IH; auto. Qed.
Lemma witems_turn items w : witems G K wsn root items w <-> inTurn (map (fun it => repeated (siMin it) (siMax it) (T (siName it))) items) w.
Proof.
  revert w. induction items as [|it items IH]; intros w; cbn [map]; split; intros H.
  - inversion H; subst. constructor.
  - inversion H; subst. constructor.
  - inversion H as [|? ? k u v Hq Hr Hi]; subst. constructor; [exists k; split; auto; apply wrep_turn; auto|apply IH; auto].
  - inversion H as [|? ? u v H1 Hi]; subst. destruct H1 as (k & Hq & Hk). econstructor; [exact Hq|apply wrep_turn; auto|apply IH; auto].
Qed.
Definition spacedItem (it : seqItem) : Z * Z * (list rune -> Prop) := (siMin it, siMax it, T (siName it)).
Lemma wspaced_spaced items : forall first w, wspaced G K wsn root first items w <-> spaced sp first (map spacedItem items) w.
Proof.
  induction items as [|it items IH]; intros first w; cbn [map]; split; intros H.
  - inversion H; subst. constructor.
  - inversion H; subst. constructor.
  - inversion H as [|? ? ? v Hq Hv|? ? u v Hq Hm Hu Hv|? ? k u v z Hq Hu Hv Hz|? ? k s u v z Hq Hs Hu Hv Hz]; subst.
    + apply spaced_none; auto. apply IH; auto.
    + unfold spacedItem. rewrite Hm in *. apply spaced_gap; auto; [apply space_spaces; auto|apply IH; auto].
    + eapply spaced_first; eauto; [apply more_turn; auto|apply IH; auto].
    + replace (s ++ u ++ v ++ z) with (((s ++ u) ++ v) ++ z) by (rewrite !app_assoc; auto). eapply spaced_next; eauto; [|apply IH; auto]. cbn [repeat]. constructor; [|apply more_turn; auto].
      exists s, u. split; auto. split; auto. apply space_spaces; auto.
  - destruct it as [n mn mx]. unfold spacedItem in H. cbn [siMin siMax siName] in H.
    inversion H as [|? ? ? ? ? v Hq Hv|? ? ? u v Hq Hu Hv|? ? ? ? k u v z Hq Hu Hv Hz|? ? ? ? k v z Hq Hv Hz]; subst.
    + apply wspaced_none; auto. apply IH; auto.
    + apply wspaced_gap; auto; [apply space_spaces; auto|apply IH; auto].
    + eapply wspaced_first; eauto; [apply more_turn; auto|apply IH; auto].
    + cbn [repeat] in Hv. inversion Hv as [|? ? a b H1 Hb]; subst. destruct H1 as (s & u & -> & Hs & Hu). replace (((s ++ u) ++ b) ++ z) with (s ++ u ++ b ++ z) by (rewrite <- !app_assoc; auto).
      eapply wspaced_next; eauto; [apply space_spaces; auto|apply more_turn; auto|apply IH; auto].
Qed.

Lemma char_body n cn cs rs w : G n = Some (RChar cn cs rs) -> (B n w <-> exists r, w = [r] /\ inClass cn cs rs r).
Proof.
  intros Hr. split.
  - intros H. inversion H; subst; try congruence. eexists. split; [reflexivity|]. congruence.
  - intros (r & -> & H). econstructor; eauto.
Qed.
Lemma seq_body n ct items w : G n = Some (RSeq ct items) ->
  (B n w <-> (if compact ct then inTurn (map (fun it => repeated (siMin it) (siMax it) (T (siName it))) items) w else spaced sp true (map spacedItem items) w) /\
    (hasFlag ct CNoKeyword = true -> ~ In w K)).
Proof.
  intros Hr. split.
  - intros H. inversion H as [|? ? ? ? Hr' Hc Hk Hi|? ? ? ? Hr' Hc Hk Hi|]; subst; try congruence; rewrite Hr in Hr'; injection Hr' as <- <-; rewrite Hc; (split; [|auto]).
    + apply witems_turn. auto.
    + apply wspaced_spaced. auto.
  - intros [H1 H2]. destruct (compact ct) eqn:E; [eapply wbody_compact; eauto; apply witems_turn; auto|eapply wbody_spaced; eauto; apply wspaced_spaced; auto].
Qed.
Lemma choice_body n ct os w : G n = Some (RChoice ct os) -> (B n w <-> exists o, In o os /\ T o w).
Proof.
  intros Hr. split.
  - intros H. inversion H as [| | |? ? ? o ? Hr' Ho Hw]; subst; try congruence. rewrite Hr in Hr'. injection Hr' as <- <-. eauto.
  - intros (o & H1 & H2). eapply wbody_choice; eauto.
Qed.
Lemma one_char_ws n ct cn cs rs w : G (childName n 0) = Some (RChar cn cs rs) -> G n = Some (RSeq ct [once (childName n 0)]) ->
  (B n w <-> (exists r, w = [r] /\ inClass cn cs rs r) /\ (hasFlag ct CNoKeyword = true -> ~ In w K)).
Proof.
  intros H1 H2. rewrite (seq_body _ _ _ _ H2). cbn [map spacedItem once siMin siMax siName]. unfold spacedItem. cbn [once siMin siMax siName].
  destruct (compact ct); [rewrite inTurn_one, repeated_one|rewrite spaced_one]; rewrite (T_def _ _ (Hroot _ _)), (char_body _ _ _ _ _ H1); tauto.
Qed.
Lemma literal_body name cs w i : (forall j c, nth_error cs j = Some c -> G (childName name (i + j)) = Some (RChar false [c] [])) ->
  (inTurn (map (fun it => repeated (siMin it) (siMax it) (T (siName it))) (map (fun i => once (childName name i)) (seq i (List.length cs)))) w <-> w = cs).
Proof.
  revert w i. induction cs as [|c cs IH]; intros w i H; cbn [List.length seq map].
  - split; [intros X; inversion X; auto|intros ->; constructor].
  - assert (H0 : forall u, repeated 1 1 (T (childName name i)) u <-> u = [c]).
    { intros u. specialize (H 0 c eq_refl). rewrite Nat.add_0_r in H. rewrite repeated_one, (T_def _ _ (Hroot _ _)), (char_body _ _ _ _ _ H). split.
      - intros (r & -> & [[->|[]]|(? & ? & [] & _)]). auto.
      - intros ->. exists c. split; auto. left. left. auto. }
    assert (H1 : forall j d, nth_error cs j = Some d -> G (childName name (S i + j)) = Some (RChar false [d] [])).
    { intros j d Hj. replace (S i + j) with (i + S j) by lia. apply H. auto. }
    split.
    + intros X. inversion X as [|? ? u v X1 X2]; subst. apply H0 in X1. apply (IH _ _ H1) in X2. subst. auto.
    + intros ->. change (c :: cs) with ([c] ++ cs). constructor; [apply H0; auto|apply (IH _ _ H1); auto].
Qed.
Lemma compact_literal ct : compact (N.lor ct CNoWhitespace) = true.
Proof. unfold compact. change CNoWhitespace with (2 ^ 3)%N. rewrite hasFlag_bit, N.lor_spec. simpl. rewrite orb_true_r. reflexivity. Qed.
Lemma inner_nows ct : hasFlag (innerFlags ct) CNoWhitespace = hasFlag ct CNoWhitespace.
Proof. unfold innerFlags. change CNoWhitespace with (2 ^ 3)%N. rewrite !hasFlag_bit, N.lor_spec, N.land_spec. simpl. apply andb_true_r. Qed.
Lemma inner_compact ct : compact (innerFlags ct) = hasFlag ct CNoWhitespace.
Proof.
  unfold compact. rewrite inner_nows. replace (hasFlag (innerFlags ct) CWhitespace) with false; [apply orb_false_r|].
  unfold innerFlags. change CWhitespace with (2 ^ 2)%N. rewrite hasFlag_bit, N.lor_spec, N.land_spec. simpl. symmetry. apply andb_false_r.
Qed.

Definition meantWs (name : string) (ct : commitType) (x : expr) : Prop :=
  forall w, B name w <-> denotesSpaced sp T (compact ct) (hasFlag ct CNoWhitespace) x w /\ unlessChoice K ct x w.
Lemma refs_meantWs name i ct x : (isSymbol x = false -> meantWs (childName name i) (innerFlags ct) x) ->
  sameTexts (T (refTo name i x)) (denotesSpaced sp T (hasFlag ct CNoWhitespace) (hasFlag ct CNoWhitespace) x).
Proof.
  intros H w. destruct (isSymbol x) eqn:E; [destruct x; try discriminate; cbn; tauto|].
  replace (refTo name i x) with (childName name i) by (destruct x; auto; discriminate). rewrite (T_def _ _ (Hroot _ _)), (H eq_refl w). unfold unlessChoice.
  rewrite inner_nokw, inner_compact, inner_nows. intuition discriminate.
Qed.
Theorem expr_meantWs x : forall name ct, (forall d, In d (callsOf name ct x) -> In d calls) -> meantWs name ct x.
Proof.
  induction x as [|cn cs rs|cs|n|items IH|options IH] using expr_rec'; intros name ct Hin w; rewrite callsOf_eq in Hin; unfold unlessChoice.
  - pose proof (Hin _ (or_introl eq_refl)) as Hd. rewrite (one_char_ws name ct true [] [] w).
    + cbn [denotesSpaced]. split.
      * intros ((r & -> & _) & Hk). split; eauto.
      * intros ((r & ->) & Hk). split; [exists r; split; auto; unfold inClass; cbn; intros [[]|(? & ? & [] & _)]|]. intros E. destruct (Hk E) as [[? X]|X]; [discriminate|auto].
    + eapply rule_at; [auto|exact Hd|]. left. auto.
    + eapply rule_at; [auto|exact Hd|]. right. left. auto.
  - pose proof (Hin _ (or_introl eq_refl)) as Hd. rewrite (one_char_ws name ct cn cs rs w).
    + cbn [denotesSpaced]. split; intros [H Hk]; (split; [exact H|]); intros E; [auto|]. destruct (Hk E) as [[? X]|X]; [discriminate|auto].
    + eapply rule_at; [auto|exact Hd|]. left. auto.
    + eapply rule_at; [auto|exact Hd|]. right. left. auto.
  - pose proof (Hin _ (or_introl eq_refl)) as Hd.
    rewrite (seq_body name (N.lor ct CNoWhitespace) (map (fun i => once (childName name i)) (seq 0 (List.length cs))) w).
    + rewrite nokw_literal, compact_literal. rewrite (literal_body name cs w 0).
      * cbn [denotesSpaced]. split; intros [H Hk]; (split; [exact H|]); intros E; [auto|]. destruct (Hk E) as [[? X]|X]; [discriminate|auto].
      * intros j c Hj. eapply rule_at; [auto|exact Hd|]. cbn [callRules]. apply in_or_app. left. apply charRules_at. auto.
    + eapply rule_at; [auto|exact Hd|]. cbn [callRules]. apply in_or_app. right. left. auto.
  - pose proof (Hin _ (or_introl eq_refl)) as Hd. rewrite (seq_body name ct [mkItem n 0 0] w).
    + unfold spacedItem. cbn [map siMin siMax siName denotesSpaced]. destruct (compact ct); [rewrite inTurn_one, repeated_once|rewrite spaced_once];
      split; intros [H Hk]; (split; [exact H|]); intros E; try solve [auto]; (destruct (Hk E) as [[? X]|X]; [discriminate|auto]).
    + eapply rule_at; [auto|exact Hd|]. left. auto.
  - assert (Hd : In (DSequence name ct (itemRefs name 0 items)) calls) by (apply Hin; apply in_or_app; right; left; auto).
    rewrite (seq_body name ct (itemRefs name 0 items) w) by (eapply rule_at; [auto|exact Hd|left; auto]). cbn [denotesSpaced].
    assert (Hi : forall d, In d (innerItems name ct 0 items) -> In d calls) by (intros d H; apply Hin; apply in_or_app; left; auto).
    assert (Hf : Forall2 (fun it xb => siMin it = fst (snd xb) /\ siMax it = snd (snd xb) /\
      sameTexts (T (siName it)) (denotesSpaced sp T (hasFlag ct CNoWhitespace) (hasFlag ct CNoWhitespace) (fst xb))) (itemRefs name 0 items) items).
    { clear Hin Hd w. revert Hi. generalize 0. induction IH as [|[x [mn mx]] l Hx _ IHl]; intros i Hi; [constructor|].
      cbn [itemRefs innerItems fst] in *. constructor; [|apply IHl; intros d H; apply Hi; apply in_or_app; auto]. cbn [siMin siMax siName fst snd]. split; auto. split; auto.
      apply (refs_meantWs name i ct). intros E. rewrite E in Hi. apply Hx. intros d H. apply Hi. apply in_or_app. auto. }
    assert (Hs : (if compact ct then inTurn (map (fun it => repeated (siMin it) (siMax it) (T (siName it))) (itemRefs name 0 items)) w else spaced sp true (map spacedItem (itemRefs name 0 items)) w) <->
      denotesSpaced sp T (compact ct) (hasFlag ct CNoWhitespace) (ESequence items) w).
    { cbn [denotesSpaced]. destruct (compact ct).
      - apply inTurn_same. clear - Hf. induction Hf as [|it xb l m (E1 & E2 & E3) _ IHf]; [constructor|]. cbn [map]. constructor; auto. rewrite E1, E2. apply repeated_same. auto.
      - apply spaced_same. clear - Hf. induction Hf as [|it xb l m (E1 & E2 & E3) _ IHf]; [constructor|]. cbn [map]. constructor; auto. unfold spacedItem. rewrite E1, E2. split; auto. }
    rewrite Hs. split; intros [H Hk]; (split; [exact H|]); intros E; [auto|]. destruct (Hk E) as [[? X]|X]; [discriminate|auto].
  - assert (Hd : In (DChoice name ct (optionRefs name 0 options)) calls) by (apply Hin; apply in_or_app; right; left; auto).
    rewrite (choice_body name ct (optionRefs name 0 options) w) by (eapply rule_at; [auto|exact Hd|left; auto]).
    assert (Hi : forall d, In d (innerOptions name ct 0 options) -> In d calls) by (intros d H; apply Hin; apply in_or_app; left; auto).
    rewrite choice_spaced. transitivity (exists o, In o options /\ denotesSpaced sp T (hasFlag ct CNoWhitespace) (hasFlag ct CNoWhitespace) o w); [|split; [intros H; split; [auto|left; eauto]|intros [H _]; auto]].
    clear Hin Hd. revert Hi. generalize 0. induction IH as [|x l Hx _ IHl]; intros i Hi; cbn [optionRefs In innerOptions] in *; [split; intros (? & [] & _)|].
    assert (Hi1 : forall d, In d (innerOptions name ct (S i) l) -> In d calls) by (intros d H; apply Hi; apply in_or_app; auto).
    specialize (IHl (S i) Hi1). assert (Hr : sameTexts (T (refTo name i x)) (denotesSpaced sp T (hasFlag ct CNoWhitespace) (hasFlag ct CNoWhitespace) x)).
    { apply (refs_meantWs name i ct). intros E. rewrite E in Hi. apply Hx. intros d H. apply Hi. apply in_or_app. auto. }
    split.
    + intros (o & [<-|Ho] & H); [exists x; split; auto; apply Hr; auto|]. destruct IHl as [IHl _]. destruct IHl as (o' & H1 & H2); eauto.
    + intros (o & [<-|Ho] & H); [exists (refTo name i x); split; auto; apply Hr; auto|]. destruct IHl as [_ IHl]. destruct IHl as (o' & H1 & H2); eauto.
Qed.
End GRAMMAR.

(** ** syntax texts *)
Lemma child_colon n i : ~ colonFree (childName n i).
Proof. intros H. apply H. unfold childName. rewrite list_ascii_app. apply in_or_app. right. left. reflexivity. Qed.
Section TEXT.
Variables (text : list rune) (defs : list textDef) (s : syntax).
Hypothesis Hs : spells text defs.
Hypothesis HR : Reads emptySyntax text REof s None.
Notation calls := (flat_map textCalls defs).
Variable root : string.
Hypothesis Hroot : rootName calls = Some root.
Notation own flags x := (ownTexts (whitespaceNames calls) (keywordTexts calls) (texts calls root) flags x).
Lemma body_own name flags x w : In (mkTextDef name flags x) defs ->
  (wbody (grammarOf calls) (keywordTexts calls) (whitespaceNames calls) root name w <-> own flags x w).
Proof.
  intros Hd. pose proof Hs as (Hv & t & Ht & Hdefs). pose proof (text_root defs root (names_colonFree text t defs Hv Ht Hdefs) Hroot) as Hc.
  pose proof HR as HR'. apply (spells_means emptySyntax text defs eq_refl Hs) in HR'. apply raw_names in HR'.
  assert (H : meantWs calls (keywordTexts calls) (whitespaceNames calls) root name (N.lor flags CUserDefined) x).
  { apply expr_meantWs; auto; [intros n i E; apply (child_colon n i); rewrite E; auto|]. intros d H. apply in_flat_map. eexists. split; [exact Hd|]. exact H. }
  rewrite (H w). unfold unlessChoice, ownTexts, texts, compact.
  assert (F : forall k, k <> 8%N -> hasFlag (N.lor flags CUserDefined) (2 ^ k)%N = hasFlag flags (2 ^ k)%N).
  { intros k Hk. rewrite !hasFlag_bit, N.lor_spec. change CUserDefined with (2 ^ 8)%N. rewrite N.pow2_bits_false by auto. apply orb_false_r. }
  change CNoKeyword with (2 ^ 5)%N. change CNoWhitespace with (2 ^ 3)%N. change CWhitespace with (2 ^ 2)%N. rewrite !F by discriminate. tauto.
Qed.
Theorem def_meantWs name flags x w : In (mkTextDef name flags x) defs -> name <> root -> (texts calls root name w <-> own flags x w).
Proof. intros Hd Hr. rewrite <- (body_own name flags x w Hd). apply T_def; auto. Qed.
Theorem root_meantWs flags x w : In (mkTextDef root flags x) defs ->
  (texts calls root root w <-> exists u v z, w = u ++ v ++ z /\ spaces (whitespaceNames calls) (texts calls root) u /\ own flags x v /\ spaces (whitespaceNames calls) (texts calls root) z).
Proof.
  intros Hd. split.
  - intros H. inversion H as [u v z Hu Hv Hz|]; subst; [|contradiction]. exists u, v, z. split; auto. split; [apply space_spaces; auto|]. split; [apply (body_own root flags x v Hd); auto|apply space_spaces; auto].
  - intros (u & v & z & -> & Hu & Hv & Hz). apply wgen_root; [apply space_spaces; auto|apply (body_own root flags x v Hd); auto|apply space_spaces; auto].
Qed.
End TEXT.
Theorem node_meantWs text defs s s' input e t toks n flags x :
  let calls := flat_map textCalls defs in
  spells text defs -> Reads emptySyntax text REof s None -> textReady defs -> sensibleRanges calls ->
  Parses s input e s' (Tree t toks) -> inTree n t -> In (mkTextDef (nName n) flags x) defs ->
  exists root u v w, rootName calls = Some root /\ nodeRunes toks n = u ++ v ++ w /\
    ownTexts (whitespaceNames calls) (keywordTexts calls) (texts calls root) flags x v /\
    (nName n <> root -> u = [] /\ w = []) /\
    spaces (whitespaceNames calls) (texts calls root) u /\ spaces (whitespaceNames calls) (texts calls root) w.
Proof.
  intros calls Hs HR Hw Hr HP Hn Hd. destruct (spells_words text defs s s' input e t toks n) as (root & H1 & H2); auto. fold calls in H1, H2.
  exists root. destruct (string_dec (nName n) root) as [E|E].
  - rewrite E in H2, Hd. apply (root_meantWs text defs s Hs HR root H1 flags x) in H2; auto. destruct H2 as (u & v & w & Hu). exists u, v, w.
    destruct Hu as (Hu1 & Hu2 & Hu3 & Hu4). repeat split; auto; try (intros; contradiction); apply Hu3.
  - apply (def_meantWs text defs s Hs HR root H1 (nName n) flags x) in H2; auto. exists [], (nodeRunes toks n), []. cbn [app]. rewrite app_nil_r.
    assert (N : spaces (whitespaceNames calls) (texts calls root) []) by (exists 0; constructor). repeat split; auto; apply H2.
Qed.
