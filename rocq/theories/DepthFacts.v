(** The depth of the calls of parser.parse: a sequence and a choice mark their id as pending at the offset
    before they call the parsers of their elements, and a pending one returns at once.  So the number of
    the pairs of an offset and an id that are not pending bounds the depth. *)
From Verif Require Import Base Utf8 IdSet Results Parser Build ListFacts ResultsFacts ReaderFacts ParseFacts
  FuelFacts TermFacts Syntax Cost CostFacts.

Section DEPTH.
Variable P : pheap.
Variable kws : list addr.
Variable input0 : list rune.
Variable e0 : rend.
Hypothesis Hac : allCharsOk P.
Hypothesis Hkw : kwOk P kws.

Let G : nat -> nat -> nat -> Prop := fun _ _ _ => True.
Notation cinv := (cinv input0 e0 G).
Notation post := (post P input0 e0 G).
Notation free := (free P input0).
Notation parseM := (parseN Nat.max P kws).

Lemma parseM_post n p c c' k : cinv c -> parseM n p c = Ok (c', k) -> post p c c'.
Proof. intros H Hk. apply parseN_run in Hk. eapply parse_post; eauto. Qed.

Section LOOPS.
Variable n B : nat.
Variable base : context.
Notation recN := (parseM n).

Lemma keywordLoop_depth l : forall from to c c' b m,
  (forall a c c' j, In a l -> cinv c -> samePending base c -> recN a c = Ok (c', j) -> j <= B) ->
  cinv c -> samePending base c -> from <= List.length (cTokens c) ->
  keywordLoopN Nat.max recN l from to c = Ok (c', b, m) -> m <= B.
Proof.
  induction l as [|kw l IH]; intros from to c c' b m Hn H Hs Hf Hk; cbn [keywordLoopN] in Hk; [inversion Hk; lia|].
  assert (H0 : cinv (setOffset c from)) by (apply cinv_offset; auto).
  binv Hk. destruct x as [c1 j]. pose proof (Hn _ _ _ _ (or_introl eq_refl) H0 Hs E) as Hj.
  apply parseM_post in E; auto. destruct E as (Q1 & Q2 & Q3 & _).
  destruct (_ && _)%bool; [inversion Hk; subst; auto|].
  binv Hk. destruct x as [[c2 b2] m2]. inversion Hk; subst. apply IH in E; auto; [simpl; lia| | |].
  - intros a c0 c3 j0 Hin. apply Hn. right; auto.
  - eapply samePending_trans; eauto.
  - apply step_len in Q2. simpl in Q2. lia.
Qed.
Lemma keyword_depth flag from to c c' b m :
  (forall a c c' j, In a kws -> cinv c -> samePending base c -> recN a c = Ok (c', j) -> j <= B) ->
  cinv c -> samePending base c -> from <= List.length (cTokens c) ->
  (if flag : bool then isKeywordN Nat.max recN kws from to c else Ok (c, false, 0)) = Ok (c', b, m) -> m <= B.
Proof.
  intros Hn H Hs Hf Hk. destruct flag; [|inversion Hk; lia].
  unfold isKeywordN in Hk. binv Hk. destruct x as [[c1 b1] m1]. inversion Hk; subst. eapply keywordLoop_depth in E; eauto. apply cinv_limit; auto.
Qed.
Lemma seqLoop_depth p id commit items ranges ac from k : forall to ii cnt c out m,
  (forall a c c' j, In a items -> cinv c -> samePending base c -> recN a c = Ok (c', j) -> j <= B) ->
  cinv c -> samePending base c ->
  seqLoopN Nat.max recN k p id commit items ranges ac from to ii cnt c = Ok (out, m) -> m <= B.
Proof.
  induction k as [|k IH]; intros to ii cnt c out m Hn H Hs Hk; [discriminate|].
  cbn [seqLoopN] in Hk. destruct (nth_error items ii) as [item|] eqn:Ei; [|inversion Hk; lia].
  assert (Hin : In item items) by (eapply nth_error_In; eauto).
  binv Hk. destruct x as [c1 j]. pose proof (Hn _ _ _ _ Hin H Hs E) as Hj. apply parseM_post in E; auto. destruct E as (Q1 & Q2 & Q3 & Q4).
  pose proof (samePending_trans _ _ _ Hs Q3) as Hs'.
  destruct (nth_error ranges ii) as [[mn mx]|]; [|discriminate]. destruct (negb _).
  - destruct (_ <=? _)%Z.
    + binv Hk. destruct x as [out1 m1]. inversion Hk; subst out1 m. apply IH in E; auto. simpl. lia.
    + cbv zeta in Hk. destruct (fromResults _ _); binv Hk; inversion Hk; subst; auto.
  - binv Hk. destruct x as [out1 m1]. inversion Hk; subst out1 m. destruct (_ || _)%bool; apply IH in E; auto; simpl; lia.
Qed.
Lemma choicePass_depth id from options : forall s c s' c' m,
  (forall a c c' j, In a options -> cinv c -> samePending base c -> recN a c = Ok (c', j) -> j <= B) ->
  cinv c -> samePending base c -> cOffset c = from ->
  choicePassN Nat.max recN id from options s c = Ok (s', c', m) -> m <= B /\ cinv c' /\ samePending base c' /\ cOffset c' = from.
Proof.
  induction options as [|op options IH]; intros s c s' c' m Hn H Hs Ho Hk; cbn [choicePassN] in Hk.
  - inversion Hk; subst. split; [lia|]. auto.
  - binv Hk. destruct x as [c1 j]. pose proof (Hn _ _ _ _ (or_introl eq_refl) H Hs E) as Hj. apply parseM_post in E; auto. destruct E as (Q1 & Q2 & Q3 & Q4).
    pose proof (samePending_trans _ _ _ Hs Q3) as Hs'.
    binv Hk. destruct x as [[s2 c2] m1]. inversion Hk; subst s2 c2 m; clear Hk.
    assert (Hn' : forall a c c' j, In a options -> cinv c -> samePending base c -> recN a c = Ok (c', j) -> j <= B) by (intros; eapply Hn; eauto; right; auto).
    pose proof (ci_off _ _ _ _ Q1) as Hxo. pose proof (step_len _ _ Q2) as Hlen. pose proof (ci_off _ _ _ _ H) as Hco0.
    assert (Hco : cOffset c <= cOffset c1) by (destruct (cMatchLast c1); [apply Q4 | lia]).
    destruct (_ || _)%bool.
    + apply IH in E; auto; [|apply cinv_offset; auto; lia]. destruct E as (R1 & R2). split; auto. simpl. lia.
    + apply IH in E; auto.
      * destruct E as (R1 & R2). split; auto. simpl. lia.
      * apply cinv_results; [|apply cinv_offset; auto; lia].
        intros o i t Hst. apply stored_setMatch in Hst. split; [|exact I].
        destruct Hst as [Hst|(-> & -> & ->)]; [destruct Q1; eauto|]. simpl. lia.
      * intros o i. simpl. rewrite pcount_setMatch. apply Hs'.
Qed.
Lemma choiceLoop_depth id from options k : forall s c s' c' m,
  (forall a c c' j, In a options -> cinv c -> samePending base c -> recN a c = Ok (c', j) -> j <= B) ->
  cinv c -> samePending base c -> cOffset c = from ->
  choiceLoopN Nat.max recN k id from options s c = Ok (s', c', m) -> m <= B /\ cinv c' /\ samePending base c' /\ cOffset c' = from.
Proof.
  induction k as [|k IH]; intros s c s' c' m Hn H Hs Ho Hk; [discriminate|].
  cbn [choiceLoopN] in Hk. binv Hk. destruct x as [[s1 c1] m1]. apply choicePass_depth in E; auto. destruct E as (R1 & R2 & R3 & R4).
  destruct (chFound s1).
  - binv Hk. destruct x as [[s2 c2] m2]. inversion Hk; subst s2 c2 m; clear Hk. apply IH in E; auto. destruct E as (S1 & S2). split; auto. simpl. lia.
  - inversion Hk; subst. auto.
Qed.
End LOOPS.

(** the characters of a sequence *)
Lemma char_depth n p c c' d : match nth_error P p with Some (PChar _ _ _ _ _) => True | Some _ => False | None => True end ->
  parseM n p c = Ok (c', d) -> d <= 1.
Proof.
  intros Hp Hk. destruct n as [|n]; [discriminate|]. cbn [parseN] in Hk. destruct (nth_error P p) as [[| |]|]; try contradiction; [|discriminate].
  binv Hk. binv E. inversion E; subst. inversion Hk; subst. simpl. lia.
Qed.
(** a sequence of characters without nokw *)
Lemma plain_depth n p name id commit items ranges gs c c' d :
  nth_error P p = Some (PSeq name id commit items ranges gs true) -> hasFlag commit CNoKeyword = false ->
  cinv c -> parseM n p c = Ok (c', d) -> d <= 2.
Proof.
  intros Hp Hnk H Hk. destruct n as [|n]; [discriminate|]. cbn [parseN] in Hk. rewrite Hp in Hk. binv Hk. destruct x as [c1 m]. inversion Hk; subst; clear Hk. simpl.
  unfold seqParseN in E. simpl in E. binv E. destruct x as [out m0]. apply (seqLoop_depth n 1 c) in E0; auto using samePending_refl.
  - destruct out as [to c2|c2]; [rewrite Hnk in E; cbn [bind] in E|]; inversion E; subst; simpl; lia.
  - intros a c0 c2 j Ha _ _ Hj. eapply char_depth; eauto. exact (Hac _ _ _ _ _ _ _ Hp a Ha).
Qed.

(** sequences that are marked, and choices *)
Lemma marking_depth B n p ob c c' d :
  (forall p c1 c2 j, cinv c1 -> free c1 < free c -> parseM n p c1 = Ok (c2, j) -> j <= B) ->
  nth_error P p = Some ob ->
  match ob with PChar _ _ _ _ _ => False | PSeq _ _ _ _ _ _ ac => ac = false | PChoice _ _ _ _ _ => True end ->
  cinv c -> parseM (S n) p c = Ok (c', d) -> d <= S B.
Proof.
  intros IH Hp Hob H Hk.
  assert (Hc0 : pending (cResults c) (cOffset c) (nodeID ob) = false ->
                cinv (setResults c (markPending (cResults c) (cOffset c) (nodeID ob))) /\
                forall a c1 c2 j, cinv c1 -> samePending (setResults c (markPending (cResults c) (cOffset c) (nodeID ob))) c1 ->
                       parseM n a c1 = Ok (c2, j) -> j <= B).
  { intros Hpend. split; [now apply cinv_mark|]. intros a c1 c2 j H1 Hs1 Hj.
    pose proof (free_mark _ _ _ _ _ _ H Hp Hpend). eapply free_same in Hs1. eapply IH; eauto. rewrite Hs1. auto. }
  cbn [parseN] in Hk. rewrite Hp in Hk. binv Hk. destruct x as [cx mx]. inversion Hk; subst; clear Hk. apply le_n_S. simpl snd.
  destruct ob as [|name id commit items ranges gs ac|name id commit options gs]; [contradiction| |].
  - subst ac. unfold seqParseN in E. simpl negb in E. cbn [andb] in E.
    destruct (pending (cResults c) (cOffset c) id) eqn:Epend; [inversion E; subst; lia|].
    simpl in Hc0. specialize (Hc0 Epend). destruct Hc0 as [H0 Hrec]. set (c0 := setResults c _) in *.
    binv E. destruct x as [out m0]. rename E0 into E0p. pose proof E0p as E0. apply (seqLoop_depth n B c0) in E0; auto using samePending_refl; [|intros; eapply Hrec; eauto].
    destruct out as [to c1|c1]; [|inversion E; subst; auto].
    assert (Hl : seqLoop (parse P kws n) n p id commit items ranges false (cOffset c) (cOffset c) 0 0 c0 = Ok (SLoop to c1)).
    { rewrite <- (seqLoop_er Nat.max (parse P kws n) (parseM n) (parse_counts Nat.max P kws n)). rewrite E0p. reflexivity. }
    eapply seqLoop_spec in Hl; eauto; [|intros; eapply parse_post; eauto].
    destruct Hl as (Q1 & Q2 & Q3 & Q4 & Q5 & Q6).
    binv E. destruct x as [[c2 b] m']. apply (keyword_depth n B c0) in E1; auto; [|intros; eapply Hrec; eauto|pose proof (ci_off _ _ _ _ Q1); lia].
    binv E. inversion E; subst. lia.
  - unfold choiceParseN in E. destruct (fromResults c id); [inversion E; subst; lia|].
    destruct (pending (cResults c) (cOffset c) id) eqn:Epend; [inversion E; subst; lia|].
    simpl in Hc0. specialize (Hc0 Epend). destruct Hc0 as [H0 Hrec]. set (c0 := setResults c _) in *.
    binv E. destruct x as [[s c1] m0]. apply (choiceLoop_depth n B c0) in E0; auto using samePending_refl; [|intros; eapply Hrec; eauto].
    destruct E0 as (R1 & R2 & R3 & R4). destruct (chMatch s).
    + binv E. destruct x as [[c2 b] m']. apply (keyword_depth n B c0) in E0; auto; [|intros; eapply Hrec; eauto|pose proof (ci_off _ _ _ _ R2); lia].
      binv E. inversion E; subst. lia.
    + binv E. inversion E; subst. auto.
Qed.

Theorem parse_depth : forall n p c c' d, cinv c -> parseM n p c = Ok (c', d) -> d <= 2 * free c + 3.
Proof.
  induction n as [n IHn] using lt_wf_ind. intros p c c' d H Hk. destruct n as [|n]; [discriminate|].
  destruct (nth_error P p) as [ob|] eqn:Hp; [|apply char_depth in Hk; [lia|rewrite Hp; exact I]].
  assert (Hm : forall n' q obq c1 c2 j, n' < S n -> nth_error P q = Some obq ->
    match obq with PChar _ _ _ _ _ => False | PSeq _ _ _ _ _ _ ac => ac = false | PChoice _ _ _ _ _ => True end ->
    cinv c1 -> free c1 = free c -> parseM (S n') q c1 = Ok (c2, j) -> j <= 2 * free c + 2).
  { intros n' q obq c1 c2 j Hn' Hq Hob H1 Hf Hj. apply (marking_depth (2 * free c + 1) n' q obq c1) in Hj; auto; [lia|].
    intros p0 c3 c4 j0 H3 Hf3 Hj0. apply IHn in Hj0; auto. lia. }
  destruct ob as [nm i cn ch rs|name id commit items ranges gs ac|name id commit options gs] eqn:Eob.
  - apply char_depth in Hk; [lia|rewrite Hp; exact I].
  - destruct ac; [|apply (Hm n p (PSeq name id commit items ranges gs false) c c' d) in Hk; auto; lia].
    destruct (hasFlag commit CNoKeyword) eqn:Enk; [|eapply plain_depth in Hk; eauto; lia].
    cbn [parseN] in Hk. rewrite Hp in Hk. binv Hk. destruct x as [cx mx]. inversion Hk; subst; clear Hk. simpl snd.
    unfold seqParseN in E. simpl negb in E. cbn [andb] in E. cbv iota in E.
    binv E. destruct x as [out m0]. rename E0 into E0p. pose proof E0p as E0.
    apply (seqLoop_depth n 1 c) in E0; auto using samePending_refl.
    2:{ intros a c0 c2 j Ha _ _ Hj. eapply char_depth; eauto. exact (Hac _ _ _ _ _ _ _ Hp a Ha). }
    destruct out as [to c1|c1]; [|inversion E; subst; lia].
    assert (Hl : seqLoop (parse P kws n) n p id commit items ranges true (cOffset c) (cOffset c) 0 0 c = Ok (SLoop to c1)).
    { rewrite <- (seqLoop_er Nat.max (parse P kws n) (parseM n) (parse_counts Nat.max P kws n)). rewrite E0p. reflexivity. }
    eapply seqLoop_spec in Hl; eauto; [|intros; eapply parse_post; eauto].
    destruct Hl as (Q1 & Q2 & Q3 & Q4 & Q5 & Q6). rewrite Enk in E.
    binv E. destruct x as [[c2 b] m']. apply (keyword_depth n (2 * free c + 2) c true) in E1; auto; [| |pose proof (ci_off _ _ _ _ Q1); lia].
    + binv E. inversion E; subst. lia.
    + intros kw c3 c4 j Hin H3 Hs3 Hj. apply (free_same P input0) in Hs3.
      destruct (nth_error P kw) as [kob|] eqn:Hkob; [|apply char_depth in Hj; [lia|rewrite Hkob; exact I]].
      destruct n as [|n]; [discriminate|].
      destruct kob as [nm' i' cn' ch' rs'|nm' i' ct' it' rg' gs' ac'|nm' i' ct' op' gs'] eqn:Ek.
      * apply char_depth in Hj; [lia|rewrite Hkob; exact I].
      * destruct ac'.
        { apply (plain_depth _ _ _ _ _ _ _ _ _ _ _ Hkob (Hkw _ _ _ _ _ _ _ Hin Hkob) H3) in Hj. lia. }
        apply (Hm n kw (PSeq nm' i' ct' it' rg' gs' false) c3 c4 j); auto.
      * apply (Hm n kw (PChoice nm' i' ct' op' gs') c3 c4 j); auto.
  - apply (Hm n p (PChoice name id commit options gs) c c' d) in Hk; auto; lia.
Qed.

Theorem depth_le n root c' d : parseM n root (newContext input0 e0) = Ok (c', d) -> d <= 2 * List.length P * S (List.length input0) + 3.
Proof.
  intros Hk. apply parse_depth in Hk; [|apply cinv_new]. etransitivity; [exact Hk|].
  assert (free (newContext input0 e0) <= List.length P * S (List.length input0)); [|lia].
  unfold TermFacts.free. eapply Nat.le_trans.
  - assert (forall {A} (f : A -> bool) l, List.length (filter f l) <= List.length l) as Hf.
    { intros A f l. induction l; simpl; auto. destruct (f a); simpl; lia. }
    apply Hf.
  - unfold pairs. rewrite prod_length, seq_length, map_length. lia.
Qed.
End DEPTH.
