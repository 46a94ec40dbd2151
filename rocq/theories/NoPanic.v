(** Matching never panics on a well-formed graph and valid input. *)
From Verif Require Import Base Utf8 IdSet Results Parser Build ListFacts ResultsFacts ReaderFacts ParseFacts
  FuelFacts TermFacts BuildFacts Lang Sound RunFacts.

Definition np {A} (r : res A) : Prop := forall w, r <> Panic w.
Lemma np_ok {A} (x : A) : np (Ok x).
Proof. intros w. discriminate. Qed.
Lemma np_noFuel {A} : np (@NoFuel A).
Proof. intros w. discriminate. Qed.
Lemma np_bind {A B} (m : res A) (f : A -> res B) : np m -> (forall x, m = Ok x -> np (f x)) -> np (bind m f).
Proof. intros Hm Hf. destruct m; simpl; auto using np_noFuel. exfalso. eapply Hm; eauto. Qed.
Global Hint Resolve np_ok np_noFuel : core.

(** all addresses are those of objects, and every item has its range *)
Definition wfHeap (P : pheap) (kws : list addr) : Prop :=
  (forall a name id commit items ranges gs ac, nth_error P a = Some (PSeq name id commit items ranges gs ac) ->
     (forall x, In x items -> x < List.length P) /\ List.length items <= List.length ranges) /\
  (forall a name id commit options gs, nth_error P a = Some (PChoice name id commit options gs) ->
     forall x, In x options -> x < List.length P) /\
  (forall kw, In kw kws -> kw < List.length P).

Section NOPANIC.
Variable P : pheap.
Variable kws : list addr.
Variable input0 : list rune.
Variable e0 : rend.
Hypothesis Hwf : wfHeap P kws.
Hypothesis Hvalid : ~ In runeError input0.
Notation cinv := (cinv input0 e0 GT).
Notation post := (post P input0 e0 GT).

Lemma post_of n p c c' : cinv c -> parse P kws n p c = Ok c' -> post p c c'.
Proof.
  intros H Hk. eapply parse_spec in Hk; eauto; [apply Hk| |].
  - intros. split; [exact I|]. intros; exact I.
  - intros. exact I.
Qed.

Lemma char_np cnot chars ranges c : cinv c -> np (charParse cnot chars ranges c).
Proof.
  intros H. unfold charParse. apply np_bind.
  - destruct (token_ok input0 e0 c (ci_r _ _ _ _ H) Hvalid (ci_off _ _ _ _ H)) as (c' & tok & E). rewrite E. auto.
  - intros [c1 tok] _. destruct (match tok with Some _ => _ | None => _ end); auto.
Qed.

Lemma unmark_np ac from id c : (ac = false -> 0 < pcount (cResults c) from id) -> np (unmarkUnless ac from id c).
Proof.
  intros H. unfold unmarkUnless, mapResults. destruct ac; auto. destruct (unmark_ok _ _ _ (H eq_refl)) as [r E].
  rewrite E. cbn [bind]. auto.
Qed.

Section REC.
Variable n : nat.
Notation rec := (parse P kws n).
Hypothesis Hrec : forall p c, p < List.length P -> cinv c -> np (rec p c).

Lemma keywordLoop_np l : forall from to c, (forall kw, In kw l -> kw < List.length P) ->
  cinv c -> from <= List.length (cTokens c) -> np (keywordLoop rec l from to c).
Proof.
  induction l as [|kw l IH]; intros from to c Hl H Hf; cbn [keywordLoop]; auto.
  assert (H0 : cinv (setOffset c from)) by (apply cinv_offset; auto).
  apply np_bind; [apply Hrec; auto; apply Hl; left; auto|].
  intros x Hx. apply post_of in Hx; auto. destruct Hx as (Q1 & Q2 & _).
  destruct (_ && _)%bool; auto. apply IH; auto.
  - intros; apply Hl; right; auto.
  - apply step_len in Q2. simpl in Q2. lia.
Qed.
Lemma isKeyword_np from to c : cinv c -> from <= List.length (cTokens c) -> np (isKeyword rec kws from to c).
Proof.
  intros H Hf. unfold isKeyword. apply np_bind; auto. apply keywordLoop_np; auto; [apply Hwf|].
  apply cinv_limit; auto.
Qed.

Lemma seqLoop_np p id commit (items : list addr) ranges ac from k : forall to ii cnt c,
  (forall a, In a items -> a < List.length P) -> List.length items <= List.length ranges ->
  cinv c -> (ac = false -> 0 < pcount (cResults c) from id) ->
  np (seqLoop rec k p id commit items ranges ac from to ii cnt c).
Proof.
  induction k as [|k IH]; intros to ii cnt c Hi Hr H Hp; cbn [seqLoop]; auto.
  destruct (nth_error items ii) as [item|] eqn:Ei; auto.
  assert (Hii : ii < List.length items) by (apply nth_error_Some; congruence).
  apply np_bind; [apply Hrec; auto; apply Hi; eapply nth_error_In; eauto|].
  intros x Hx. apply post_of in Hx; auto. destruct Hx as (Q1 & Q2 & Q3 & Q4).
  destruct (nth_error ranges ii) as [[mn mx]|] eqn:Er.
  2:{ apply nth_error_None in Er. lia. }
  assert (Hpx : ac = false -> 0 < pcount (cResults x) from id) by (intros Hac; rewrite Q3; auto).
  destruct (cMatchLast x); cbn [negb].
  - destruct (_ || _)%bool; apply IH; auto.
  - destruct (_ <=? _)%Z; [apply IH; auto|].
    destruct (fromResults _ _) as [c1|] eqn:Ef; (apply np_bind; [|auto]); apply unmark_np; intros Hac.
    + assert (cResults (clearFail to c1) = cResults x) as ->; auto.
      assert (cResults c1 = cResults x).
      { unfold fromResults in Ef. simpl in Ef. destruct (longestResult _ _ _); inversion Ef; auto. }
      unfold clearFail. destruct (_ <? _)%Z; auto.
    + simpl. assert (cResults (blame p commit (setOffset x from)) = cResults x) as ->; auto.
      unfold blame. destruct (cFailingParser _); auto. destruct (_ && _)%bool; auto.
Qed.

Lemma choicePass_np id from (options : list addr) : forall s c,
  (forall a, In a options -> a < List.length P) ->
  cinv c -> cOffset c = from -> np (choicePass rec id from options s c).
Proof.
  induction options as [|op options IH]; intros s c Ho H Hf; cbn [choicePass]; auto.
  apply np_bind; [apply Hrec; auto; apply Ho; left; auto|].
  intros x Hx. apply post_of in Hx; auto. destruct Hx as (Q1 & Q2 & Q3 & Q4).
  pose proof (step_len _ _ Q2) as Hlen. pose proof (ci_off _ _ _ _ H) as Hoff.
  assert (Ho' : forall a, In a options -> a < List.length P) by (intros; apply Ho; right; auto).
  assert (H1 : cinv (setOffset x from)) by (apply cinv_offset; auto; lia).
  destruct (negb (cMatchLast x)) eqn:Em; cbn [orb].
  - apply IH; auto.
  - apply negb_false_iff in Em. rewrite Em in Q4. pose proof (ci_off _ _ _ _ Q1).
    destruct (_ && _)%bool; apply IH; auto.
    apply cinv_results; auto. intros o i t Hs. split; [|exact I].
    apply stored_setMatch in Hs. simpl. destruct Hs as [Hs|(-> & -> & ->)]; [destruct Q1; eauto|]. simpl. lia.
Qed.
Lemma choiceLoop_np p name id commit options gs from k :
  nth_error P p = Some (PChoice name id commit options gs) -> forall s c,
  (forall a, In a options -> a < List.length P) ->
  cinv c -> cOffset c = from -> chGood id from s c -> np (choiceLoop rec k id from options s c).
Proof.
  intros Hp. induction k as [|k IH]; intros s c Ho H Hf Hg; cbn [choiceLoop]; auto.
  apply np_bind; [apply choicePass_np; auto|]. intros [s1 c1] Hx.
  apply (choicePass_spec P input0 e0 GT (fun _ _ _ _ _ _ _ _ _ _ _ _ => I) _ (post_of n) p name id commit options gs from Hp) in Hx;
    auto using incl_refl.
  destruct Hx as (Q1 & Q2 & Q3 & Q4 & Q5). destruct (chFound s1); auto.
Qed.
End REC.

Lemma parse_np n : forall p c, p < List.length P -> cinv c -> np (parse P kws n p c).
Proof.
  induction n as [|n IH]; intros p c Hp H; cbn [parse]; [auto|].
  destruct (nth_error P p) as [ob|] eqn:Hob.
  2:{ apply nth_error_None in Hob. lia. }
  destruct ob as [nm id cn ch rs|nm id ct items ranges gs ac|nm id ct options gs].
  - now apply char_np.
  - destruct Hwf as (W1 & W2 & W3). destruct (W1 _ _ _ _ _ _ _ _ Hob) as [W4 W5].
    unfold seqParse. destruct (negb ac && _)%bool; auto.
    set (c0 := if ac then c else _).
    assert (H0 : cinv c0) by (unfold c0; destruct ac; auto; now apply cinv_mark).
    assert (Hp0 : ac = false -> 0 < pcount (cResults c0) (cOffset c) id).
    { intros ->. unfold c0. simpl. rewrite pcount_mark, !Nat.eqb_refl. simpl. lia. }
    assert (Ho0 : cOffset c0 = cOffset c) by (unfold c0; destruct ac; auto). clearbody c0.
    apply np_bind; [apply seqLoop_np; auto|].
    intros [to c1|c1] Hl; auto.
    eapply (seqLoop_spec P input0 e0 GT) in Hl; eauto using post_of.
    destruct Hl as (Q1 & Q2 & Q3 & Q4 & Q5 & Q6).
    apply np_bind.
    { destruct (hasFlag ct CNoKeyword); auto. apply isKeyword_np; auto. pose proof (ci_off _ _ _ _ Q1). lia. }
    intros [c2 kw] Hkw.
    assert (Hc2 : samePending c1 c2).
    { destruct (hasFlag ct CNoKeyword); [|inversion Hkw; subst; intros ? ?; auto].
      eapply (isKeyword_spec P kws input0 e0 GT) in Hkw; eauto using post_of; try apply Hkw.
      + intros; eapply parse_literal; eauto.
      + pose proof (ci_off _ _ _ _ Q1). lia. }
    assert (Hp2 : ac = false -> 0 < pcount (cResults c2) (cOffset c) id).
    { intros Hac. rewrite Hc2, Q3. auto. }
    destruct kw; apply unmark_np; intros Hac; simpl.
    + assert (cResults (blame p ct c2) = cResults c2) as ->; auto.
      unfold blame. destruct (cFailingParser _); auto. destruct (_ && _)%bool; auto.
    + rewrite pcount_setMatch.
      assert (forall c, cResults (clearFail to c) = cResults c) as -> by (intros; unfold clearFail; destruct (_ <? _)%Z; auto).
      simpl. rewrite setGens_pcount. auto.
  - destruct Hwf as (W1 & W2 & W3). pose proof (W2 _ _ _ _ _ _ Hob) as W4.
    unfold choiceParse. destruct (fromResults c id); auto. destruct (pending _ _ _); auto.
    set (c0 := setResults c _).
    assert (H0 : cinv c0) by (now apply cinv_mark).
    assert (Hp0 : 0 < pcount (cResults c0) (cOffset c) id).
    { unfold c0. simpl. rewrite pcount_mark, !Nat.eqb_refl. simpl. lia. }
    assert (Hg : chGood id (cOffset c) (mkChState false false (cOffset c) (cFailOffset c0) None) c0).
    { unfold chGood. simpl. split; auto. destruct H0. split; auto. split; [discriminate|auto]. }
    assert (Ho0 : cOffset c0 = cOffset c) by auto. clearbody c0. rewrite Ho0.
    apply np_bind; [eapply choiceLoop_np; eauto|].
    intros [s c1] Hl.
    apply (choiceLoop_spec P input0 e0 GT (fun _ _ _ _ _ _ _ _ _ _ _ _ => I) _ (post_of n) p nm id ct options gs (cOffset c) Hob) in Hl;
      auto.
    destruct Hl as (Q1 & Q2 & Q3 & Q4 & Q5).
    assert (HU : forall c, 0 < pcount (cResults c) (cOffset c0) id -> np (mapResults (fun r => unmarkPending r (cOffset c0) id) c)).
    { intros c2 Hc2. apply (unmark_np false (cOffset c0) id c2). auto. }
    rewrite Ho0 in HU.
    destruct (chMatch s).
    + apply np_bind.
      { destruct (hasFlag ct CNoKeyword); auto. apply isKeyword_np; auto. pose proof (ci_off _ _ _ _ Q1). lia. }
      intros [c2 kw] Hkw.
      assert (Hc2 : samePending c1 c2).
      { destruct (hasFlag ct CNoKeyword); [|inversion Hkw; subst; intros ? ?; auto].
        eapply (isKeyword_spec P kws input0 e0 GT) in Hkw; eauto using post_of; try apply Hkw.
        + intros; eapply parse_literal; eauto.
        + destruct Q5; auto.
        + destruct Q5 as (_ & Q5 & _). auto. }
      assert (Hp2 : 0 < pcount (cResults c2) (cOffset c) id) by (rewrite Hc2, Q3; auto).
      destruct kw; apply HU; simpl.
      * assert (cResults (blame p ct c2) = cResults c2) as ->; auto.
        unfold blame. destruct (cFailingParser _); auto. destruct (_ && _)%bool; auto.
      * destruct (_ <? _)%Z; [|destruct (_ <? _)%Z]; auto.
    + apply HU. simpl. rewrite pcount_setNoMatch.
      assert (Hp2 : 0 < pcount (cResults c1) (cOffset c) id) by (rewrite Q3; auto).
      destruct (_ <? _)%Z; auto. unfold blame. simpl. destruct (chFailing s); auto. destruct (_ && _)%bool; auto.
Qed.

Theorem parse_noPanic n root : root < List.length P -> np (parse P kws n root (newContext input0 e0)).
Proof. intros H. apply parse_np; auto. apply cinv_new. Qed.
End NOPANIC.
