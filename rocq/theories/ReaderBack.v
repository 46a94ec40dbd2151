(** What was read before an invalid character does not depend on what follows: ErrFacts.v has that a run
    is the same with more input; here is the converse, a run that has not come to the invalid character
    is the same with a reader that ends in front of it. *)
From Verif Require Import Base Utf8 IdSet Results Parser Build ListFacts ResultsFacts ReaderFacts ParseFacts FuelFacts TermFacts BuildFacts Lang Sound RunFacts ErrFacts.
Local Open Scope nat_scope.

Section BACK.
Variable v : list rune.
Variable e' : rend.
Notation ext c := (extend c (runeError :: v) e').
Definition backTo (f : context -> res context) : Prop :=
  forall c c', f (ext c) = Ok c' -> stopped c' = false -> exists x, c' = ext x /\ f c = Ok x.
Definition onTo (f : context -> res context) : Prop :=
  forall c c', f c = Ok c' -> stopped c = true -> stopped c' = true.

Lemma read_back c c' ok : read (ext c) = (c', ok) -> stopped c' = false -> exists x, c' = ext x /\ read c = (x, ok).
Proof.
  unfold read. simpl. destruct (cEof c) eqn:Ee.
  - intros H; inversion H; subst. unfold stopped. simpl. rewrite Ee. destruct (cReadErr c); discriminate.
  - destruct (cReadErr c) eqn:Er.
    + intros H; inversion H; subst. unfold stopped. simpl. rewrite Er. discriminate.
    + destruct (cInput c) as [|t rest] eqn:Ei; cbn [app].
      * rewrite Z.eqb_refl. intros H; inversion H; subst. discriminate.
      * destruct (Z.eqb t runeError) eqn:Et; intros H; inversion H; subst; [discriminate|]. intros _. eexists. split; [|reflexivity]. reflexivity.
Qed.
Lemma token_back c c' tok : token (ext c) = Ok (c', tok) -> stopped c' = false -> exists x, c' = ext x /\ token c = Ok (x, tok).
Proof.
  unfold token. simpl. destruct (match cOffsetLimit c with Some l => _ | None => _ end).
  - intros H; inversion H; subst. eauto.
  - destruct (cOffset c =? cReadOffset c).
    + destruct (read (ext c)) as [c1 ok] eqn:Er. destruct ok.
      * destruct (nth_error (cTokens c1) (cOffset c1)) eqn:En; [|discriminate]. intros H Hs; inversion H; subst.
        destruct (read_back _ _ _ Er Hs) as (x & -> & Hr). rewrite Hr. exists x. split; auto. change (nth_error (cTokens x) (cOffset x) = Some r) in En. rewrite En. auto.
      * intros H Hs; inversion H; subst. destruct (read_back _ _ _ Er Hs) as (x & -> & Hr). rewrite Hr. eauto.
    + change (cTokens (ext c)) with (cTokens c). change (cOffset (ext c)) with (cOffset c). destruct (nth_error (cTokens c) (cOffset c)) eqn:En; [|intros H0; discriminate H0]. intros H Hs; inversion H; subst. exists c. auto.
Qed.
Lemma charParse_back cnot chars ranges : backTo (charParse cnot chars ranges).
Proof.
  intros c c' H Hs. unfold charParse in *. binv H. destruct x as [c1 tok].
  destruct (match tok with Some t => _ | None => _ end) eqn:Em.
  - inversion H; subst. destruct (token_back _ _ _ E Hs) as (x & -> & Ht). rewrite Ht. cbn [bind]. rewrite Em. exists (success x (S (cOffset x))). auto.
  - inversion H; subst. assert (Hs1 : stopped c1 = false) by (rewrite <- Hs; destruct (Z.ltb (cFailOffset c1) (Z.of_nat (cOffset c1))); reflexivity).
    destruct (token_back _ _ _ E Hs1) as (x & -> & Ht). rewrite Ht. cbn [bind]. rewrite Em. eexists. split; [|reflexivity].
    change (cFailOffset (ext x)) with (cFailOffset x). change (cOffset (ext x)) with (cOffset x). destruct (Z.ltb (cFailOffset x) (Z.of_nat (cOffset x))); reflexivity.
Qed.

Section REC.
Variable rec : addr -> context -> res context.
Hypothesis Hrec : forall p, backTo (rec p).
Hypothesis Hloc : forall p, localTo [] REof (rec p) (rec p).
Lemma rec_on p : onTo (rec p).
Proof. intros c c' H. apply (Hloc p c c' H). Qed.

Lemma keywordLoop_back kws : forall from to c c' b, keywordLoop rec kws from to (ext c) = Ok (c', b) -> stopped c' = false ->
  exists x, c' = ext x /\ keywordLoop rec kws from to c = Ok (x, b).
Proof.
  induction kws as [|kw kws IH]; intros from to c c' b H Hs; cbn [keywordLoop] in *.
  - inversion H; subst. eauto.
  - binv H. change (setOffset (ext c) from) with (ext (setOffset c from)) in E.
    assert (Hx : stopped x = false).
    { destruct (_ && _)%bool eqn:Eb in H; [inversion H; subst; auto|]. apply (keywordLoop_local [] REof rec Hloc) in H. destruct H as [H _]. eapply stopped_false; eauto. }
    destruct (Hrec _ _ _ E Hx) as (y & -> & Hy). rewrite Hy. cbn [bind]. change (cMatchLast (ext y)) with (cMatchLast y) in H. change (cOffset (ext y)) with (cOffset y) in H.
    destruct (_ && _)%bool; [inversion H; subst; eauto|]. apply IH; auto.
Qed.
Lemma isKeyword_back kws from to c c' b : isKeyword rec kws from to (ext c) = Ok (c', b) -> stopped c' = false ->
  exists x, c' = ext x /\ isKeyword rec kws from to c = Ok (x, b).
Proof.
  unfold isKeyword. intros H Hs. binv H. destruct x as [c1 b1]. inversion H; subst; clear H. change (setLimit (ext c) (Some to)) with (ext (setLimit c (Some to))) in E.
  destruct (keywordLoop_back _ _ _ _ _ _ E Hs) as (x & -> & Hx). rewrite Hx. cbn [bind fst snd]. exists (setLimit x (cOffsetLimit c)). auto.
Qed.
Lemma unmarkUnless_back ac from id : backTo (unmarkUnless ac from id).
Proof.
  intros c c' H _. unfold unmarkUnless, mapResults in *. destruct ac; [inversion H; subst; eauto|]. binv H. inversion H; subst. simpl in E. rewrite E. cbn [bind]. eexists. split; [|reflexivity]. reflexivity.
Qed.
Lemma unmarkUnless_on ac from id : onTo (unmarkUnless ac from id).
Proof. intros c c' H. apply (unmarkUnless_local [] REof ac from id c c' H). Qed.

Lemma seqLoop_back k p id ct items ranges ac from : forall to ii cnt c out,
  seqLoop rec k p id ct items ranges ac from to ii cnt (ext c) = Ok out -> stopped (outCtx out) = false ->
  exists o, out = extOut (runeError :: v) e' o /\ seqLoop rec k p id ct items ranges ac from to ii cnt c = Ok o.
Proof.
  induction k as [|k IH]; intros to ii cnt c out H Hs; [discriminate|].
  assert (Hon : forall to ii cnt c out, seqLoop rec k p id ct items ranges ac from to ii cnt c = Ok out -> stopped c = true -> stopped (outCtx out) = true).
  { intros. eapply (seqLoop_local [] REof rec Hloc); eauto. }
  cbn [seqLoop] in *. destruct (nth_error items ii) as [item|].
  2:{ inversion H; subst. exists (SLoop to c). auto. }
  binv H. destruct (nth_error ranges ii) as [[mn mx]|]; [|discriminate].
  assert (Hx : stopped x = false).
  { destruct (stopped x) eqn:Ex; auto. rewrite <- Hs. symmetry. destruct (cMatchLast x) eqn:Em; cbn [negb] in H.
    - destruct (negb (to <? cOffset x) || _)%bool in H; eapply Hon; eauto.
    - destruct (mn <=? Z.of_nat cnt)%Z; [eapply Hon; eauto|]. destruct (fromResults (setOffset x from) id) as [c1|] eqn:Ef.
      + binv H. inversion H; subst. cbn [outCtx]. eapply unmarkUnless_on; [exact E0|]. rewrite stopped_clearFail. unfold fromResults in Ef. destruct (longestResult _ _ _); inversion Ef; subst; exact Ex.
      + binv H. inversion H; subst. cbn [outCtx]. eapply unmarkUnless_on; [exact E0|]. transitivity (stopped (blame p ct (setOffset x from))); [reflexivity|]. rewrite stopped_blame. exact Ex. }
  destruct (Hrec _ _ _ E Hx) as (y & -> & Hy). rewrite Hy. cbn [bind].
  change (cMatchLast (ext y)) with (cMatchLast y) in H. change (cOffset (ext y)) with (cOffset y) in H.
  destruct (cMatchLast y); cbn [negb] in *.
  - destruct (negb (to <? cOffset y) || _)%bool; apply IH; auto.
  - destruct (mn <=? Z.of_nat cnt)%Z; [apply IH; auto|].
    pose proof (fromResults_local (runeError :: v) e' (setOffset y from) id) as Hf. change (setOffset (ext y) from) with (ext (setOffset y from)) in H.
    destruct (fromResults (setOffset y from) id) as [c1|].
    + destruct Hf as [Hf1 _]. rewrite Hf1 in H. binv H. inversion H; subst. rewrite ext_clearFail in E0. destruct (unmarkUnless_back _ _ _ _ _ E0 Hs) as (z & -> & Hz).
      rewrite Hz. cbn [bind]. exists (SReturn z). auto.
    + rewrite Hf in H. binv H. inversion H; subst. rewrite ext_blame in E0. change (fail (ext (blame p ct (setOffset y from))) from) with (ext (fail (blame p ct (setOffset y from)) from)) in E0.
      destruct (unmarkUnless_back _ _ _ _ _ E0 Hs) as (z & -> & Hz). rewrite Hz. cbn [bind]. exists (SReturn z). auto.
Qed.

Lemma seqParse_back k kws p id ct items ranges gs ac : backTo (seqParse rec k kws p id ct items ranges gs ac).
Proof.
  intros c c' H Hs. unfold seqParse in *.
  change (cResults (ext c)) with (cResults c) in H. change (cOffset (ext c)) with (cOffset c) in H.
  destruct (negb ac && _)%bool.
  { inversion H; subst. exists (fail c (cOffset c)). auto. }
  set (c0 := if ac then c else _) in *.
  replace (if ac then ext c else setResults (ext c) (markPending (cResults c) (cOffset c) id)) with (ext c0) in H
    by (unfold c0; destruct ac; auto).
  clearbody c0. binv H. destruct x as [to c1|c1].
  2:{ inversion H; subst. destruct (seqLoop_back _ _ _ _ _ _ _ _ _ _ _ _ _ E Hs) as ([?|z] & Ho & Hz); [discriminate|]. inversion Ho; subst. rewrite Hz. cbn [bind]. eauto. }
  binv H. destruct x as [c2 kw].
  assert (Hs2 : stopped c2 = false).
  { destruct (stopped c2) eqn:E2; auto. rewrite <- Hs. symmetry. destruct kw; eapply unmarkUnless_on; try exact H.
    - transitivity (stopped (blame p ct c2)); [reflexivity|]. rewrite stopped_blame. auto.
    - match goal with |- stopped (success (setResults ?a _) _) = true => transitivity (stopped a); [reflexivity|] end. rewrite stopped_clearFail. exact E2. }
  assert (Hs1 : stopped c1 = false).
  { destruct (hasFlag ct CNoKeyword); [|inversion E0; subst; auto]. destruct (isKeyword_local [] REof rec Hloc _ _ _ _ _ _ E0) as [K _]. eapply stopped_false; eauto. }
  destruct (seqLoop_back _ _ _ _ _ _ _ _ _ _ _ _ _ E Hs1) as ([to' y|?] & Ho & Hy); [|discriminate]. inversion Ho; subst to' c1. rewrite Hy. cbn [bind].
  assert (Hk : exists z, c2 = ext z /\ (if hasFlag ct CNoKeyword then isKeyword rec kws (cOffset c) to y else Ok (y, false)) = Ok (z, kw)).
  { destruct (hasFlag ct CNoKeyword); [apply isKeyword_back; auto|]. inversion E0; subst. eauto. }
  destruct Hk as (z & -> & Hz). rewrite Hz. cbn [bind]. destruct kw.
  - rewrite ext_blame in H. change (fail (ext (blame p ct z)) (cOffset c)) with (ext (fail (blame p ct z) (cOffset c))) in H. eapply unmarkUnless_back; eauto.
  - change (setResults (ext z) (setGeneralizations (cOffset c) to gs (cResults (ext z)))) with (ext (setResults z (setGeneralizations (cOffset c) to gs (cResults z)))) in H.
    rewrite ext_clearFail in H. set (c3 := clearFail _ _) in *.
    change (success (setResults (ext c3) (setMatch (cResults (ext c3)) (cOffset c) id to)) to) with (ext (success (setResults c3 (setMatch (cResults c3) (cOffset c) id to)) to)) in H.
    eapply unmarkUnless_back; eauto.
Qed.

Lemma choicePass_back id from options : forall s c s' c',
  choicePass rec id from options s (ext c) = Ok (s', c') -> stopped c' = false ->
  exists x, c' = ext x /\ choicePass rec id from options s c = Ok (s', x).
Proof.
  induction options as [|op options IH]; intros s c s' c' H Hs; cbn [choicePass] in *.
  - inversion H; subst. eauto.
  - binv H. set (s1 := if (negb (cMatchLast x) && _)%bool then _ else s) in *.
    assert (Hx : stopped x = false).
    { destruct (negb (cMatchLast x) || (chMatch s1 && (cOffset x <=? chTo s1)))%bool in H; apply (choicePass_local [] REof rec Hloc) in H; destruct H as [H _]; exact (stopped_false _ _ H Hs). }
    destruct (Hrec _ _ _ E Hx) as (y & -> & Hy). rewrite Hy. cbn [bind]. unfold s1 in *. clear s1.
    change (cMatchLast (ext y)) with (cMatchLast y) in H. change (cFailOffset (ext y)) with (cFailOffset y) in H. change (cFailingParser (ext y)) with (cFailingParser y) in H. change (cOffset (ext y)) with (cOffset y) in H.
    set (s1 := if (negb (cMatchLast y) && _)%bool then _ else s) in *.
    destruct (negb (cMatchLast y) || (chMatch s1 && (cOffset y <=? chTo s1)))%bool.
    + apply (IH _ (setOffset y from)); auto.
    + apply (IH _ (setResults (setOffset y from) (setMatch (cResults (setOffset y from)) from id (cOffset y)))); auto.
Qed.
Lemma choiceLoop_back id from options k : forall s c s' c',
  choiceLoop rec k id from options s (ext c) = Ok (s', c') -> stopped c' = false ->
  exists x, c' = ext x /\ choiceLoop rec k id from options s c = Ok (s', x).
Proof.
  induction k as [|k IH]; intros s c s' c' H Hs; [discriminate|]. cbn [choiceLoop] in *. binv H. destruct x as [s1 c1].
  assert (H1 : stopped c1 = false).
  { destruct (chFound s1); [|inversion H; subst; auto]. apply (choiceLoop_local [] REof rec Hloc) in H. destruct H as [H _]. eapply stopped_false; eauto. }
  destruct (choicePass_back _ _ _ _ _ _ _ E H1) as (y & -> & Hy). rewrite Hy. cbn [bind]. destruct (chFound s1); [apply IH; auto|]. inversion H; subst. eauto.
Qed.
Lemma mapResults_back f : backTo (mapResults f).
Proof. intros c c' H _. unfold mapResults in *. binv H. inversion H; subst. simpl in E. rewrite E. cbn [bind]. eexists. split; [|reflexivity]. reflexivity. Qed.
Lemma mapResults_stopped f c c' : mapResults f c = Ok c' -> stopped c' = stopped c.
Proof. unfold mapResults. intros H. binv H. inversion H; subst. reflexivity. Qed.

Lemma choiceParse_back k kws p id ct options : backTo (choiceParse rec k kws p id ct options).
Proof.
  intros c c' H Hs. unfold choiceParse in *.
  pose proof (fromResults_local (runeError :: v) e' c id) as Hf. destruct (fromResults c id) as [c1|].
  { destruct Hf as [Hf1 Hf2]. rewrite Hf1 in H. inversion H; subst. eauto. }
  rewrite Hf in H. change (cResults (ext c)) with (cResults c) in H. change (cOffset (ext c)) with (cOffset c) in H.
  destruct (pending _ _ _).
  { inversion H; subst. exists (fail c (cOffset c)). auto. }
  change (setResults (ext c) (markPending (cResults c) (cOffset c) id)) with (ext (setResults c (markPending (cResults c) (cOffset c) id))) in H.
  set (c0 := setResults c _) in *.
  change (cFailOffset (ext c0)) with (cFailOffset c0) in H. change (cOffset (ext c0)) with (cOffset c0) in H. change (cFailingParser (ext c0)) with (cFailingParser c0) in H.
  clearbody c0. binv H. destruct x as [s c1]. destruct (chMatch s) eqn:Em.
  - binv H. destruct x as [c2 kw].
    assert (Hs2 : stopped c2 = false).
    { rewrite <- Hs. destruct kw; rewrite (mapResults_stopped _ _ _ H); symmetry.
      - transitivity (stopped (blame p ct c2)); [reflexivity|]. apply stopped_blame.
      - destruct (_ <? _)%Z; [|destruct (_ <? _)%Z]; reflexivity. }
    assert (Hs1 : stopped c1 = false).
    { destruct (hasFlag ct CNoKeyword); [|inversion E0; subst; auto]. destruct (isKeyword_local [] REof rec Hloc _ _ _ _ _ _ E0) as [K _]. eapply stopped_false; eauto. }
    destruct (choiceLoop_back _ _ _ _ _ _ _ _ E Hs1) as (y & -> & Hy). rewrite Hy. cbn [bind]. rewrite Em.
    assert (Hk : exists z, c2 = ext z /\ (if hasFlag ct CNoKeyword then isKeyword rec kws (cOffset c0) (chTo s) y else Ok (y, false)) = Ok (z, kw)).
    { destruct (hasFlag ct CNoKeyword); [apply isKeyword_back; auto|]. inversion E0; subst. eauto. }
    destruct Hk as (z & -> & Hz). rewrite Hz. cbn [bind]. destruct kw.
    + rewrite ext_blame in H. change (fail (ext (blame p ct z)) (cOffset c0)) with (ext (fail (blame p ct z) (cOffset c0))) in H. eapply mapResults_back; eauto.
    + destruct (_ <? _)%Z; [|destruct (_ <? _)%Z].
      * change (success (setFail (ext z) (chFailOffset s) (chFailing s)) (chTo s)) with (ext (success (setFail z (chFailOffset s) (chFailing s)) (chTo s))) in H. eapply mapResults_back; eauto.
      * change (success (setFail (ext z) (-1)%Z None) (chTo s)) with (ext (success (setFail z (-1)%Z None) (chTo s))) in H. eapply mapResults_back; eauto.
      * change (success (setFail (ext z) (cFailOffset c0) (cFailingParser c0)) (chTo s)) with (ext (success (setFail z (cFailOffset c0) (cFailingParser c0)) (chTo s))) in H. eapply mapResults_back; eauto.
  - assert (Hs1 : stopped c1 = false).
    { rewrite <- Hs, (mapResults_stopped _ _ _ H). symmetry. destruct (_ <? _)%Z; [|reflexivity].
      transitivity (stopped (blame p ct (setFail c1 (chFailOffset s) (chFailing s)))); [reflexivity|]. rewrite stopped_blame. reflexivity. }
    destruct (choiceLoop_back _ _ _ _ _ _ _ _ E Hs1) as (y & -> & Hy). rewrite Hy. cbn [bind]. rewrite Em. destruct (_ <? _)%Z.
    + change (setFail (ext y) (chFailOffset s) (chFailing s)) with (ext (setFail y (chFailOffset s) (chFailing s))) in H. rewrite ext_blame in H.
      set (c3 := blame p ct _) in *.
      change (fail (setResults (ext c3) (setNoMatch (cResults (ext c3)) (cOffset c0) id)) (cOffset c0)) with (ext (fail (setResults c3 (setNoMatch (cResults c3) (cOffset c0) id)) (cOffset c0))) in H. eapply mapResults_back; eauto.
    + change (fail (setResults (ext y) (setNoMatch (cResults (ext y)) (cOffset c0) id)) (cOffset c0)) with (ext (fail (setResults y (setNoMatch (cResults y) (cOffset c0) id)) (cOffset c0))) in H. eapply mapResults_back; eauto.
Qed.
End REC.

Lemma parse_back P kws n : forall p, backTo (parse P kws n p).
Proof.
  induction n as [|n IH]; intros p; [intros c c' H; discriminate|].
  pose proof (parse_local [] REof P kws n) as Hl. cbn [parse]. destruct (nth_error P p) as [[]|].
  - apply charParse_back.
  - apply seqParse_back; auto.
  - apply choiceParse_back; auto.
  - intros c c' H. discriminate.
Qed.
End BACK.

(** a ParseError for an input with an invalid character is the one of every input with the same beginning *)
Theorem run_back P B kws root rootB fuel input v e k off line col def :
  parseInputPB P B kws root rootB fuel (input ++ runeError :: v) e = Ok (Failed (ErrParse off line col def)) ->
  parseInputPB P B kws root rootB fuel input (RFail k) = Ok (Failed (ErrParse off line col def)).
Proof.
  intros H. unfold parseInputPB in *. binv H. pose proof (parse_cinv _ _ _ _ _ _ _ E) as Hc.
  change (newContext (input ++ runeError :: v) e) with (extend (newContext input (RFail k)) (runeError :: v) e) in E.
  destruct (cReadErr x) eqn:Ere.
  { inversion H; subst. pose proof (ri_case _ _ _ (ci_r _ _ _ _ Hc)) as Hr. rewrite Ere in Hr. contradiction. }
  assert (Hst : stopped x = false).
  { unfold stopped. rewrite Ere. destruct (cEof x) eqn:Ee; auto. exfalso.
    pose proof (ri_case _ _ _ (ci_r _ _ _ _ Hc)) as Hr. rewrite Ere in Hr. destruct Hr as (Hin & _ & Hr).
    destruct (Hr Ee) as [Hi _]. rewrite Hi, app_nil_r in Hin. apply (ri_tokens _ _ _ (ci_r _ _ _ _ Hc)). rewrite <- Hin. apply in_or_app. right. left. reflexivity. }
  destruct (parse_back _ _ _ _ _ _ _ _ E Hst) as (y & -> & Hy). rewrite Hy. cbn [bind]. change (cReadErr (extend y (runeError :: v) e)) with (cReadErr y) in Ere. rewrite Ere.
  binv H. destruct x as [c1 [err|]].
  2:{ binv H. destruct x as [[[|] ok] c2]; discriminate. }
  inversion H; subst err; clear H.
  enough (Hf : exists c2, finalizeParse P y root = Ok (c2, Some (ErrParse off line col def))).
  { destruct Hf as [c2 Hf]. rewrite Hf. reflexivity. }
  unfold finalizeParse in *. change (cFailingParser (extend y (runeError :: v) e)) with (cFailingParser y) in E0.
  change (cResults (extend y (runeError :: v) e)) with (cResults y) in E0. change (cReadOffset (extend y (runeError :: v) e)) with (cReadOffset y) in E0.
  destruct (nth_error P root) as [ob|]; [|discriminate].
  set (fp := match cFailingParser y with Some p => p | None => root end) in *.
  rewrite parseError_ext in E0.
  destruct (longestResult _ _ _).
  - binv E0. inversion E0; subst. rewrite E1. cbn [bind]. eauto.
  - destruct (_ <? _).
    + binv E0. inversion E0; subst. rewrite E1. cbn [bind]. eauto.
    + destruct (read (extend y (runeError :: v) e)) as [c2 ok] eqn:Er.
      pose proof (cinv_read _ _ _ _ _ Hc Er) as Hc2.
      destruct (cEof c2) eqn:Ee2; [discriminate|]. destruct (cReadErr c2) eqn:Ere2.
      { inversion E0; subst. pose proof (ri_case _ _ _ (ci_r _ _ _ _ Hc2)) as Hr. rewrite Ere2 in Hr. contradiction. }
      assert (Hs2 : stopped c2 = false) by (unfold stopped; rewrite Ere2; auto).
      destruct (read_back _ _ _ _ _ Er Hs2) as (z & -> & Hz). rewrite Hz.
      change (cEof (extend z (runeError :: v) e)) with (cEof z) in Ee2. change (cReadErr (extend z (runeError :: v) e)) with (cReadErr z) in Ere2. rewrite Ee2, Ere2.
      rewrite parseError_ext in E0. binv E0. inversion E0; subst. rewrite E1. cbn [bind]. eauto.
  - binv E0. inversion E0; subst. rewrite E1. cbn [bind]. eauto.
Qed.
