(** No pair of the memo table is stored twice, so dropping a match removes it. *)
From Verif Require Import Base Utf8 IdSet Results Parser Build ListFacts ResultsFacts ReaderFacts ParseFacts
  FuelFacts TermFacts BuildFacts Lang Sound RunFacts NoPanic StoreFacts LeftFrame.

Section KEEP.
Variable P : pheap.
Variable kws : list addr.
(** a property of memo tables that the operations of the matching keep *)
Variable Q : results -> Prop.
Hypothesis Qset : forall r o i t, Q r -> Q (setMatch r o i t).
Hypothesis Qno : forall r o i, Q r -> Q (setNoMatch r o i).
Hypothesis Qsame : forall r r', rMatch r' = rMatch r -> rNoMatch r' = rNoMatch r -> Q r -> Q r'.

Lemma Q_unmark ac from id c c' : unmarkUnless ac from id c = Ok c' -> Q (cResults c) -> Q (cResults c').
Proof. intros H. destruct (unmark_same _ _ _ _ _ H). apply Qsame; auto. Qed.
Lemma Q_gens o t gs : forall r, Q r -> Q (setGeneralizations o t gs r).
Proof. unfold setGeneralizations. induction gs as [|g gs IH]; intros r H; simpl; auto. apply IH. destruct (pending r o g); auto. Qed.
Lemma char_same cnot chars ranges c c' : charParse cnot chars ranges c = Ok c' -> cResults c' = cResults c.
Proof.
  unfold charParse. intros H. binv H. destruct x as [c1 tok].
  assert (E1 : cResults c1 = cResults c).
  { unfold token in E. destruct (match cOffsetLimit c with Some l => cOffset c =? l | None => false end); [inversion E; auto|].
    destruct (if cOffset c =? cReadOffset c then read c else (c, true)) as [c2 ok] eqn:Er.
    assert (E2 : cResults c2 = cResults c).
    { destruct (cOffset c =? cReadOffset c); [|inversion Er; auto]. unfold read in Er. destruct (cEof c); [inversion Er; auto|].
      destruct (cReadErr c); [inversion Er; auto|]. destruct (cInput c) as [|z l]; [destruct (cEnd c); inversion Er; auto|].
      destruct (z =? runeError)%Z; inversion Er; auto. }
    destruct ok; [|inversion E; subst; auto]. destruct (nth_error (cTokens c2) (cOffset c2)); inversion E; subst; auto. }
  destruct (match tok with Some t => _ | None => _ end); inversion H; subst; simpl; auto.
  destruct (_ <? _)%Z; auto.
Qed.

Section REC.
Variable m : nat.
Notation rec := (parse P kws m).
Hypothesis Hrec : forall p c c', rec p c = Ok c' -> Q (cResults c) -> Q (cResults c').

Lemma keywordLoop_keeps from to : forall l c c' b, keywordLoop rec l from to c = Ok (c', b) -> Q (cResults c) -> Q (cResults c').
Proof.
  induction l as [|kw l IH]; intros c c' b E HQ; cbn [keywordLoop] in E; [inversion E; subst; auto|].
  binv E. apply Hrec in E0; auto. destruct (cMatchLast x && _)%bool; [inversion E; subst; auto|]. eapply IH; eauto.
Qed.
Lemma keyword_keeps from to c c' b : isKeyword rec kws from to c = Ok (c', b) -> Q (cResults c) -> Q (cResults c').
Proof.
  intros Hk HQ. unfold isKeyword in Hk. binv Hk. destruct x as [c1 b1]. inversion Hk; subst. simpl.
  eapply keywordLoop_keeps; eauto.
Qed.
Lemma seqLoop_keeps p id commit (items : list addr) ranges ac from k : forall to ii cnt c out,
  seqLoop rec k p id commit items ranges ac from to ii cnt c = Ok out -> Q (cResults c) -> Q (cResults (outCtx out)).
Proof.
  induction k as [|k IH]; intros to ii cnt c out Hk HQ; [discriminate|]. cbn [seqLoop] in Hk.
  destruct (nth_error items ii) as [item|]; [|inversion Hk; subst; auto].
  binv Hk. apply Hrec in E; auto. destruct (nth_error ranges ii) as [[mn mx]|]; [|discriminate].
  destruct (cMatchLast x); cbn [negb] in Hk.
  - destruct (negb (to <? cOffset x) || _)%bool; eapply IH; eauto.
  - destruct (Z.leb mn _); [eapply IH; eauto|].
    destruct (fromResults (setOffset x from) id) as [c1|] eqn:Ef.
    + binv Hk. inversion Hk; subst out. simpl. eapply Q_unmark; [exact E0|]. rewrite clearFail_same, (fromResults_same _ _ _ Ef). exact E.
    + binv Hk. inversion Hk; subst out. simpl. eapply Q_unmark; [exact E0|]. simpl. rewrite blame_same. exact E.
Qed.
Lemma choicePass_keeps id from : forall options s c s' c', choicePass rec id from options s c = Ok (s', c') -> Q (cResults c) -> Q (cResults c').
Proof.
  induction options as [|op options IH]; intros s c s' c' Hk HQ; cbn [choicePass] in Hk; [inversion Hk; subst; auto|].
  binv Hk. apply Hrec in E; auto.
  match type of Hk with context [if ?b then choicePass rec id from options ?s1 _ else _] => destruct b end; eapply IH; eauto.
  simpl. auto.
Qed.
Lemma choiceLoop_keeps id from options : forall k s c s' c', choiceLoop rec k id from options s c = Ok (s', c') -> Q (cResults c) -> Q (cResults c').
Proof.
  induction k as [|k IH]; intros s c s' c' Hk HQ; [discriminate|]. cbn [choiceLoop] in Hk. binv Hk. destruct x as [s1 c1].
  apply choicePass_keeps in E; auto. destruct (chFound s1); [eapply IH; eauto|inversion Hk; subst; auto].
Qed.
End REC.

Theorem parse_keeps n : forall p c c', parse P kws n p c = Ok c' -> Q (cResults c) -> Q (cResults c').
Proof.
  induction n as [|n IH]; intros p c c' Hk HQ; [discriminate|]. cbn [parse] in Hk.
  destruct (nth_error P p) as [[nm i cnot chars ranges|nm i cm its rg gs ac|nm i cm ops gs]|]; [| | |discriminate].
  - rewrite (char_same _ _ _ _ _ Hk). auto.
  - unfold seqParse in Hk. destruct (negb ac && pending _ _ i)%bool; [inversion Hk; subst; auto|].
    binv Hk. apply (seqLoop_keeps n IH) in E.
    2:{ destruct ac; auto. simpl. destruct (mark_match (cResults c) (cOffset c) i). eapply Qsame; eauto. }
    destruct x as [to c1|c1]; simpl in E; [|inversion Hk; subst; auto].
    binv Hk. destruct x as [c2 b].
    assert (E2 : Q (cResults c2)).
    { destruct (hasFlag cm CNoKeyword); [eapply keyword_keeps; eauto|inversion E0; subst; auto]. }
    destruct b.
    + eapply Q_unmark; [exact Hk|]. simpl. rewrite blame_same. exact E2.
    + eapply Q_unmark; [exact Hk|]. simpl. rewrite clearFail_same. simpl. apply Qset. apply Q_gens. auto.
  - unfold choiceParse in Hk. destruct (fromResults c i) as [c1|] eqn:Ef.
    { inversion Hk; subst. rewrite (fromResults_same _ _ _ Ef). auto. }
    destruct (pending _ _ i); [inversion Hk; subst; auto|].
    binv Hk. destruct x as [s1 c1]. apply (choiceLoop_keeps n IH) in E.
    2:{ simpl. destruct (mark_match (cResults c) (cOffset c) i). eapply Qsame; eauto. }
    assert (Hun : forall o q q', mapResults (fun r => unmarkPending r o i) q = Ok q' -> Q (cResults q) -> Q (cResults q')).
    { intros o q q' Hq. apply (Q_unmark false o i). exact Hq. }
    destruct (chMatch s1).
    + binv Hk. destruct x as [c2 b].
      assert (E2 : Q (cResults c2)).
      { destruct (hasFlag cm CNoKeyword); [eapply keyword_keeps; eauto|inversion E0; subst; auto]. }
      destruct b; [eapply Hun; [exact Hk|]; simpl; rewrite blame_same; exact E2|].
      eapply Hun; [exact Hk|]. simpl. destruct (_ <? _)%Z; [exact E2|]. destruct (_ <? _)%Z; exact E2.
    + eapply Hun; [exact Hk|]. simpl.
      match goal with |- Q (setNoMatch ?r _ _) => assert (Er : r = cResults c1) end.
      { destruct (_ <? _)%Z; auto. rewrite blame_same. auto. }
      rewrite Er. auto.
Qed.
End KEEP.

Lemma once_setMatch r o id t : once r -> once (setMatch r o id t).
Proof.
  intros Ho o' id' t'. destruct (Nat.eq_dec o o') as [<-|].
  - rewrite matchRow_setMatch_same. destruct (existsb _ _) eqn:E; [apply Ho|]. rewrite entCount_app.
    unfold entCount at 2; simpl. destruct (entryIs id' t' (Some id, t)) eqn:E'; simpl; [|specialize (Ho o id' t'); lia].
    apply entryIs_true in E'. inversion E'; subst id' t'.
    destruct (entCount id t (matchRow r o)) eqn:E2; [lia|]. exfalso.
    assert (existsb (entryIs id t) (matchRow r o) = true); [|congruence]. apply existsb_entryIs, entCount_in. lia.
  - rewrite matchRow_setMatch_other by auto. apply Ho.
Qed.
Lemma parse_once P kws n p c c' : parse P kws n p c = Ok c' -> once (cResults c) -> once (cResults c').
Proof.
  apply (parse_keeps P kws once).
  - intros. apply once_setMatch; auto.
  - intros r o i H o' i' t. rewrite matchRow_setNoMatch. apply H.
  - intros r r' H1 _ H o' i' t. unfold matchRow. rewrite H1. apply H.
Qed.
Lemma once_drop r o id t r' : dropMatchTo r o id t = Ok r' -> once r -> once r' /\
  forall o' i v, stored r' o' i v <-> stored r o' i v /\ ~ (o' = o /\ i = id /\ v = t).
Proof.
  intros E Ho. destruct (matchRow_drop _ _ _ _ _ E) as (_ & _ & H1 & H2 & _). 
  assert (Hrow : forall o', matchRow r' o' = if o =? o' then dropIn id t (matchRow r o') else matchRow r o').
  { intros o'. destruct (Nat.eqb_spec o o') as [<-|]; auto. }
  split.
  - intros o' id' t'. rewrite Hrow. destruct (o =? o'); [|apply Ho]. rewrite entCount_drop. specialize (Ho o' id' t'). lia.
  - intros o' i v. split.
    + intros Hs. split; [eapply stored_drop; eauto|]. intros (-> & -> & ->). unfold stored in Hs. rewrite entCount_in, H1, entCount_drop, !Nat.eqb_refl in Hs.
      simpl in Hs. specialize (Ho o id t). lia.
    + intros [Hs Hne]. eapply stored_drop_keep; eauto.
Qed.
Lemma once_enter c id gs t c' : enterBuild c id gs t = Ok (Some c') -> cOffset c < t -> once (cResults c) ->
  once (cResults c') /\ forall o i v, stored (cResults c') o i v <-> stored (cResults c) o i v /\ ~ (o = cOffset c /\ In i (id :: gs) /\ v = t).
Proof.
  unfold enterBuild. intros H Hlt. apply Nat.ltb_lt in Hlt. rewrite Hlt in H. binv H. inversion H; subst; clear H. simpl (cResults (setResults c x)).
  revert E. generalize (id :: gs) as l. intros l. generalize (cResults c). induction l as [|g l IH]; intros r E Ho; cbn [forIds] in E.
  - inversion E; subst. split; auto. intros. simpl. tauto.
  - binv E. destruct (once_drop _ _ _ _ _ E0 Ho) as [O1 O2]. destruct (IH _ E O1) as [O3 O4]. split; auto.
    intros o i v. rewrite O4, O2. simpl. split; [intros [[A B] C]; split; auto; intros (X & [<-|Y] & Z); auto|].
    intros [A B]. split; [split; auto; intros (X & -> & Z); apply B; auto|]. intros (X & Y & Z). apply B. auto.
Qed.
