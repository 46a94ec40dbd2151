(** What the match of a definition cannot change: the memo table entries of definitions it does not
    refer to. *)
From Verif Require Import Base Utf8 IdSet Results Parser Build ListFacts ResultsFacts ReaderFacts ParseFacts
  FuelFacts TermFacts Lang Sound RunFacts NoPanic.

Section FRAME.
Variable P : pheap.
Variable kws : list addr.
Variable input : list rune.
(** a set of definitions that contains everything its members refer to, and the keywords *)
Variable D : addr -> Prop.
Hypothesis Ditems : forall a name id commit items ranges gs ac, D a -> nth_error P a = Some (PSeq name id commit items ranges gs ac) ->
  forall x : addr, In x items -> D x.
Hypothesis Doptions : forall a name id commit options gs, D a -> nth_error P a = Some (PChoice name id commit options gs) ->
  forall x : addr, In x options -> D x.
Hypothesis Dkws : forall a, In a kws -> D a.

Notation cinv := (cinv input REof GT).

Definition idD (i : nat) : Prop := exists x ox, D x /\ nth_error P x = Some ox /\ nonChar ox /\ nodeID ox = i.
(** a new match, at or above [lo], is one of a member, or one that a member passes on to a choice above it *)
Record frame (lo : nat) (r r' : results) : Prop := mkFrame {
  fr_stored : forall o i v, stored r' o i v -> stored r o i v \/
    (lo <= o /\ (idD i \/ exists x ox, D x /\ nth_error P x = Some ox /\ nonChar ox /\ In i (gensOf ox) /\ stored r' o (nodeID ox) v));
  fr_none : forall o i, noMatchHas r' o i = true -> noMatchHas r o i = true \/ idD i;
  fr_more : forall o i v, stored r o i v -> stored r' o i v }.

Lemma frame_refl lo r : frame lo r r.
Proof. split; auto. Qed.
Lemma frame_trans lo a b c : frame lo a b -> frame lo b c -> frame lo a c.
Proof.
  intros [A1 A2 A3] [B1 B2 B3]. split; auto.
  - intros o i v H. destruct (B1 _ _ _ H) as [H1|H1]; auto. destruct (A1 _ _ _ H1) as [|(L & [Hi|(x & ox & X1 & X2 & X3 & X4 & X5)])]; auto.
    right. split; auto. right. exists x, ox. auto 6.
  - intros o i H. destruct (B2 _ _ H) as [H1|]; auto.
Qed.
Lemma frame_low lo lo' a b : lo' <= lo -> frame lo a b -> frame lo' a b.
Proof. intros L [A1 A2 A3]. split; auto. intros o i v H. destruct (A1 _ _ _ H) as [|[]]; auto. right. split; auto. lia. Qed.
Lemma frame_same lo r r' : rMatch r' = rMatch r -> rNoMatch r' = rNoMatch r -> frame lo r r'.
Proof.
  intros H1 H2. split.
  - intros o i v H. left. apply (stored_ext _ _ H1). auto.
  - intros o i H. left. rewrite <- (noMatchHas_ext _ _ H2). auto.
  - intros o i v H. apply (stored_ext _ _ H1). auto.
Qed.
Lemma unmark_same ac from id c c' : unmarkUnless ac from id c = Ok c' ->
  rMatch (cResults c') = rMatch (cResults c) /\ rNoMatch (cResults c') = rNoMatch (cResults c).
Proof.
  unfold unmarkUnless, mapResults. destruct ac; intros H; [inversion H; auto|]. binv H. inversion H; subst. simpl. eapply unmark_match; eauto.
Qed.
Lemma frame_unmark lo ac from id c c' r : unmarkUnless ac from id c = Ok c' -> frame lo r (cResults c) -> frame lo r (cResults c').
Proof. intros H F. destruct (unmark_same _ _ _ _ _ H) as [H1 H2]. eapply frame_trans; [exact F|]. apply frame_same; auto. Qed.
Lemma fromResults_same c id c' : fromResults c id = Some c' -> cResults c' = cResults c.
Proof. unfold fromResults. destruct (longestResult _ _ _); intros H; inversion H; auto. Qed.
Lemma clearFail_same to c : cResults (clearFail to c) = cResults c.
Proof. destruct (sameTR_clearFail to c) as (_ & -> & _). auto. Qed.
Lemma blame_same p commit c : cResults (blame p commit c) = cResults c.
Proof. destruct (sameTR_blame p commit c) as (_ & -> & _). auto. Qed.
Lemma frame_setMatch lo r o id v : lo <= o -> idD id -> frame lo r (setMatch r o id v).
Proof.
  intros L Hi. split.
  - intros o' i v' H. apply stored_setMatch in H. destruct H as [H|(-> & -> & ->)]; auto.
  - intros o' i H. rewrite (noMatchHas_ext _ _ (noMatch_setMatch _ _ _ _)) in H. auto.
  - intros o' i v' H. apply stored_setMatch. auto.
Qed.
Lemma frame_setNoMatch lo r o id : idD id -> frame lo r (setNoMatch r o id).
Proof.
  intros Hi. split.
  - intros o' i v H. apply stored_setNoMatch in H. auto.
  - intros o' i H. rewrite noMatchHas_setNoMatch in H. destruct H as [H|(-> & -> & _)]; auto.
  - intros o' i v H. apply stored_setNoMatch. auto.
Qed.

Section REC.
Variable m : nat.
Notation rec := (parse P kws m).
Hypothesis Hrec : forall p c c', D p -> cinv c -> rec p c = Ok c' -> frame (cOffset c) (cResults c) (cResults c').

Lemma keywordLoop_frame l : (forall k, In k l -> D k) -> forall from to c c' b, cinv c -> from <= List.length (cTokens c) ->
  keywordLoop rec l from to c = Ok (c', b) -> frame from (cResults c) (cResults c').
Proof.
  induction l as [|kw l IH]; intros Hl from to c c' b H Hf Hk; cbn [keywordLoop] in Hk; [inversion Hk; subst; apply frame_refl|].
  binv Hk. assert (H0 : cinv (setOffset c from)) by (apply cinv_offset; auto).
  pose proof (Hrec kw _ _ (Hl kw (or_introl eq_refl)) H0 E) as F. simpl in F.
  pose proof (post_of P kws input REof _ _ _ _ H0 E) as (P1 & P2 & _). apply step_len in P2. simpl in P2.
  destruct (cMatchLast x && (cOffset x =? to))%bool; [inversion Hk; subst; auto|].
  eapply frame_trans; [exact F|]. eapply IH; eauto; [intros; apply Hl; right; auto|lia].
Qed.
Lemma isKeyword_frame from to c c' b : cinv c -> from <= List.length (cTokens c) ->
  isKeyword rec kws from to c = Ok (c', b) -> frame from (cResults c) (cResults c').
Proof.
  intros H Hf Hk. unfold isKeyword in Hk. binv Hk. destruct x as [c1 b1]. inversion Hk; subst. simpl.
  apply (keywordLoop_frame kws Dkws _ _ _ _ _ (cinv_limit input REof GT _ _ H) Hf E).
Qed.

Definition outCtx (out : seqOut) : context := match out with SLoop _ c => c | SReturn c => c end.
Lemma seqLoop_frame p id commit (items : list addr) ranges ac from k : forall lo to ii cnt c out,
  cinv c -> cOffset c = to -> lo <= to -> (forall i x, ii <= i -> nth_error items i = Some x -> D x) ->
  seqLoop rec k p id commit items ranges ac from to ii cnt c = Ok out -> frame lo (cResults c) (cResults (outCtx out)).
Proof.
  induction k as [|k IH]; intros lo to ii cnt c out H Ho Hlo HD Hk; [discriminate|]. cbn [seqLoop] in Hk.
  destruct (nth_error items ii) as [item|] eqn:Ei; [|inversion Hk; subst; apply frame_refl].
  binv Hk. pose proof (Hrec item c x (HD _ _ (Nat.le_refl _) Ei) H E) as F. rewrite Ho in F. apply (frame_low _ lo) in F; auto.
  pose proof (post_of P kws input REof _ _ _ _ H E) as (P1 & P2 & _ & P4). rewrite Ho in P4.
  destruct (nth_error ranges ii) as [[mn mx]|]; [|discriminate].
  destruct (cMatchLast x) eqn:Em; cbn [negb] in Hk.
  - destruct P4 as [P4 _].
    destruct (negb (to <? cOffset x) || _)%bool; (eapply frame_trans; [exact F|]; eapply IH; [| | | |exact Hk]; auto; try lia; intros i y Hi; apply HD; lia).
  - destruct (Z.leb mn _).
    + eapply frame_trans; [exact F|]. eapply IH; [| | | |exact Hk]; auto. intros i y Hi; apply HD; lia.
    + destruct (fromResults (setOffset x from) id) as [c1|] eqn:Ef.
      * binv Hk. inversion Hk; subst out. simpl. eapply frame_unmark; [exact E0|].
        rewrite clearFail_same, (fromResults_same _ _ _ Ef). exact F.
      * binv Hk. inversion Hk; subst out. simpl. eapply frame_unmark; [exact E0|]. simpl. rewrite blame_same. exact F.
Qed.

Lemma choicePass_frame id from : idD id -> forall options s c s' c', (forall x, In x options -> D x) -> cinv c -> cOffset c = from ->
  choicePass rec id from options s c = Ok (s', c') -> frame from (cResults c) (cResults c') /\ cinv c' /\ cOffset c' = from.
Proof.
  intros Hid. induction options as [|op options IH]; intros s c s' c' HD H Ho Hk; cbn [choicePass] in Hk; [inversion Hk; subst; split; auto using frame_refl|].
  binv Hk. pose proof (Hrec op c x (HD _ (or_introl eq_refl)) H E) as F. rewrite Ho in F.
  pose proof (post_of P kws input REof _ _ _ _ H E) as (P1 & P2 & _ & P4). rewrite Ho in P4.
  pose proof (step_len _ _ P2) as Hlen. pose proof (ci_off _ _ _ _ H) as Hoff.
  match type of Hk with context [if ?b then choicePass rec id from options ?s1 _ else _] => destruct b eqn:Eb end.
  - assert (H1 : cinv (setOffset x from)) by (apply cinv_offset; auto; lia).
    apply IH in Hk; auto; [|intros; apply HD; right; auto]. destruct Hk as [K1 K2]. split; auto. eapply frame_trans; [exact F|exact K1].
  - apply orb_false_iff in Eb. destruct Eb as [Eb _]. apply negb_false_iff in Eb. rewrite Eb in P4. destruct P4 as [P4 _].
    assert (H1 : cinv (setResults (setOffset x from) (setMatch (cResults (setOffset x from)) from id (cOffset x)))).
    { apply cinv_setMatch; try exact I; simpl; [lia| |apply cinv_offset; auto; lia]. apply P1. }
    apply IH in Hk; auto; [|intros; apply HD; right; auto]. destruct Hk as [K1 K2]. split; auto.
    eapply frame_trans; [exact F|]. eapply frame_trans; [|exact K1]. simpl. apply frame_setMatch; auto.
Qed.
Lemma choiceLoop_frame id from options : idD id -> (forall x, In x options -> D x) -> forall k s c s' c', cinv c -> cOffset c = from ->
  choiceLoop rec k id from options s c = Ok (s', c') -> frame from (cResults c) (cResults c') /\ cinv c' /\ cOffset c' = from.
Proof.
  intros Hid HD. induction k as [|k IH]; intros s c s' c' H Ho Hk; [discriminate|]. cbn [choiceLoop] in Hk. binv Hk. destruct x as [s1 c1].
  destruct (choicePass_frame id from Hid _ _ _ _ _ HD H Ho E) as (F1 & F2 & F3).
  destruct (chFound s1); [|inversion Hk; subst; auto]. destruct (IH _ _ _ _ F2 F3 Hk) as (K1 & K2 & K3). split; auto. eapply frame_trans; eauto.
Qed.
End REC.

Theorem parse_frame n : forall p c c', D p -> cinv c -> parse P kws n p c = Ok c' -> frame (cOffset c) (cResults c) (cResults c').
Proof.
  induction n as [|n IH]; intros p c c' Hp H Hk; [discriminate|]. cbn [parse] in Hk.
  destruct (nth_error P p) as [ob|] eqn:Ep; [|discriminate].
  assert (Hid : nonChar ob -> idD (nodeID ob)) by (intros Hn; exists p, ob; auto).
  destruct ob as [nm i cnot chars ranges|nm i cm its rg gs ac|nm i cm ops gs].
  - destruct (charParse_spec P input REof GT _ _ _ _ _ _ _ _ Ep H Hk) as [_ P5]. rewrite P5. apply frame_refl.
  - specialize (Hid I). simpl in Hid. unfold seqParse in Hk. destruct (negb ac && pending _ _ i)%bool; [inversion Hk; subst; apply frame_refl|].
    set (from := cOffset c) in *. set (c0 := if ac then c else _) in *.
    assert (H0 : cinv c0) by (unfold c0; destruct ac; auto; apply cinv_mark; auto).
    assert (Ho0 : cOffset c0 = from) by (unfold c0; destruct ac; auto).
    assert (F0 : frame from (cResults c) (cResults c0)).
    { unfold c0. destruct ac; [apply frame_refl|]. simpl. destruct (mark_match (cResults c) from i). apply frame_same; auto. }
    binv Hk. assert (HD : forall j x, 0 <= j -> nth_error its j = Some x -> D x) by (intros j y _ Hy; eapply Ditems; eauto; eapply nth_error_In; eauto).
    pose proof (seqLoop_frame n IH p i cm its rg ac from n from from 0 0 c0 x H0 Ho0 (Nat.le_refl _) HD E) as F1.
    apply (seqLoop_spec P input REof GT) in E; auto; [|intros; eapply post_of; eauto].
    destruct x as [to c1|c1]; simpl in F1; [|inversion Hk; subst; eapply frame_trans; eauto].
    destruct E as (Q1 & Q2 & Q3 & Q4 & Q5 & Q6).
    binv Hk. destruct x as [c2 b].
    assert (F2 : frame from (cResults c1) (cResults c2)).
    { destruct (hasFlag cm CNoKeyword); [|inversion E; subst; apply frame_refl].
      eapply isKeyword_frame; eauto. pose proof (ci_off _ _ _ _ Q1). lia. }
    assert (F3 : frame from (cResults c) (cResults c2)) by (eapply frame_trans; [exact F0|]; eapply frame_trans; eauto).
    destruct b.
    + eapply frame_unmark; [exact Hk|]. simpl. rewrite blame_same. exact F3.
    + eapply frame_unmark; [exact Hk|]. simpl. rewrite clearFail_same. simpl.
      eapply frame_trans; [exact F3|].
      assert (Fst : forall o j v, stored (setMatch (setGeneralizations from to gs (cResults c2)) from i to) o j v ->
                stored (cResults c2) o j v \/ (o = from /\ v = to /\ (j = i \/ In j gs))).
      { intros o j v Hs. apply stored_setMatch in Hs. destruct Hs as [Hs|(-> & -> & ->)]; auto.
        apply setGens_stored in Hs. destruct Hs as [Hs|(-> & -> & Hj & _)]; auto. }
      split.
      * intros o j v Hs. destruct (Fst _ _ _ Hs) as [|(-> & -> & [->|Hj])]; auto. right. split; auto. right.
        exists p, (PSeq nm i cm its rg gs ac). split; auto. split; auto. split; [exact I|]. split; [exact Hj|]. simpl. apply stored_setMatch. auto.
      * intros o j Hn. left. rewrite (noMatchHas_ext _ _ (noMatch_setMatch _ _ _ _)), (noMatchHas_ext _ _ (setGens_nomatch _ _ _ _)) in Hn. auto.
      * intros o j v Hs. apply stored_setMatch. left. apply setGens_stored. auto.
  - specialize (Hid I). simpl in Hid. unfold choiceParse in Hk. destruct (fromResults c i) as [c1|] eqn:Ef.
    { inversion Hk; subst. rewrite (fromResults_same _ _ _ Ef). apply frame_refl. }
    destruct (pending _ _ i); [inversion Hk; subst; apply frame_refl|].
    set (c0 := setResults c (markPending (cResults c) (cOffset c) i)) in *.
    assert (H0 : cinv c0) by (apply cinv_mark; auto).
    assert (F0 : frame (cOffset c) (cResults c) (cResults c0)).
    { destruct (mark_match (cResults c) (cOffset c) i). apply frame_same; auto. }
    change (cOffset c0) with (cOffset c) in Hk. set (from := cOffset c) in *.
    binv Hk. destruct x as [s1 c1].
    assert (HD : forall x, In x ops -> D x) by (intros; eapply Doptions; eauto).
    destruct (choiceLoop_frame n IH i from ops Hid HD _ _ _ _ _ H0 eq_refl E) as (F1 & F2 & F3).
    assert (F4 : frame from (cResults c) (cResults c1)) by (eapply frame_trans; eauto).
    assert (Hun : forall q q', mapResults (fun r => unmarkPending r from i) q = Ok q' -> frame from (cResults c) (cResults q) -> frame from (cResults c) (cResults q')).
    { intros q q' Hq Fq. eapply (frame_unmark from false); eauto. }
    destruct (chMatch s1).
    + binv Hk. destruct x as [c2 b].
      assert (F5 : frame from (cResults c) (cResults c2)).
      { eapply frame_trans; [exact F4|]. destruct (hasFlag cm CNoKeyword); [|inversion E0; subst; apply frame_refl].
        eapply isKeyword_frame; eauto. pose proof (ci_off _ _ _ _ F2). lia. }
      destruct b; [eapply Hun; [exact Hk|]; simpl; rewrite blame_same; exact F5|].
      eapply Hun; [exact Hk|]. simpl. destruct (_ <? _)%Z; [exact F5|]. destruct (_ <? _)%Z; exact F5.
    + eapply Hun; [exact Hk|]. simpl.
      match goal with |- frame _ _ (setNoMatch ?r _ _) => assert (Er : r = cResults c1) end.
      { destruct (_ <? _)%Z; auto. rewrite blame_same. auto. }
      rewrite Er. eapply frame_trans; [exact F4|]. apply frame_setNoMatch; auto.
Qed.
End FRAME.
