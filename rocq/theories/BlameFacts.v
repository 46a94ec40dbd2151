(** The definition that a ParseError names, and where it is. *)
From Verif Require Import Base Utf8 IdSet Results Parser Build ListFacts ResultsFacts ReaderFacts ParseFacts
  FuelFacts TermFacts BuildFacts Lang Sound RunFacts ErrFacts NoPanic Syntax Restrict Grammar WsLang ApiSpec InitWalk InitRun InitOk SyntaxFacts InitCore InitSpec InitFuel Rep Live LangGen Api
  WsApi ApiFacts RefSpec RefFuel RefParse RefBuild RefRun RefTotal RefApi RefCheck.
From Verif Require RefSafe.
Import RefSafe(mapResults_fp, unmark_fp, fromResults_fp, token_fp).

(** the flags of a definition that an error can name *)
Definition blamable (ct : commitType) : bool := hasFlag ct CUserDefined && negb (hasFlag ct CWhitespace) && negb (hasFlag ct CFailPass).

Section FAILING.
Variable P : pheap.
Variable kws : list addr.
Definition bl (q : addr) : Prop := exists o, nth_error P q = Some o /\ blamable (commitTypeOf o) = true.
Definition fpOk (c : context) : Prop := forall q, cFailingParser c = Some q -> bl q.

Definition isP (p : addr) (ct : commitType) : Prop := exists o, nth_error P p = Some o /\ commitTypeOf o = ct.
Lemma fp_blame p ct c : isP p ct -> fpOk c -> fpOk (blame p ct c).
Proof.
  intros (o & Ho & Ec) H. unfold blame. destruct (cFailingParser c) eqn:E; auto. destruct (_ && _ && _)%bool eqn:Eb; auto. intros q Hq. simpl in Hq. inversion Hq; subst. exists o. split; auto.
Qed.
Lemma fp_same c c' : cFailingParser c' = cFailingParser c -> fpOk c -> fpOk c'.
Proof. intros E H q Hq. apply H. congruence. Qed.
Lemma fp_clear to c : fpOk c -> fpOk (clearFail to c).
Proof. intros H. unfold clearFail. destruct (Z.ltb _ _); auto. intros q Hq. discriminate. Qed.


Section REC.
Variable n : nat.
Notation rec := (parse P kws n).
Hypothesis Hrec : forall p c c', rec p c = Ok c' -> fpOk c -> fpOk c'.

Lemma kwLoop_fp l : forall from to c c' b, keywordLoop rec l from to c = Ok (c', b) -> fpOk c -> fpOk c'.
Proof.
  induction l as [|kw l IH]; intros from to c c' b H Hc; cbn [keywordLoop] in H; [inversion H; subst; auto|]. binv H.
  apply Hrec in E; [|eapply fp_same; [|exact Hc]; auto]. destruct (_ && _)%bool; [inversion H; subst; auto|eauto].
Qed.
Lemma isKeyword_fp from to c c' b : isKeyword rec kws from to c = Ok (c', b) -> fpOk c -> fpOk c'.
Proof.
  unfold isKeyword. intros H Hc. binv H. destruct x as [c1 b1]. inversion H; subst. apply kwLoop_fp in E; [|eapply fp_same; [|exact Hc]; auto]. eapply fp_same; [|exact E]; auto.
Qed.
Lemma seqLoop_fp p id ct items ranges ac from (Hp : isP p ct) k : forall to ii cnt c out, seqLoop rec k p id ct items ranges ac from to ii cnt c = Ok out -> fpOk c ->
  match out with SLoop _ c' => fpOk c' | SReturn c' => fpOk c' end.
Proof.
  induction k as [|k IH]; intros to ii cnt c out H Hc; [discriminate|]. cbn [seqLoop] in H. destruct (nth_error items ii) as [item|]; [|inversion H; subst; auto].
  binv H. apply Hrec in E; auto. destruct (nth_error ranges ii) as [[mn mx]|]; [|discriminate]. destruct (negb (cMatchLast x)).
  - destruct (Z.leb _ _); [eapply IH; eauto|]. cbv zeta in H. destruct (fromResults (setOffset x from) id) as [c1|] eqn:Ef.
    + binv H. inversion H; subst. apply unmark_fp in E0. apply fromResults_fp in Ef. eapply fp_same; [apply E0|]. apply fp_clear. eapply fp_same; [apply Ef|]. eapply fp_same; [|exact E]; auto.
    + binv H. inversion H; subst. apply unmark_fp in E0. eapply fp_same; [apply E0|]. apply (fp_same (blame p ct (setOffset x from))); [reflexivity|]. apply fp_blame; auto.
  - cbv zeta in H. destruct (_ || _)%bool; eapply IH; eauto.
Qed.
Lemma choicePass_fp id from options : forall s c s' c', choicePass rec id from options s c = Ok (s', c') -> fpOk c ->
  (forall q, chFailing s = Some q -> bl q) -> fpOk c' /\ (forall q, chFailing s' = Some q -> bl q).
Proof.
  induction options as [|o options IH]; intros s c s' c' H Hc Hs; cbn [choicePass] in H; [inversion H; subst; auto|].
  binv H. apply Hrec in E; auto. cbv zeta in H. set (s1 := if (negb (cMatchLast x) && (chFailOffset s <? cFailOffset x)%Z)%bool then _ else s) in *.
  assert (Hs1 : forall q, chFailing s1 = Some q -> bl q) by (unfold s1; destruct (_ && _)%bool; auto; simpl; apply E).
  destruct (_ || _)%bool; eapply IH; eauto.
Qed.
Lemma choiceLoop_fp id from options k : forall s c s' c', choiceLoop rec k id from options s c = Ok (s', c') -> fpOk c ->
  (forall q, chFailing s = Some q -> bl q) -> fpOk c' /\ (forall q, chFailing s' = Some q -> bl q).
Proof.
  induction k as [|k IH]; intros s c s' c' H Hc Hs; [discriminate|]. cbn [choiceLoop] in H. binv H. destruct x as [s1 c1]. apply choicePass_fp in E; auto. destruct E.
  destruct (chFound s1); [eapply IH; eauto|inversion H; subst; auto].
Qed.
End REC.
Lemma setFail_fp c o q : (forall x, q = Some x -> bl x) -> fpOk (setFail c o q).
Proof. intros H x Hx. simpl in Hx. auto. Qed.
Theorem parse_bl n : forall p c c', parse P kws n p c = Ok c' -> fpOk c -> fpOk c'.
Proof.
  induction n as [|n IH]; intros p c c' H Hc; [discriminate|]. cbn [parse] in H. destruct (nth_error P p) as [o|] eqn:Hp; [|discriminate].
  assert (Hp' : isP p (commitTypeOf o)) by (exists o; auto). destruct o as [nm i cnot chars ranges|nm id ct items ranges gs ac|nm id ct options gs].
  - unfold charParse in H. binv H. destruct x as [c1 tok]. assert (X : cFailingParser c1 = cFailingParser c) by (eapply token_fp; eauto).
    destruct (match tok with Some _ => _ | None => _ end); inversion H; subst; [eapply fp_same; [|exact Hc]; simpl; congruence|].
    simpl. destruct (Z.ltb _ _); [intros q Hq; discriminate|]. eapply fp_same; [|exact Hc]; simpl; congruence.
  - unfold seqParse in H. destruct (_ && _)%bool; [inversion H; subst; eapply fp_same; [|exact Hc]; auto|]. cbv zeta in H. set (c0 := if ac then c else _) in H.
    assert (H0 : fpOk c0) by (unfold c0; destruct ac; auto). binv H. eapply seqLoop_fp in E; eauto. destruct x as [to c1|c1]; [|inversion H; subst; auto].
    binv H. destruct x as [c2 b]. assert (H2 : fpOk c2) by (destruct (hasFlag ct CNoKeyword); [eapply isKeyword_fp; eauto|inversion E0; subst; auto]).
    destruct b; apply unmark_fp in H; (eapply fp_same; [apply H|]).
    + apply (fp_same (blame p ct c2)); [reflexivity|]. apply fp_blame; auto.
    + set (c3 := clearFail to _). apply (fp_same c3); [reflexivity|]. apply fp_clear. eapply fp_same; [|exact H2]; reflexivity.
  - unfold choiceParse in H. destruct (fromResults c id) as [c1|] eqn:Ef; [inversion H; subst; apply fromResults_fp in Ef; eapply fp_same; [apply Ef|auto]|].
    destruct (pending _ _ _); [inversion H; subst; eapply fp_same; [|exact Hc]; auto|]. cbv zeta in H. binv H. destruct x as [s c1].
    eapply choiceLoop_fp in E; eauto; [|discriminate]. destruct E as [E1 E2]. destruct (chMatch s).
    + binv H. destruct x as [c2 b]. assert (H2 : fpOk c2) by (destruct (hasFlag ct CNoKeyword); [eapply isKeyword_fp; eauto|inversion E; subst; auto]).
      destruct b; apply mapResults_fp in H; (eapply fp_same; [apply H|]).
      * apply (fp_same (blame p ct c2)); [reflexivity|]. apply fp_blame; auto.
      * simpl. match goal with |- fpOk (success ?x _) => apply (fp_same x); [reflexivity|] end.
        destruct (Z.ltb _ _); [apply setFail_fp; auto|]. destruct (Z.ltb _ _); apply setFail_fp; [discriminate|]. apply Hc.
    + apply mapResults_fp in H. eapply fp_same; [apply H|]. match goal with |- fpOk (fail (setResults ?x _) _) => apply (fp_same x); [reflexivity|] end.
      destruct (Z.ltb _ _); [|auto]. apply fp_blame; [auto|]. apply setFail_fp. auto.
Qed.
End FAILING.


(** ** the definition named by an error of a run *)
Theorem run_blame P kws root fuel input e off line col def :
  parseInput P kws root fuel input e = Ok (Failed (ErrParse off line col def)) ->
  exists a o, nth_error P a = Some o /\ def = definitionName (nodeName o) /\ (a = root \/ blamable (commitTypeOf o) = true).
Proof.
  intros H. unfold parseInput, parseInputPB in H. binv H.
  assert (Hf : fpOk P x) by (eapply parse_bl; [exact E|intros q Hq; discriminate]).
  destruct (cReadErr x) eqn:Ere.
  { inversion H; subst. pose proof (ri_case _ _ _ (ci_r _ _ _ _ (parse_cinv _ _ _ _ _ _ _ E))) as Hr. rewrite Ere in Hr. contradiction. }
  binv H. destruct x0 as [c1 [err|]].
  2:{ binv H. destruct x0 as [[[|] ok] c2]; discriminate. }
  inversion H; subst err; clear H.
  assert (HP : forall c p, (p = root \/ bl P p) -> forall c1, bind (parseError P c p) (fun e => Ok (c, Some e)) = Ok (c1, Some (ErrParse off line col def)) ->
    exists a o, nth_error P a = Some o /\ def = definitionName (nodeName o) /\ (a = root \/ blamable (commitTypeOf o) = true)).
  { intros c p Hp c2 Hb. binv Hb. inversion Hb; subst. unfold parseError in E1. destruct (nth_error P p) as [o|] eqn:Eo; [|discriminate]. binv E1. inversion E1; subst.
    exists p, o. split; auto. split; auto. destruct Hp as [->|(o' & Ho' & Hb')]; auto. rewrite Eo in Ho'. inversion Ho'; subst. auto. }
  assert (Hfp : match cFailingParser x with Some p => p | None => root end = root \/ bl P (match cFailingParser x with Some p => p | None => root end)).
  { destruct (cFailingParser x) eqn:Ef; auto. }
  unfold finalizeParse in E0. destruct (nth_error P root) as [ob|]; [|discriminate].
  destruct (longestResult _ _ _); try (eapply HP; [|exact E0]; exact Hfp).
  destruct (_ <? _); [eapply HP; [|exact E0]; exact Hfp|].
  destruct (read x) as [c2 ok] eqn:Er. destruct (cEof c2); [discriminate|].
  destruct (cReadErr c2) eqn:Ere2; [|eapply HP; [|exact E0]; auto].
  inversion E0; subst. pose proof (cinv_read _ _ _ _ _ (parse_cinv _ _ _ _ _ _ _ E) Er) as Hc2.
  pose proof (ri_case _ _ _ (ci_r _ _ _ _ Hc2)) as Hr. rewrite Ere2 in Hr. contradiction.
Qed.

(** ** the names of the objects of an initialized syntax *)
Section NAMES.
Variable Q : string -> Prop.
Hypothesis Qws : forall n, Q n -> Q (patchName [n; "wsroot"%string]).
Definition told (d : defobj) : Prop := blamable (dCommit d) = true \/ hasFlag (dCommit d) CRoot = true -> Q (dName d).

Lemma Forall_upd {A} (R : A -> Prop) f l : (forall x, R x -> R (f x)) -> Forall R l -> forall i, Forall R (updNth i f l).
Proof. intros Hf H. induction H as [|x l Hx Hl IH]; intros [|i]; simpl; constructor; auto. Qed.
Lemma blamable_but l ct ct' : sameBut l ct ct' -> ~ In 8%N l -> ~ In 2%N l -> ~ In 6%N l -> blamable ct' = blamable ct.
Proof.
  intros H H8 H2 H6. unfold blamable. change CUserDefined with (2 ^ 8)%N. change CWhitespace with (2 ^ 2)%N. change CFailPass with (2 ^ 6)%N.
  rewrite !(sameBut_flag l ct ct') by auto. auto.
Qed.
Lemma preinit_told d : told d -> told (preinit d).
Proof. unfold told, preinit, initRanges. destruct (dKind d); auto. Qed.
Lemma preinitAll_told l : forall h, Forall told h -> Forall told (preinitAll h l).
Proof. unfold preinitAll. induction l as [|a l IH]; intros h H; simpl; auto. apply IH. apply Forall_upd; auto. apply preinit_told. Qed.
Lemma alias_told d : told d -> told (setCommitType (N.lor (dCommit d) CAlias) d).
Proof.
  unfold told, setCommitType. intros H. destruct (dKind d); auto; simpl; intros Hb; apply H;
  (rewrite <- (blamable_but [1%N] (dCommit d) (N.lor (dCommit d) CAlias)); [|apply (sameBut_lor (dCommit d) 1)|simpl; intuition discriminate..]);
  (replace (hasFlag (dCommit d) CRoot) with (hasFlag (N.lor (dCommit d) CAlias) CRoot) by (apply (flag_lor_other (dCommit d) 1 7); discriminate)); auto.
Qed.
Lemma split_told defs : forall h, Forall told h -> Forall told (fst (fst (splitWhitespaceDefs h defs))).
Proof.
  induction defs as [|a defs IH]; intros h H; simpl; auto. destruct (hasFlag _ _).
  - match goal with |- context [splitWhitespaceDefs ?h1 defs] => specialize (IH h1); destruct (splitWhitespaceDefs h1 defs) as [[h2 ws] rest] end. simpl in *. apply IH. apply Forall_upd; auto. intros d. apply alias_told.
  - specialize (IH h H). destruct (splitWhitespaceDefs h defs) as [[h2 ws] rest]. auto.
Qed.
Lemma told_alias n items : told (newSequence n CAlias items).
Proof. intros [H|H]; discriminate. Qed.
Lemma wsItems_told n items : forall i, Forall told (fst (wsItems n i items)).
Proof.
  induction items as [|it items IH]; intros i; simpl; auto. specialize (IH (S i)). destruct (wsItems n (S i) items) as [defs rest]. simpl in IH.
  destruct (Z.eqb _ _); auto. destruct (Z.ltb 0 (siMin it)); simpl; repeat constructor; auto using told_alias.
Qed.
Lemma applySeq_told n ct items : (blamable ct = true \/ hasFlag ct CRoot = true -> Q n) -> Forall told (applyWhitespaceToSeq n ct items).
Proof.
  intros H. unfold applyWhitespaceToSeq. pose proof (wsItems_told n items 0) as X. destruct (wsItems n 0 items) as [defs its]. apply Forall_app. split; auto.
Qed.
Lemma applyDefs_told defs : forall h, Forall told h -> Forall told (fst (applyWhitespaceToDefs h defs)).
Proof.
  induction defs as [|a defs IH]; intros h H; cbn [applyWhitespaceToDefs]; auto.
  assert (X : Forall told (fst (let (h0, rest) := applyWhitespaceToDefs h defs in (h0, a :: rest)))) by (specialize (IH h H); destruct (applyWhitespaceToDefs h defs); auto).
  destruct (nth_error h a) as [[n i ct [cn ch rs|oi items rs ids gs ac v ini|ops ods gs v ini]]|] eqn:E; auto. destruct (hasFlag ct CNoWhitespace); auto.
  specialize (IH (h ++ applyWhitespaceToSeq n ct items)). destruct (applyWhitespaceToDefs (h ++ applyWhitespaceToSeq n ct items) defs) as [h2 rest]. simpl in *. apply IH. apply Forall_app. split; auto.
  apply applySeq_told. apply nth_error_In in E. rewrite Forall_forall in H. exact (H _ E).
Qed.
Lemma root_told h root : Forall told h -> hasFlag (commitAt h root) CRoot = true ->
  Forall told (fst (applyWhitespaceToRoot h root)) /\ exists d, nth_error (fst (applyWhitespaceToRoot h root)) (snd (applyWhitespaceToRoot h root)) = Some d /\ hasFlag (dCommit d) CRoot = true.
Proof.
  intros H Hr. unfold commitAt in Hr. destruct (nth_error h root) as [d|] eqn:E; [|discriminate].
  assert (Hq : Q (dName d)) by (apply nth_error_In in E; rewrite Forall_forall in H; apply (H _ E); auto).
  unfold applyWhitespaceToRoot, nameAt. rewrite E. cbn [fst snd]. split.
  - apply Forall_app. split; [|constructor; auto; intros _; exact Hq].
    rewrite Forall_forall. intros x Hx. apply In_nth_error in Hx. destruct Hx as (i & Hi). rewrite nth_error_updNth in Hi. destruct (Nat.eqb_spec root i) as [Ei|Ei]; [rewrite <- Ei in Hi|].
    + rewrite E in Hi. simpl in Hi. inversion Hi; subst. intros _. unfold setCommitType, setName; simpl. destruct (dKind d); simpl; apply Qws; auto.
    + rewrite Forall_forall in H. apply H. eapply nth_error_In; eauto.
  - match goal with |- context [nth_error (?l ++ [?x]) _] => exists x; rewrite (nth_error_app2 l); [|rewrite ?updNth_length; auto] end. rewrite updNth_length, Nat.sub_diag. auto.
Qed.
Lemma setID_told i d : told d -> told (setID i d).
Proof. auto. Qed.
Lemma registry_told defs : forall h r, Forall told h -> Forall told (fst (newRegistryLoop h r defs)) /\
  forall a d, nth_error h a = Some d -> exists d', nth_error (fst (newRegistryLoop h r defs)) a = Some d' /\ dCommit d' = dCommit d.
Proof.
  induction defs as [|a defs IH]; intros h r H; cbn [newRegistryLoop]; [simpl; eauto|].
  unfold setDefinition. destruct (nth_error h a) as [d0|]; [destruct (lookup _ _)|]; try (apply IH; auto).
  destruct (IH (updNth a (setID (S (gIdSeed r))) h) (mkRegistry (S (gIdSeed r)) ((dName d0, a) :: gDefinition r) (gDefinitions r ++ [a]))) as [H1 H2]; [apply Forall_upd; auto|]. split; auto.
  intros b d Hb. destruct (H2 b (if Nat.eqb a b then setID (S (gIdSeed r)) d else d)) as (d' & Hd' & Ec).
  - rewrite nth_error_updNth, Hb. destruct (a =? b); auto.
  - exists d'. split; auto. rewrite Ec. destruct (a =? b); auto.
Qed.
Lemma last_some {A} (l : list A) a : last (map Some l) None = Some a -> In a l.
Proof.
  induction l as [|x l IH]; [discriminate|]. cbn [map last]. destruct l as [|y l]; simpl in *; [intros H; inversion H; auto|]. intros H. right. apply IH. exact H.
Qed.

Theorem init_told fuel s s' : Forall told (sHeap s) ->
  (forall r d, sRoot s = Some r -> nth_error (sHeap s) r = Some d -> hasFlag (dCommit d) CRoot = true) ->
  sInitialized s = false -> Init fuel s = Ok (s', None) ->
  Forall told (sHeap s') /\ exists root d, sRoot s' = Some root /\ nth_error (sHeap s') root = Some d /\ hasFlag (dCommit d) CRoot = true.
Proof.
  intros H Hroot Hi HI. unfold Init in HI. destruct (sInitFailed s); [discriminate|]. rewrite Hi in HI. destruct (sRoot s) as [root|]; [|discriminate].
  destruct (nth_error (sHeap s) root) as [rd|] eqn:Er; [|discriminate]. destruct (sRegistry s) as [reg|]; [|discriminate].
  destruct (checkCommitType rd) eqn:Ec; [discriminate|]. cbv zeta in HI. binv HI. destruct x as [[h1 reg1] root1].
  assert (X : Forall told h1 /\ exists d, nth_error h1 root1 = Some d /\ hasFlag (dCommit d) CRoot = true).
  { clear HI. pose proof (preinitAll_told (gDefinitions reg) _ H) as H0.
    assert (Hr0 : exists d, nth_error (preinitAll (sHeap s) (gDefinitions reg)) root = Some d /\ hasFlag (dCommit d) CRoot = true).
    { specialize (Hroot root rd eq_refl Er). clear - Er Hroot. revert Er. unfold preinitAll. generalize (sHeap s) as h. revert rd Hroot.
      induction (gDefinitions reg) as [|a l IH]; intros rd Hroot h Er; simpl; [eauto|]. apply (IH (if Nat.eqb a root then preinit rd else rd)).
      - destruct (a =? root); auto. unfold preinit, initRanges. destruct (dKind rd); auto.
      - rewrite nth_error_updNth, Er. destruct (a =? root); auto. }
    set (h0 := preinitAll (sHeap s) (gDefinitions reg)) in *. destruct (hasWhitespace h0 (gDefinitions reg)); [|inversion E; subst; auto].
    binv E. destruct x as [[h2 defs] root2]. unfold newRegistry in E. destruct (newRegistryLoop h2 emptyRegistry defs) as [h3 reg3] eqn:En. inversion E; subst; clear E.
    unfold applyWhitespace in E0. pose proof (split_told (gDefinitions reg) h0 H0) as Hs. destruct (splitWhitespaceDefs h0 (gDefinitions reg)) as [[ha ws] rest]. simpl in Hs.
    set (hb := ha ++ _) in E0. assert (Hb : Forall told hb) by (apply Forall_app; split; auto; constructor; auto; intros [X|X]; discriminate).
    pose proof (applyDefs_told rest hb Hb) as Hd. destruct (applyWhitespaceToDefs hb rest) as [hc defs2]. simpl in Hd. unfold splitRoot in E0.
    destruct (last _ None) as [orig|] eqn:El; [|discriminate]. apply last_some in El. apply filter_In in El. destruct El as [_ El].
    destruct (root_told hc orig Hd El) as (R1 & d & R2 & R3). destruct (applyWhitespaceToRoot hc orig) as [hd rt]. simpl in R1, R2. inversion E0; subst.
    pose proof (registry_told (filter (fun a => negb (hasFlag (commitAt hc a) CRoot)) defs2 ++ ws ++ [List.length ha; orig; root1]) h2 emptyRegistry R1) as [G1 G2]. rewrite En in G1, G2. simpl in G1, G2. split; auto.
    destruct (G2 _ _ R2) as (d' & Hd' & Ecc). exists d'. split; auto. congruence. }
  destruct X as (X1 & d & X2 & X3). binv HI. destruct x as [h2 [err|]]; [discriminate|]. binv HI. inversion HI; subst; clear HI. simpl.
  apply validateAll_spec in E0. destruct E0 as [E0 _]. apply initAll_spec in E1. destruct E1 as [E1 _].
  assert (Y : forall b d, nth_error h1 b = Some d -> exists d', nth_error x b = Some d' /\ dName d' = dName d /\ dCommit d' = dCommit d).
  { intros b db Hb. specialize (E0 b). rewrite Hb in E0. destruct E0 as (d2 & Hd2 & E0). specialize (E1 b). unfold evAt in E1. rewrite Hd2 in E1. destruct E1 as (d3 & Hd3 & E1).
    exists d3. split; auto. assert (N2 : dName d2 = dName db /\ dCommit d2 = dCommit db) by (destruct E0 as [->| ->]; auto). destruct N2 as [<- <-].
    destruct E1 as [E1|(_ & E1 & _)]; [apply eraseG_eq in E1; tauto|]. split; [apply (f_equal dName) in E1|apply (f_equal dCommit) in E1]; exact E1. }
  split; [|destruct (Y _ _ X2) as (d' & Hd' & _ & Ec'); exists root1, d'; split; auto; split; auto; congruence].
  rewrite Forall_forall. intros d' Hd'. apply In_nth_error in Hd'. destruct Hd' as (b & Hb).
  assert (Z : exists db, nth_error h1 b = Some db).
  { destruct (nth_error h1 b) eqn:Eb; eauto. specialize (E0 b). rewrite Eb in E0. specialize (E1 b). unfold evAt in E1. rewrite E0 in E1. congruence. }
  destruct Z as (db & Hdb). destruct (Y _ _ Hdb) as (d2 & Hd2 & N1 & N2). rewrite Hb in Hd2. inversion Hd2; subst d2.
  unfold told. rewrite N1, N2. rewrite Forall_forall in X1. apply X1. eapply nth_error_In; eauto.
Qed.
End NAMES.
