(** Defining, Init and Parse without a flag. *)
From Verif Require Import Base Utf8 IdSet Results Parser Build Syntax ListFacts SyntaxFacts ParseFacts InitWalk InitRun InitCore InitSpec Grammar Lang Rep Api WsApi ApiSpec HideRun HideInit HideApi FlagSpec FlagInit FlagRun.
Notation mks := FlagInit.mks. Notation mk := FlagInit.mk. Notation mkp := FlagInit.mkp.

Lemma Init_keywords n s s1 e : Init n s = Ok (s1, e) -> sKeywords s1 = sKeywords s.
Proof.
  rewrite Init_split. intros H. destruct (sInitFailed s); [injection H as <- _; auto|]. destruct (sInitialized s); [injection H as <- _; auto|]. destruct (sRoot s) as [r|]; [|injection H as <- _; auto].
  destruct (nth_error (sHeap s) r) as [rd|]; [|discriminate]. destruct (sRegistry s) as [reg|]; [|discriminate]. destruct (checkCommitType rd); [injection H as <- _; auto|].
  binv H. destruct x as [[h reg1] root1]. binv H. destruct x as [h1 [e1|]]; injection H as <- _; auto.
Qed.
Section CALLS.
Variables (calls : list defcall) (s : syntax).
Hypothesis Hd : Defined calls s.
Lemma flag_objs a d : nth_error (sHeap s) a = Some d -> exists o, In o (flat_map callObjs (map withUserDefined calls)) /\ checkCommitType o = None /\ sameBut [7%N] (dCommit o) (dCommit d).
Proof.
  intros Ha. pose proof (rep_defineAll _ _ Hd) as R.
  assert (La : a < List.length (flat_map callObjs (map withUserDefined calls))) by (rewrite <- (rp_len _ _ R); apply nth_error_Some; congruence).
  apply nth_error_Some in La. destruct (nth_error (flat_map callObjs (map withUserDefined calls)) a) as [o|] eqn:Eo; [|congruence].
  destruct (rp_obj _ _ R _ _ Eo) as (d0 & Hd0 & N & _ & _ & F1 & F2). rewrite Ha in Hd0. injection Hd0 as <-. exists o. split; [eapply nth_error_In; eauto|]. split; [apply (rp_fresh _ _ R o); eapply nth_error_In; eauto|].
  destruct (isCharK (dKind o)); [rewrite F1 by auto; apply sameBut_refl|apply F2; auto].
Qed.
Lemma no_whitespace : noWhitespaceDefs calls -> hasWhitespace (preinitAll (sHeap s) (gDefinitions (regOf s))) (gDefinitions (regOf s)) = false.
Proof.
  intros Hw. apply userDefined_ws in Hw. unfold hasWhitespace. apply existsb_false. intros a _. unfold commitAt. destruct (nth_error (preinitAll _ _) a) as [d|] eqn:E; [|reflexivity].
  assert (L : a < List.length (sHeap s)). { pose proof (rep_defineAll _ _ Hd) as R. rewrite (rp_defs _ _ R), <- (rp_len _ _ R), preinitAll_map in E. rewrite <- (map_length preinit). apply nth_error_Some. congruence. }
  apply nth_error_Some in L. destruct (nth_error (sHeap s) a) as [d0|] eqn:E0; [|congruence]. destruct (cEv_preinit (gDefinitions (regOf s)) _ _ _ E0) as (d1 & Hd1 & _ & C). rewrite E in Hd1. injection Hd1 as <-. rewrite C.
  destruct (flag_objs _ _ E0) as (o & Ho & _ & Hs).
  replace (hasFlag (dCommit d0) CWhitespace) with (hasFlag (dCommit o) CWhitespace) by (symmetry; apply (sameBut_flag [7%N] (dCommit o) (dCommit d0) 2); auto; intros [H|[]]; discriminate).
  apply call_objs_in in Ho. destruct Ho as (c & Hcc & Ho). destruct (callObjs_split c) as (chs & o1 & Ec & Hch & _ & _ & _ & Ew & _). rewrite Ec in Ho. apply in_app_or in Ho. destruct Ho as [Ho|[<-|[]]].
  - apply Hch; auto.
  - rewrite Ew. apply Hw; auto.
Qed.
Lemma no_keywords : (forall d, In d calls -> hasFlag (callFlags d) CKeyword = false) -> sKeywords s = [].
Proof.
  intros Hk. pose proof (rep_defineAll _ _ Hd) as R. rewrite (rp_kws _ _ R). destruct (kwIdx 0 _) as [|a l] eqn:E; auto. exfalso.
  assert (Hin : In a (kwIdx 0 (flat_map callObjs (map withUserDefined calls)))) by (rewrite E; left; auto). apply kwIdx_In in Hin. destruct Hin as (j & o & _ & Ho & Hf). apply nth_error_In in Ho.
  apply call_objs_in in Ho. destruct Ho as (c & Hc & Ho). destruct (callObjs_split c) as (chs & o1 & Ec & Hch & _ & _ & _ & _ & Ek). rewrite Ec in Ho. apply in_app_or in Ho. destruct Ho as [Ho|[<-|[]]].
  - apply Hch in Ho. destruct Ho as (_ & _ & Ho & _). congruence.
  - rewrite Ek in Hf. apply in_map_iff in Hc. destruct Hc as (d & <- & Hin). specialize (Hk d Hin). change CKeyword with (2 ^ 4)%N in *. rewrite hasFlag_bit in *. destruct d; cbn [withUserDefined callFlags] in *; rewrite N.lor_spec, Hk in Hf; discriminate.
Qed.
(** keyword flags: the same root check *)
Lemma nokw_check d : (exists a, nth_error (sHeap s) a = Some d) -> checkCommitType (mk CNoKeyword d) = checkCommitType d.
Proof.
  intros (a & Ha). destruct (flag_objs _ _ Ha) as (o & _ & Hc & Hs).
  assert (E : forall b, b <> 7%N -> hasFlag (dCommit d) (2 ^ b)%N = hasFlag (dCommit o) (2 ^ b)%N) by (intros b Hb; apply (sameBut_flag [7%N] (dCommit o) (dCommit d) b); auto; intros [X|[]]; congruence).
  assert (A : hasFlag (dCommit d) CNoKeyword = true -> hasFlag (dCommit d) CWhitespace = false /\ hasFlag (dCommit d) CKeyword = false).
  { change CNoKeyword with (2 ^ 5)%N. change CWhitespace with (2 ^ 2)%N. change CKeyword with (2 ^ 4)%N. rewrite !E by discriminate. intros Hn. split.
    - destruct (hasFlag (dCommit o) (2 ^ 2)%N) eqn:X; auto. assert (Y : hasFlag (dCommit o) CNoKeyword = false) by (apply (ws_incompat o); simpl; auto). change CNoKeyword with (2 ^ 5)%N in Y. congruence.
    - destruct (hasFlag (dCommit o) (2 ^ 4)%N) eqn:X; auto. assert (Y : hasFlag (dCommit o) CNoKeyword = false) by (apply (kw_incompat o); simpl; auto). change CNoKeyword with (2 ^ 5)%N in Y. congruence. }
  assert (M : forall f, N.land f CNoKeyword = 0%N -> hasFlag (dCommit (mk CNoKeyword d)) f = hasFlag (dCommit d) f) by (intros; apply FlagInit.mk_flag; auto).
  destruct (hasFlag (dCommit d) CNoKeyword) eqn:En.
  - destruct (A eq_refl) as [A1 A2]. unfold checkCommitType, incompatibleCommitTypes. cbn [checkCommitTypeIn]. rewrite !M, FlagInit.mk_name, A1, A2 by reflexivity. cbn [find]. rewrite !M by reflexivity. auto.
  - assert (M' : hasFlag (dCommit (mk CNoKeyword d)) CNoKeyword = false). { destruct (hasFlag (dCommit (mk CNoKeyword d)) CNoKeyword) eqn:X; auto. apply FlagInit.mk_le in X. congruence. }
    unfold checkCommitType, incompatibleCommitTypes. cbn [checkCommitTypeIn]. rewrite !M, FlagInit.mk_name by reflexivity. cbn [find]. rewrite M', En, !(M CRoot), !(M CFailPass), !(M CKeyword) by reflexivity. auto.
Qed.
End CALLS.
Lemma nows_check d : checkCommitType (mk CNoWhitespace d) = checkCommitType d.
Proof. unfold checkCommitType, incompatibleCommitTypes. cbn [checkCommitTypeIn find]. rewrite FlagInit.mk_name, !FlagInit.mk_flag by reflexivity. auto. Qed.

(** ** flags without which Init and Parse do the same *)
Definition alike (s s' : syntax) : Prop := forall n,
  (forall err, (exists s1, Init n s = Ok (s1, err)) <-> (exists s1, Init n s' = Ok (s1, err))) /\
  forall input e, mapR snd (Parse n s input e) = mapR snd (Parse n s' input e).
Lemma drop_parse F s : (N.land CAlias F = 0 /\ N.land CRoot F = 0 /\ N.land CWhitespace F = 0 /\ N.land CKeyword F = 0 /\ N.land CUserDefined F = 0 /\ N.land CFailPass F = 0)%N ->
  (N.land CNoKeyword F = 0%N \/ sKeywords s = []) ->
  (forall r d, sRoot s = Some r -> nth_error (sHeap s) r = Some d -> checkCommitType (mk F d) = checkCommitType d) ->
  N.land CNoWhitespace F = 0%N \/ hasWhitespace (preinitAll (sHeap s) (gDefinitions (regOf s))) (gDefinitions (regOf s)) = false ->
  forall n, Init n (mks F s) = mapR (fun x => (mks F (fst x), snd x)) (Init n s) /\ forall input e, Parse n (mks F s) input e = mapR (fun x => (mks F (fst x), snd x)) (Parse n s input e).
Proof.
  intros (F1 & F2 & F3 & F4 & F5 & F6) Hk Hr Hw n. assert (I : Init n (mks F s) = mapR (fun x => (mks F (fst x), snd x)) (Init n s)) by (apply FlagInit.Init_mk; auto). split; auto. intros input e. unfold Parse. rewrite I.
  destruct (Init n s) as [[s1 [er|]]|w|] eqn:E; cbn [mapR bind fst snd]; auto. change (sRoot (mks F s1)) with (sRoot s1). destruct (sRoot s1) as [root|]; auto. change (sKeywords (mks F s1)) with (sKeywords s1).
  rewrite FlagInit.parsers_mk, parseInput_mkp; auto. 2:{ rewrite (Init_keywords _ _ _ _ E). auto. } destruct (parseInput _ _ _ _ _ _); auto.
Qed.
Section ALIKE.
Variable F : commitType.
Hypothesis HF : (N.land CAlias F = 0 /\ N.land CRoot F = 0 /\ N.land CWhitespace F = 0 /\ N.land CKeyword F = 0 /\ N.land CUserDefined F = 0)%N.
Variables (calls calls' : list defcall) (s s' : syntax).
Hypothesis Hsame : sameButFlag F calls calls'.
Hypothesis Hd : Defined calls s.
Hypothesis Hd' : Defined calls' s'.
Lemma flags_mks : mks F s = mks F s'.
Proof. destruct HF as (F1 & F2 & F3 & F4 & F5). eapply FlagInit.defineAll_same; eauto. Qed.
Lemma call_flag g : N.land g F = 0%N -> (forall d, In d calls -> hasFlag (callFlags d) g = false) -> forall d, In d calls' -> hasFlag (callFlags d) g = false.
Proof.
  intros Hg H d Hin. apply (in_map (dropFlag F)) in Hin. rewrite <- Hsame in Hin. apply in_map_iff in Hin. destruct Hin as (d0 & E & H0). apply H in H0.
  assert (X : N.ldiff (callFlags d0) F = N.ldiff (callFlags d) F) by (destruct d0, d; cbn [dropFlag] in E; try discriminate; injection E; auto).
  rewrite <- (FlagInit.drop_flag F (callFlags d0) g Hg), X, FlagInit.drop_flag in H0; auto.
Qed.
Lemma alike_from : (forall n, Init n (mks F s) = mapR (fun x => (mks F (fst x), snd x)) (Init n s) /\ forall input e, Parse n (mks F s) input e = mapR (fun x => (mks F (fst x), snd x)) (Parse n s input e)) ->
  (forall n, Init n (mks F s') = mapR (fun x => (mks F (fst x), snd x)) (Init n s') /\ forall input e, Parse n (mks F s') input e = mapR (fun x => (mks F (fst x), snd x)) (Parse n s' input e)) -> alike s s'.
Proof.
  intros A B n. destruct (A n) as [A1 A2], (B n) as [B1 B2]. rewrite flags_mks in A1, A2. split.
  - intros err. rewrite A1 in B1. split; intros (s1 & H); rewrite H in B1; cbn [mapR fst snd] in B1; [destruct (Init n s') as [[s2 e2]|w|]|destruct (Init n s) as [[s2 e2]|w|]]; try discriminate; cbn [mapR fst snd] in B1; apply (f_equal (fun r => match r with Ok x => snd x | _ => None end)) in B1; cbn [snd] in B1; subst; eauto.
  - intros input e. specialize (A2 input e). specialize (B2 input e). rewrite A2 in B2. destruct (Parse n s input e) as [[s1 x1]|w|], (Parse n s' input e) as [[s2 x2]|w2|]; cbn [mapR fst snd] in *; try discriminate; auto; congruence.
Qed.
End ALIKE.

Theorem alike_api s s' : alike s s' -> (forall err, (exists s1, Inits s s1 err) <-> (exists s1, Inits s' s1 err)) /\
  forall input e, (forall out, (exists s1, Parses s input e s1 out) <-> (exists s1, Parses s' input e s1 out)) /\ (ParsePanics s input e <-> ParsePanics s' input e).
Proof.
  intros H. split.
  - intros err. split; intros (s1 & n & I); destruct (proj1 (H n) err) as [A B]; [destruct A as (s2 & I2)|destruct B as (s2 & I2)]; eauto; exists s2, n; auto.
  - intros input e. split.
    + intros out. split; intros (s1 & n & P); pose proof (proj2 (H n) input e) as E; rewrite P in E; cbn [mapR snd] in E.
      * destruct (Parse n s' input e) as [[s2 o2]|w|] eqn:E2; try discriminate. injection E as ->. exists s2, n. auto.
      * destruct (Parse n s input e) as [[s2 o2]|w|] eqn:E2; try discriminate. injection E as ->. exists s2, n. auto.
    + split; intros (n & w & P); pose proof (proj2 (H n) input e) as E; rewrite P in E; cbn [mapR snd] in E.
      * destruct (Parse n s' input e) as [[s2 o2]|w2|] eqn:E2; try discriminate. exists n, w2. auto.
      * destruct (Parse n s input e) as [[s2 o2]|w2|] eqn:E2; try discriminate. exists n, w2. auto.
Qed.
Theorem nows_alike calls calls' s s' : Defined calls s -> Defined calls' s' -> sameButFlag CNoWhitespace calls calls' -> noWhitespaceDefs calls -> alike s s'.
Proof.
  intros Hd Hd' Hs Hw. apply (alike_from CNoWhitespace (conj eq_refl (conj eq_refl (conj eq_refl (conj eq_refl eq_refl)))) calls calls' s s' Hs Hd Hd').
  - apply drop_parse; [repeat split|left; reflexivity|intros; apply nows_check|right; eapply no_whitespace; eauto].
  - apply drop_parse; [repeat split|left; reflexivity|intros; apply nows_check|right]. eapply no_whitespace; eauto. intros d Hin. eapply (call_flag CNoWhitespace); eauto; reflexivity.
Qed.
Theorem nokw_alike calls calls' s s' : Defined calls s -> Defined calls' s' -> sameButFlag CNoKeyword calls calls' -> (forall d, In d calls -> hasFlag (callFlags d) CKeyword = false) -> alike s s'.
Proof.
  intros Hd Hd' Hs Hk. apply (alike_from CNoKeyword (conj eq_refl (conj eq_refl (conj eq_refl (conj eq_refl eq_refl)))) calls calls' s s' Hs Hd Hd').
  - apply drop_parse; [repeat split|right; apply (no_keywords calls s Hd); auto|intros r d _ Hn; apply (nokw_check calls s Hd); eauto|left; reflexivity].
  - apply drop_parse; [repeat split|right; apply (no_keywords calls' s' Hd'); apply (call_flag CNoKeyword calls calls' Hs CKeyword eq_refl Hk)|intros r d _ Hn; apply (nokw_check calls' s' Hd'); eauto|left; reflexivity].
Qed.

(** ** failpass *)
Section PASS.
Variables (calls calls' : list defcall) (s s' : syntax).
Hypothesis Hsame : sameButFlag CFailPass calls calls'.
Hypothesis Hd : Defined calls s.
Hypothesis Hd' : Defined calls' s'.
Hypothesis Hi : exists s1, Inits s s1 None.
Hypothesis Hi' : exists s1, Inits s' s1 None.
Lemma pass_root t : sInitialized t = false -> sInitFailed t = false -> (exists s1, Inits t s1 None) -> forall r d, sRoot t = Some r -> nth_error (sHeap t) r = Some d -> checkCommitType (mk CFailPass d) = checkCommitType d.
Proof.
  intros I1 I2 (s1 & n & H) r d Hr Hn. rewrite Init_split, I1, I2, Hr, Hn in H. destruct (sRegistry t); [|discriminate]. destruct (checkCommitType d) eqn:E; [discriminate|]. apply FlagInit.check_drop; auto; reflexivity.
Qed.
Lemma pass_run t : sInitialized t = false -> sInitFailed t = false -> (exists s1, Inits t s1 None) -> forall n, Init n (mks CFailPass t) = mapR (fun x => (mks CFailPass (fst x), snd x)) (Init n t).
Proof. intros I1 I2 Hx n. apply FlagInit.Init_mk; auto; try reflexivity. apply pass_root; auto. Qed.
Lemma pass_outcomes n input e : outLike (mapR snd (Parse n s input e)) (mapR snd (Parse n s' input e)).
Proof.
  assert (K : forall t, sInitialized t = false -> sInitFailed t = false -> (exists s1, Inits t s1 None) -> outLike (mapR snd (Parse n t input e)) (mapR snd (Parse n (mks CFailPass t) input e))).
  { intros t I1 I2 Ht. unfold Parse. rewrite (pass_run t I1 I2 Ht). destruct (Init n t) as [[s1 [er|]]|w|]; cbn [mapR bind fst snd]; try (left; reflexivity). change (sRoot (mks CFailPass s1)) with (sRoot s1). destruct (sRoot s1) as [root|]; [|left; reflexivity].
    change (sKeywords (mks CFailPass s1)) with (sKeywords s1). rewrite FlagInit.parsers_mk. pose proof (parseInput_like CFailPass eq_refl (parsers s1) eq_refl (sKeywords s1) root n input e) as L.
    destruct L as [L|[L1 L2]]; [rewrite <- L; left; destruct (parseInput (parsers s1) _ _ _ _ _); reflexivity|]. right. split.
    - destruct L1 as [(o & l & c & d & ->)|(w & ->)]; [left; cbn [mapR bind snd]; eauto|right; cbn [mapR bind]; eauto].
    - destruct L2 as [(o & l & c & d & ->)|(w & ->)]; [left; cbn [mapR bind snd]; eauto|right; cbn [mapR bind]; eauto]. }
  pose proof (rep_defineAll _ _ Hd) as R. pose proof (rep_defineAll _ _ Hd') as R'. pose proof (K s (rp_init _ _ R) (rp_failed _ _ R) Hi) as A. pose proof (K s' (rp_init _ _ R') (rp_failed _ _ R') Hi') as B.
  assert (E : mks CFailPass s = mks CFailPass s') by (eapply (flags_mks CFailPass); eauto; repeat split). rewrite E in A.
  destruct A as [A|[A1 A2]], B as [B|[B1 B2]].
  - left; congruence.
  - right. split; auto. rewrite A; auto.
  - right. split; auto. rewrite B; auto.
  - right; auto.
Qed.
Theorem pass_tree input e t toks : (exists s1, Parses s input e s1 (Tree t toks)) <-> (exists s1, Parses s' input e s1 (Tree t toks)).
Proof.
  split; intros (s1 & n & H); pose proof (pass_outcomes n input e) as O; rewrite H in O; destruct O as [O|[O1 O2]]; cbn [mapR snd] in *.
  - destruct (Parse n s' input e) as [[s2 o2]|w|] eqn:E; try discriminate. injection O as <-. exists s2, n; auto.
  - destruct O1 as [(o & l & c & d & X)|(w & X)]; discriminate.
  - destruct (Parse n s input e) as [[s2 o2]|w|] eqn:E; try discriminate. injection O as ->. exists s2, n; auto.
  - destruct O2 as [(o & l & c & d & X)|(w & X)]; discriminate.
Qed.
Theorem pass_other input e err : (forall o l c d, err <> ErrParse o l c d) -> (exists s1, Parses s input e s1 (Failed err)) <-> (exists s1, Parses s' input e s1 (Failed err)).
Proof.
  intros Hn. split; intros (s1 & n & H); pose proof (pass_outcomes n input e) as O; rewrite H in O; destruct O as [O|[O1 O2]]; cbn [mapR snd] in *.
  - destruct (Parse n s' input e) as [[s2 o2]|w|] eqn:E; try discriminate. injection O as <-. exists s2, n; auto.
  - destruct O1 as [(o & l & c & d & X)|(w & X)]; [|discriminate]. injection X as X. destruct (Hn _ _ _ _ X).
  - destruct (Parse n s input e) as [[s2 o2]|w|] eqn:E; try discriminate. injection O as ->. exists s2, n; auto.
  - destruct O2 as [(o & l & c & d & X)|(w & X)]; [|discriminate]. injection X as X. destruct (Hn _ _ _ _ X).
Qed.
Theorem pass_refused input e : ((exists s1 o l c d, Parses s input e s1 (Failed (ErrParse o l c d))) \/ ParsePanics s input e) <-> ((exists s1 o l c d, Parses s' input e s1 (Failed (ErrParse o l c d))) \/ ParsePanics s' input e).
Proof.
  assert (K : forall t n, refused (mapR snd (Parse n t input e)) -> (exists s1 o l c d, Parses t input e s1 (Failed (ErrParse o l c d))) \/ ParsePanics t input e).
  { intros t n [(o & l & c & d & X)|(w & X)]; destruct (Parse n t input e) as [[s2 o2]|w2|] eqn:E; try discriminate.
    - cbn [mapR snd] in X. injection X as ->. left. exists s2, o, l, c, d, n. auto.
    - right. exists n, w2. auto. }
  assert (K2 : forall t, (exists s1 o l c d, Parses t input e s1 (Failed (ErrParse o l c d))) \/ ParsePanics t input e -> exists n, refused (mapR snd (Parse n t input e))).
  { intros t [(s1 & o & l & c & d & n & H)|(n & w & H)]; exists n; rewrite H; [left; cbn [mapR snd]; eauto|right; cbn [mapR]; eauto]. }
  split; intros H; apply K2 in H; destruct H as (n & H); destruct (pass_outcomes n input e) as [O|[O1 O2]]; eapply (K _ n); auto; [rewrite <- O|rewrite O]; auto.
Qed.
End PASS.
