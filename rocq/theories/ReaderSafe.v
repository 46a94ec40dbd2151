(** A failing reader causes no panic: when Parse panics with a reader that fails at the end of valid
    input, it panics with every continuation of the input. *)
From Verif Require Import Base Utf8 IdSet Results Parser Build ListFacts ResultsFacts ReaderFacts ParseFacts
  FuelFacts TermFacts BuildFacts Lang Sound RunFacts ErrFacts NoPanic Syntax Define Restrict Grammar WsLang ApiSpec InitWalk InitRun InitOk SyntaxFacts InitCore InitSpec InitFuel Rep Live LangGen Api
  WsNames WsApi ApiFacts GenFacts RefSpec RefFuel RefParse RefBuild RefRun RefTotal RefSim RefApi RefCheck RefSafe GrowSpec GrowApi SelfGrammar SelfLang ReadFacts ReadSpec ReadLang ReadMeans.
Local Open Scope nat_scope.

Theorem run_panic_local P kws root fuel input k why more e' :
  wfHeap P kws -> ~ In runeError input -> root < List.length P ->
  parseInput P kws root fuel input (RFail k) = Panic why ->
  exists why', parseInput P kws root fuel (input ++ more) e' = Panic why'.
Proof.
  intros Hw Hv Hl H. unfold parseInput, parseInputPB in *.
  pose proof (parse_noPanic P kws input (RFail k) Hw Hv fuel root Hl) as Hnp. unfold np in Hnp.
  destruct (parse P kws fuel root (newContext input (RFail k))) as [x|w|] eqn:E; [|exfalso; eapply Hnp; eauto|discriminate]. cbn [bind] in H.
  pose proof (parse_cinv _ _ _ _ _ _ _ E) as Hc.
  destruct (cReadErr x) eqn:Ere; [discriminate|].
  assert (Hst : stopped x = false).
  { unfold stopped. rewrite Ere. destruct (cEof x) eqn:Ee; auto.
    pose proof (ri_case _ _ _ (ci_r _ _ _ _ Hc)) as Hr. rewrite Ere in Hr. destruct Hr as (_ & _ & Hr).
    destruct (Hr Ee). discriminate. }
  apply (parse_local more e') in E. destruct E as [_ E].
  change (newContext (input ++ more) e') with (extend (newContext input (RFail k)) more e').
  rewrite (E Hst). cbn [bind]. change (cReadErr (extend x more e')) with (cReadErr x). rewrite Ere.
  enough (Hf : (exists w, finalizeParse P x root = Panic w) -> exists w, finalizeParse P (extend x more e') root = Panic w).
  { destruct (finalizeParse P x root) as [[c1 [err|]]|w|] eqn:Ef; cbn [bind] in H; try discriminate.
    - exfalso. clear H Hf. unfold finalizeParse in Ef. destruct (nth_error P root); [|discriminate]. destruct (longestResult _ _ _); try (binv Ef; discriminate).
      destruct (_ <? _); [binv Ef; discriminate|]. destruct (read x) as [c2 ok] eqn:Er. pose proof (cinv_read _ _ _ _ _ Hc Er) as Hc2.
      destruct (cEof c2) eqn:Ee2; [|destruct (cReadErr c2); [discriminate|binv Ef; discriminate]].
      pose proof (ri_case _ _ _ (ci_r _ _ _ _ Hc2)) as Hr. destruct (cReadErr c2) as [[]|]; try contradiction.
      + destruct Hr as (_ & _ & Hr). congruence.
      + destruct Hr as (_ & _ & _ & Hr). congruence.
      + destruct Hr as (_ & _ & Hr). destruct (Hr Ee2). discriminate.
    - destruct (Hf (ex_intro _ _ eq_refl)) as (w' & Hf'). rewrite Hf'. cbn [bind]. eauto. }
  intros (w & Hf). unfold finalizeParse in *. change (cFailingParser (extend x more e')) with (cFailingParser x).
  change (cResults (extend x more e')) with (cResults x). change (cReadOffset (extend x more e')) with (cReadOffset x).
  destruct (nth_error P root) as [ob|]; [|eauto].
  set (fp := match cFailingParser x with Some p => p | None => root end) in *.
  rewrite parseError_ext.
  destruct (longestResult _ _ _).
  - destruct (parseError P x fp); try discriminate. cbn [bind]. eauto.
  - destruct (_ <? _); [destruct (parseError P x fp); try discriminate; cbn [bind]; eauto|].
    destruct (read x) as [c2 ok] eqn:Er. destruct (cEof c2) eqn:Ee2; [discriminate|]. destruct (cReadErr c2) eqn:Ere2; [discriminate|].
    apply (read_local more e') in Er. destruct Er as [_ Er]. assert (Hs2 : stopped c2 = false) by (unfold stopped; rewrite Ere2; auto).
    rewrite (Er Hs2). change (cEof (extend c2 more e')) with (cEof c2). rewrite Ee2.
    change (cReadErr (extend c2 more e')) with (cReadErr c2). rewrite Ere2, parseError_ext.
    destruct (parseError P c2 root); try discriminate. cbn [bind]. eauto.
  - destruct (parseError P x fp); try discriminate. cbn [bind]. eauto.
Qed.

Theorem u_reader_panic calls s input k : usable calls s -> ~ In runeError input -> ParsePanics s input (RFail k) ->
  forall more e', ParsePanics s (input ++ more) e'.
Proof.
  intros Hu Hv (fuel & why & H) more e'. exists fuel. unfold Parse in *. destruct (Init fuel s) as [[s1 [err|]]|w|] eqn:EI; cbn [bind] in *; try discriminate.
  - destruct (proj2 Hu _ _ EI) as (PL & root & name & R1 & Su). rewrite (su_root _ _ _ _ _ _ Su) in *.
    pose proof (ao_pwf _ _ _ _ _ (su_ok _ _ _ _ _ _ Su)) as [W1 W2 W3 W4].
    rewrite (live_run _ _ _ _ (su_live _ _ _ _ _ _ Su)) in *.
    destruct (parseInput PL (sKeywords s1) root fuel input (RFail k)) as [o|w|] eqn:E; try discriminate.
    eapply run_panic_local in E; eauto. destruct E as (w' & E). rewrite E. cbn [bind]. eauto.
  - eauto.
Qed.
Theorem u_reader_safe calls s input e : usable calls s -> ~ In runeError input -> ~ ParsePanics s input REof -> ~ ParsePanics s input e.
Proof.
  intros Hu Hv Hn HP. destruct e as [|k]; auto. apply Hn. rewrite <- (app_nil_r input). eapply u_reader_panic; eauto.
Qed.

Theorem reader_panic calls s input k : Defined calls s -> refersToDefs calls -> literalKeywords calls -> ~ In runeError input -> ParsePanics s input (RFail k) ->
  forall more e', ParsePanics s (input ++ more) e'.
Proof. intros Hd Hr Hk. eapply u_reader_panic. apply defined_usable; eauto. apply literal_ready; auto. Qed.
Theorem reader_safe calls s s' name input t ns e :
  Defined calls s -> refersToDefs calls -> literalKeywords calls -> nokwOnSequences calls ->
  rootName calls = Some name -> Inits s s' None -> ~ In runeError input ->
  MeansL calls input name 0 (Match t ns) -> ~ ParsePanics s input e.
Proof.
  intros Hd Hr Hk Hn Hroot HI Hv Hm. eapply u_reader_safe; eauto; [apply (defined_usable calls s Hd), literal_ready; auto|].
  eapply grow_prefix; eauto.
Qed.
Theorem read_noPanic_reader s input e : ~ In runeError input -> ~ ReadPanics s input e.
Proof.
  intros Hv. destruct e as [|k]; [apply read_noPanic; auto|]. intros (fuel & why & H). unfold ReadSyntax in H. destruct (sInitialized s); [discriminate|].
  destruct (selfParse fuel input (RFail k)) as [[t toks|err]|w|] eqn:E; try discriminate.
  - destruct (self_eof _ _ _ _ _ E) as [E' _]. discriminate.
  - assert (HP : ParsePanics selfSyntax input (RFail k)) by (apply self_panics; eauto).
    apply (u_reader_panic published selfSyntax input k self_usable Hv) with (more := []) (e' := REof) in HP. rewrite app_nil_r in HP.
    apply self_panics in HP. destruct HP as (f & w' & HP). eapply self_noPanic; eauto.
Qed.
Theorem text_reader_panic text defs s input k : spells text defs -> ReadLang.Reads emptySyntax text REof s None -> textReady defs -> ~ In runeError input -> ParsePanics s input (RFail k) ->
  forall more e', ParsePanics s (input ++ more) e'.
Proof. intros Hs HR Hw. eapply u_reader_panic. eapply spells_usable; eauto. Qed.
