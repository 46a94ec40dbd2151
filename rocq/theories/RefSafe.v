(** Parse does not panic when the root definition takes a beginning of the input. *)
From Verif Require Import Base Utf8 IdSet Results Parser Build ListFacts ResultsFacts ReaderFacts ParseFacts
  FuelFacts TermFacts BuildFacts Lang Sound RunFacts ErrFacts NoPanic Syntax Restrict Grammar WsLang ApiSpec InitWalk InitRun InitOk SyntaxFacts InitCore InitSpec InitFuel Rep Live LangGen Api
  WsApi ApiFacts RefSpec RefFuel RefParse RefBuild RefRun RefTotal RefApi RefCheck.

(** ** the failing parser is a parser of the heap *)
Section FAILING.
Variable P : pheap.
Variable kws : list addr.
Definition fpOk (c : context) : Prop := forall q, cFailingParser c = Some q -> nth_error P q <> None.

Lemma fp_blame p ct c : nth_error P p <> None -> fpOk c -> fpOk (blame p ct c).
Proof.
  intros Hp H. unfold blame. destruct (cFailingParser c) eqn:E; auto. destruct (_ && _ && _)%bool; auto. intros q Hq. simpl in Hq. inversion Hq; subst. auto.
Qed.
Lemma fp_same c c' : cFailingParser c' = cFailingParser c -> fpOk c -> fpOk c'.
Proof. intros E H q Hq. apply H. congruence. Qed.
Lemma fp_clear to c : fpOk c -> fpOk (clearFail to c).
Proof. intros H. unfold clearFail. destruct (Z.ltb _ _); auto. intros q Hq. discriminate. Qed.
Lemma mapResults_fp f c c' : mapResults f c = Ok c' -> cFailingParser c' = cFailingParser c /\ cFailOffset c' = cFailOffset c /\ cMatchLast c' = cMatchLast c.
Proof. unfold mapResults. intros H. binv H. inversion H; subst. auto. Qed.
Lemma unmark_fp ac from id c c' : unmarkUnless ac from id c = Ok c' -> cFailingParser c' = cFailingParser c /\ cFailOffset c' = cFailOffset c /\ cMatchLast c' = cMatchLast c.
Proof. unfold unmarkUnless. destruct ac; intros H; [inversion H; subst; auto|]. apply mapResults_fp in H. auto. Qed.
Lemma fromResults_fp c id c' : fromResults c id = Some c' -> cFailingParser c' = cFailingParser c /\ cFailOffset c' = cFailOffset c.
Proof. unfold fromResults. destruct (longestResult _ _ _); intros H; inversion H; subst; auto. Qed.

Lemma token_fp c c' tok : token c = Ok (c', tok) -> cFailingParser c' = cFailingParser c.
Proof.
  unfold token. destruct (match cOffsetLimit c with Some _ => _ | None => _ end); intros H; [inversion H; subst; auto|].
  assert (X : cFailingParser (fst (if cOffset c =? cReadOffset c then read c else (c, true))) = cFailingParser c).
  { destruct (_ =? _); auto. unfold read. destruct (cEof c); auto. destruct (cReadErr c); auto. destruct (cInput c); [destruct (cEnd c); auto|]. destruct (Z.eqb _ _); auto. }
  destruct (if cOffset c =? cReadOffset c then read c else (c, true)) as [c1 ok]. simpl in X. destruct ok; [|inversion H; subst; auto]. destruct (nth_error _ _); inversion H; subst; auto.
Qed.

Section REC.
Variable n : nat.
Notation rec := (parse P kws n).
Hypothesis Hrec : forall p c c', rec p c = Ok c' -> fpOk c -> fpOk c'.

Lemma kwLoop_fp l : forall from to c c' b, keywordLoop rec l from to c = Ok (c', b) -> fpOk c -> fpOk c'.
Proof.
  induction l as [|kw l IH]; intros from to c c' b H Hc; cbn [keywordLoop] in H; [inversion H; subst; auto|]. binv H.
  apply Hrec in E; [|eapply fp_same; [|exact Hc]; auto]. destruct (_ && _)%bool; [inversion H; subst; auto|eauto].
Qed.
Lemma isKeyword_fp from to c c' b : isKeyword rec kws from to c = Ok (c', b) -> fpOk c -> fpOk c'.
Proof.
  unfold isKeyword. intros H Hc. binv H. destruct x as [c1 b1]. inversion H; subst. apply kwLoop_fp in E; [|eapply fp_same; [|exact Hc]; auto]. eapply fp_same; [|exact E]; auto.
Qed.
Lemma seqLoop_fp p id ct items ranges ac from (Hp : nth_error P p <> None) k : forall to ii cnt c out, seqLoop rec k p id ct items ranges ac from to ii cnt c = Ok out -> fpOk c ->
  match out with SLoop _ c' => fpOk c' | SReturn c' => fpOk c' end.
Proof.
  induction k as [|k IH]; intros to ii cnt c out H Hc; [discriminate|]. cbn [seqLoop] in H. destruct (nth_error items ii) as [item|]; [|inversion H; subst; auto].
  binv H. apply Hrec in E; auto. destruct (nth_error ranges ii) as [[mn mx]|]; [|discriminate]. destruct (negb (cMatchLast x)).
  - destruct (Z.leb _ _); [eapply IH; eauto|]. cbv zeta in H. destruct (fromResults (setOffset x from) id) as [c1|] eqn:Ef.
    + binv H. inversion H; subst. apply unmark_fp in E0. apply fromResults_fp in Ef. eapply fp_same; [apply E0|]. apply fp_clear. eapply fp_same; [apply Ef|]. eapply fp_same; [|exact E]; auto.
    + binv H. inversion H; subst. apply unmark_fp in E0. eapply fp_same; [apply E0|]. apply (fp_same (blame p ct (setOffset x from))); [reflexivity|]. apply fp_blame; auto.
  - cbv zeta in H. destruct (_ || _)%bool; eapply IH; eauto.
Qed.
Lemma choicePass_fp id from options : forall s c s' c', choicePass rec id from options s c = Ok (s', c') -> fpOk c ->
  (forall q, chFailing s = Some q -> nth_error P q <> None) -> fpOk c' /\ (forall q, chFailing s' = Some q -> nth_error P q <> None).
Proof.
  induction options as [|o options IH]; intros s c s' c' H Hc Hs; cbn [choicePass] in H; [inversion H; subst; auto|].
  binv H. apply Hrec in E; auto. cbv zeta in H. set (s1 := if (negb (cMatchLast x) && (chFailOffset s <? cFailOffset x)%Z)%bool then _ else s) in *.
  assert (Hs1 : forall q, chFailing s1 = Some q -> nth_error P q <> None) by (unfold s1; destruct (_ && _)%bool; auto; simpl; apply E).
  destruct (_ || _)%bool; eapply IH; eauto.
Qed.
Lemma choiceLoop_fp id from options k : forall s c s' c', choiceLoop rec k id from options s c = Ok (s', c') -> fpOk c ->
  (forall q, chFailing s = Some q -> nth_error P q <> None) -> fpOk c' /\ (forall q, chFailing s' = Some q -> nth_error P q <> None).
Proof.
  induction k as [|k IH]; intros s c s' c' H Hc Hs; [discriminate|]. cbn [choiceLoop] in H. binv H. destruct x as [s1 c1]. apply choicePass_fp in E; auto. destruct E.
  destruct (chFound s1); [eapply IH; eauto|inversion H; subst; auto].
Qed.
End REC.
Lemma setFail_fp c o q : (forall x, q = Some x -> nth_error P x <> None) -> fpOk (setFail c o q).
Proof. intros H x Hx. simpl in Hx. auto. Qed.
Theorem parse_fp n : forall p c c', parse P kws n p c = Ok c' -> fpOk c -> fpOk c'.
Proof.
  induction n as [|n IH]; intros p c c' H Hc; [discriminate|]. cbn [parse] in H. destruct (nth_error P p) as [o|] eqn:Hp; [|discriminate].
  assert (Hp' : nth_error P p <> None) by congruence. destruct o as [nm i cnot chars ranges|nm id ct items ranges gs ac|nm id ct options gs].
  - unfold charParse in H. binv H. destruct x as [c1 tok]. assert (X : cFailingParser c1 = cFailingParser c) by (eapply token_fp; eauto).
    destruct (match tok with Some _ => _ | None => _ end); inversion H; subst; [eapply fp_same; [|exact Hc]; simpl; congruence|].
    simpl. destruct (Z.ltb _ _); [intros q Hq; discriminate|]. eapply fp_same; [|exact Hc]; simpl; congruence.
  - unfold seqParse in H. destruct (_ && _)%bool; [inversion H; subst; eapply fp_same; [|exact Hc]; auto|]. cbv zeta in H. set (c0 := if ac then c else _) in H.
    assert (H0 : fpOk c0) by (unfold c0; destruct ac; auto). binv H. eapply seqLoop_fp in E; eauto. destruct x as [to c1|c1]; [|inversion H; subst; auto].
    binv H. destruct x as [c2 b]. assert (H2 : fpOk c2) by (destruct (hasFlag ct CNoKeyword); [eapply isKeyword_fp; eauto|inversion E0; subst; auto]).
    destruct b; apply unmark_fp in H; (eapply fp_same; [apply H|]).
    + apply (fp_same (blame p ct c2)); [reflexivity|]. apply fp_blame; auto.
    + set (c3 := clearFail to _). apply (fp_same c3); [reflexivity|]. apply fp_clear. eapply fp_same; [|exact H2]; reflexivity.
  - unfold choiceParse in H. destruct (fromResults c id) as [c1|] eqn:Ef; [inversion H; subst; apply fromResults_fp in Ef; eapply fp_same; [apply Ef|auto]|].
    destruct (pending _ _ _); [inversion H; subst; eapply fp_same; [|exact Hc]; auto|]. cbv zeta in H. binv H. destruct x as [s c1].
    eapply choiceLoop_fp in E; eauto; [|discriminate]. destruct E as [E1 E2]. destruct (chMatch s).
    + binv H. destruct x as [c2 b]. assert (H2 : fpOk c2) by (destruct (hasFlag ct CNoKeyword); [eapply isKeyword_fp; eauto|inversion E; subst; auto]).
      destruct b; apply mapResults_fp in H; (eapply fp_same; [apply H|]).
      * apply (fp_same (blame p ct c2)); [reflexivity|]. apply fp_blame; auto.
      * simpl. match goal with |- fpOk (success ?x _) => apply (fp_same x); [reflexivity|] end.
        destruct (Z.ltb _ _); [apply setFail_fp; auto|]. destruct (Z.ltb _ _); apply setFail_fp; [discriminate|]. apply Hc.
    + apply mapResults_fp in H. eapply fp_same; [apply H|]. match goal with |- fpOk (fail (setResults ?x _) _) => apply (fp_same x); [reflexivity|] end.
      destruct (Z.ltb _ _); [|auto]. apply fp_blame; [auto|]. apply setFail_fp. auto.
Qed.
End FAILING.

(** ** what a successful parse of the root leaves *)
Definition failSafe (c : context) : Prop := cFailingParser c = None \/ (0 <= cFailOffset c)%Z.
Lemma clear_safe to c : failSafe (clearFail to c).
Proof. unfold clearFail, failSafe. destruct (Z.ltb_spec (cFailOffset c) (Z.of_nat to)); simpl; auto. right. lia. Qed.
Lemma seqLoop_safe rec p id ct items ranges ac from k : forall to ii cnt c c', seqLoop rec k p id ct items ranges ac from to ii cnt c = Ok (SReturn c') -> cMatchLast c' = true -> failSafe c'.
Proof.
  induction k as [|k IH]; intros to ii cnt c c' H Hm; [discriminate|]. cbn [seqLoop] in H. destruct (nth_error items ii) as [item|]; [|discriminate].
  binv H. destruct (nth_error ranges ii) as [[mn mx]|]; [|discriminate]. destruct (negb (cMatchLast x)).
  - destruct (Z.leb _ _); [eapply IH; eauto|]. cbv zeta in H. destruct (fromResults (setOffset x from) id) as [c1|] eqn:Ef.
    + binv H. inversion H; subst. apply unmark_fp in E0. destruct E0 as (E1 & E2 & E3). pose proof (clear_safe to c1) as X. unfold failSafe in *. rewrite E1, E2. auto.
    + binv H. inversion H; subst. apply unmark_fp in E0. destruct E0 as (_ & _ & E3). rewrite E3 in Hm. discriminate.
  - cbv zeta in H. destruct (_ || _)%bool; eapply IH; eauto.
Qed.
Lemma root_safe P kws n root ro input e c : nth_error P root = Some ro -> nonChar ro -> parse P kws n root (newContext input e) = Ok c -> cMatchLast c = true -> failSafe c.
Proof.
  intros Hr Hn H Hm. destruct n as [|n]; [discriminate|]. cbn [parse] in H. rewrite Hr in H. destruct ro as [|nm id ct items ranges gs ac|nm id ct options gs]; [destruct Hn| |].
  - unfold seqParse in H. destruct (_ && _)%bool; [inversion H; subst; discriminate|]. cbv zeta in H. binv H. destruct x as [to c1|c1]; [|inversion H; subst; eapply seqLoop_safe; eauto].
    binv H. destruct x as [c2 b]. destruct b; apply unmark_fp in H; destruct H as (H1 & H2 & H3); [rewrite H3 in Hm; discriminate|].
    unfold failSafe. rewrite H1, H2. apply clear_safe.
  - unfold choiceParse in H. destruct (fromResults (newContext input e) id) as [c1|] eqn:Ef; [unfold fromResults in Ef; simpl in Ef; destruct id; discriminate|].
    destruct (pending _ _ _); [inversion H; subst; discriminate|]. cbv zeta in H. binv H. destruct x as [s c1]. destruct (chMatch s).
    + binv H. destruct x as [c2 b]. destruct b; apply mapResults_fp in H; destruct H as (H1 & H2 & H3); [rewrite H3 in Hm; discriminate|].
      unfold failSafe. rewrite H1, H2. simpl. destruct (Z.ltb_spec (Z.of_nat (chTo s)) (chFailOffset s)); simpl; [right; lia|]. destruct (Z.ltb_spec (-1) (Z.of_nat (chTo s))); simpl; auto; lia.
    + apply mapResults_fp in H. destruct H as (_ & _ & H3). rewrite H3 in Hm. discriminate.
Qed.
Lemma parseError_np P input e c p : cinv input e GT c -> failSafe c -> nth_error P p <> None -> exists err, parseError P c p = Ok err.
Proof.
  intros Hc Hs Hp. unfold parseError. destruct (nth_error P p) as [o|]; [|congruence].
  assert (X : exists x, findLine (cTokens c) (match cFailingParser c with Some _ => cFailOffset c | None => Z.of_nat (cConsumed c) end) = Ok x).
  { unfold findLine. pose proof (ci_fail _ _ _ _ Hc). pose proof (ci_cons _ _ _ _ Hc). unfold failSafe in Hs.
    match goal with |- exists x, (if (Z.ltb ?a _ || _)%bool then _ else _) = _ => assert (Ha : (0 <= a <= Z.of_nat (List.length (cTokens c)))%Z) end.
    { destruct (cFailingParser c); [destruct Hs; [discriminate|lia]|lia]. }
    rewrite (proj2 (Z.ltb_ge _ _)), (proj2 (Z.ltb_ge _ _)) by lia. simpl. eauto. }
  destruct X as [x ->]. cbn [bind]. eauto.
Qed.
Lemma finalize_np P input e c root : cinv input e GT c -> failSafe c -> fpOk P c -> nth_error P root <> None -> np (finalizeParse P c root).
Proof.
  intros Hc Hs Hf Hr. unfold finalizeParse. destruct (nth_error P root) as [o|] eqn:Er; [|congruence].
  assert (E1 : exists err, parseError P c (match cFailingParser c with Some p => p | None => root end) = Ok err).
  { eapply parseError_np; eauto. destruct (cFailingParser c) eqn:E; auto. congruence. }
  destruct E1 as [err E1]. destruct (longestResult _ _ _) as [| |]; try (rewrite E1; apply np_ok).
  destruct (to <? cReadOffset c); [rewrite E1; apply np_ok|]. destruct (read c) as [c1 ok] eqn:Ed.
  destruct (cEof c1); [apply np_ok|]. destruct (cReadErr c1); [apply np_ok|].
  pose proof (cinv_read _ _ _ _ _ Hc Ed) as Hc1. assert (Hs1 : failSafe c1).
  { pose proof (read_spec input e c (ci_r _ _ _ _ Hc)) as (_ & (_ & _ & _ & S1 & S2 & _) & _). rewrite Ed in S1, S2. simpl in S1, S2. unfold failSafe in *. rewrite S1, S2. auto. }
  destruct (parseError_np P input e c1 root Hc1 Hs1) as [err1 E2]; [congruence|]. rewrite E2. apply np_ok.
Qed.

Section RUN.
Variable P : pheap.
Variable kws : list addr.
Variable K : list (list rune).
Variable input : list rune.
Hypothesis Hids : uniqueIds P.
Hypothesis Hgens : gensOk P.
Hypothesis HK1 : forall w, In w K -> exists kw, In kw kws /\ literal P kw w.
Hypothesis HK2 : forall kw, In kw kws -> exists w, In w K /\ literal P kw w.
Hypothesis Hnk : nokwSequences P.
Hypothesis Hvalid : ~ In runeError input.
Hypothesis Hac : allCharsOk P.
Hypothesis Hkw : kwOk P kws.
Hypothesis Hwf : wfHeap P kws.
Variable root : addr.
Variable ro : pobj.
Hypothesis Hroot : nth_error P root = Some ro.
Hypothesis Hro : nonChar ro.

Theorem run_prefix t ns : Gives (heapGraph P) K input root 0 (Match t ns) -> t < List.length input ->
  exists fuel0 err, forall fuel, fuel0 <= fuel -> parseInput P kws root fuel input REof = Ok (Failed err).
Proof.
  intros He Hlt. set (f1 := parseFuel P input).
  pose proof (parse_terminates P kws input REof Hac Hkw root f1 (Nat.le_refl _)) as Hterm.
  assert (Hrl : root < List.length P) by (apply nth_error_Some; congruence).
  pose proof (parse_noPanic P kws input REof Hwf Hvalid f1 root Hrl) as Hnp.
  destruct (parse P kws f1 root (newContext input REof)) as [c|why|] eqn:Ep; [|exfalso; eapply Hnp; eauto|contradiction].
  destruct (root_ref P kws K input Hids Hgens HK1 HK2 Hnk Hvalid _ _ _ _ He Ep) as [Ht (A1 & A2 & A3)].
  pose proof (post_of P kws input REof _ _ _ _ (cinv_new input REof GT) Ep) as (Hcv & _).
  pose proof (root_safe _ _ _ _ _ _ _ _ Hroot Hro Ep A1) as Hs.
  assert (Hf : fpOk P c) by (eapply parse_fp; [exact Ep|intros q Hq; discriminate]).
  pose proof (finalize_np P input REof c root Hcv Hs Hf ltac:(congruence)) as Hfn.
  pose proof (finalize_noFuel P c root) as Hff.
  pose proof (tinv_noErr input Hvalid c Hcv) as Hre.
  destruct (finalizeParse P c root) as [[c1 [err|]]|w|] eqn:Ef; [|exfalso|exfalso; eapply Hfn; eauto|congruence].
  - exists f1, err. intros fuel Hle. unfold parseInput, parseInputPB. rewrite (parse_more P kws _ _ _ _ _ Hle Ep) by discriminate. cbn [bind]. rewrite Hre, Ef. reflexivity.
  - destruct (finalize_ok _ _ _ _ _ _ Hcv Hre Ef) as (ob & F1 & _ & _ & _ & F5 & _). rewrite Hroot in F1. inversion F1; subst ob.
    destruct (ti_2 _ _ _ _ (proj2 Ht) _ _ _ _ _ Hroot Hro F5 He) as (t' & ns' & E & Hle & _). inversion E; subst. lia.
Qed.
End RUN.

(** ** Parse of a text whose beginning the root definition takes *)
Theorem setup_prefix calls s' PL root name R1 input t ns : wsReady calls -> literalKeywords calls -> nokwOnSequences calls -> setup calls s' PL root name R1 ->
  ~ In runeError input -> Means calls input name 0 (Match t ns) -> t < List.length input ->
  exists f err, forall fuel, f <= fuel -> parseInput PL (sKeywords s') root fuel input REof = Ok (Failed err).
Proof.
  intros Hws Hkw Hnokw Su Hv Hm Ht. pose proof (su_ok _ _ _ _ _ _ Su) as A.
  apply (means_heap calls s' PL root name R1 Hws Su) in Hm.
  destruct (ao_nonChar _ _ _ _ _ A) as (o & Ho & Hn & En). destruct (ao_pwf _ _ _ _ _ A) as [W1 W2 W3 W4].
  pose proof (kws_in calls s' PL root name R1 Hkw Su) as [K1 K2].
  exact (run_prefix PL (sKeywords s') (keywordTexts calls) input (ao_ids _ _ _ _ _ A) (ao_gens _ _ _ _ _ A) K1 K2
    (setup_nokw calls s' PL root name R1 Hws Hnokw Su) Hv W1 W2 W3 root o Ho Hn t ns Hm Ht).
Qed.
Theorem u_prefix_error calls s s' name input t ns :
  usable calls s -> refersToDefs calls -> literalKeywords calls -> nokwOnSequences calls ->
  rootName calls = Some name -> Inits s s' None -> ~ In runeError input ->
  Means calls input name 0 (Match t ns) -> t < List.length input -> exists err, Parses s input REof s' (Failed err).
Proof.
  intros Hd Hr Hk Hn Hroot (f' & HI') Hv Hm Ht. pose proof (literal_ready _ Hr Hk) as Hws.
  destruct (proj2 Hd _ _ HI') as (PL & root & name1 & R1 & Su). pose proof (su_name _ _ _ _ _ _ Su) as E. rewrite Hroot in E. inversion E; subst name1.
  destruct (setup_prefix calls s' PL root name R1 input t ns Hws Hk Hn Su Hv Hm Ht) as (f & err & Hf).
  exists err, (f + f'). unfold Parse. assert (L : f' <= f + f') by lia. pose proof (Init_mono _ _ s L) as X. rewrite HI' in X. rewrite X by discriminate. cbn [bind].
  rewrite (su_root _ _ _ _ _ _ Su). rewrite (live_run _ _ _ _ (su_live _ _ _ _ _ _ Su)). rewrite (Hf (f + f') ltac:(lia)). reflexivity.
Qed.
Lemma means_end calls input n o t ns : Means calls input n o (Match t ns) -> o <= List.length input -> t <= List.length input.
Proof. intros [_ (k & E)] Ho. destruct (Nat.lt_ge_cases o t) as [L|L]; [|lia]. eapply eval_le; eauto. Qed.
Theorem u_prefix_safe calls s s' name input t ns :
  usable calls s -> refersToDefs calls -> literalKeywords calls -> nokwOnSequences calls ->
  rootName calls = Some name -> Inits s s' None -> ~ In runeError input ->
  Means calls input name 0 (Match t ns) -> ~ ParsePanics s input REof.
Proof.
  intros Hd Hr Hk Hn Hroot Hi Hv Hm. destruct (Nat.lt_ge_cases t (List.length input)) as [L|L].
  - destruct (u_prefix_error _ _ _ _ _ _ _ Hd Hr Hk Hn Hroot Hi Hv Hm L) as (err & HP). eapply Parses_noPanic; eauto.
  - pose proof (means_end _ _ _ _ _ _ Hm (Nat.le_0_l _)). assert (t = List.length input) by lia. subst t. eapply u_accepted_safe; eauto.
Qed.
Theorem prefix_safe calls s s' name input to ns :
  Defined calls s -> refersToDefs calls -> literalKeywords calls -> nokwOnSequences calls ->
  rootName calls = Some name -> Inits s s' None -> ~ In runeError input ->
  Means calls input name 0 (Match to ns) ->
  ~ ParsePanics s input REof /\ (to < List.length input -> exists err, Parses s input REof s' (Failed err)).
Proof.
  intros Hd Hr Hk Hn Hroot Hi Hv Hm. pose proof (defined_usable calls s Hd (literal_ready calls Hr Hk)) as Hu. split; [eapply u_prefix_safe; eauto|]. intros Hl. eapply u_prefix_error; eauto.
Qed.
