(** The offset of the error for a text whose beginning the root definition takes. *)
From Verif Require Import Base Utf8 IdSet Results Parser Build ListFacts ResultsFacts ReaderFacts ParseFacts
  FuelFacts TermFacts BuildFacts Lang Sound RunFacts ErrFacts NoPanic Syntax Restrict Grammar WsLang ApiSpec InitWalk InitRun InitOk SyntaxFacts InitCore InitSpec InitFuel Rep Live LangGen Api
  WsApi ApiFacts RefSpec RefFuel RefParse RefBuild RefRun RefTotal RefApi RefCheck RefSafe.

(** the failure that is kept is not before [t], nor is what was consumed *)
Definition tailed (t : nat) (c : context) : Prop := (cFailingParser c = None \/ (Z.of_nat t <= cFailOffset c)%Z) /\ t <= cConsumed c.
Lemma mapResults_cons f c c' : mapResults f c = Ok c' -> cConsumed c' = cConsumed c /\ cOffset c' = cOffset c.
Proof. unfold mapResults. intros H. binv H. inversion H; subst. auto. Qed.
Lemma unmark_cons ac from id c c' : unmarkUnless ac from id c = Ok c' -> cConsumed c' = cConsumed c /\ cOffset c' = cOffset c.
Proof. unfold unmarkUnless. destruct ac; intros H; [inversion H; subst; auto|]. apply mapResults_cons in H. auto. Qed.
Lemma success_cons c t : t <= cConsumed (success c t).
Proof. simpl. destruct (Nat.ltb_spec (cConsumed c) t); lia. Qed.
Lemma clear_tail to c : cFailingParser (clearFail to c) = None \/ (Z.of_nat to <= cFailOffset (clearFail to c))%Z.
Proof. unfold clearFail. destruct (Z.ltb_spec (cFailOffset c) (Z.of_nat to)); simpl; auto. Qed.

Section RUN.
Variable P : pheap.
Variable kws : list addr.
Variable K : list (list rune).
Variable input : list rune.
Hypothesis Hids : uniqueIds P.
Hypothesis Hgens : gensOk P.
Hypothesis HK1 : forall w, In w K -> exists kw, In kw kws /\ literal P kw w.
Hypothesis HK2 : forall kw, In kw kws -> exists w, In w K /\ literal P kw w.
Hypothesis Hnk : nokwSequences P.
Hypothesis Hvalid : ~ In runeError input.
Notation ev := (eval (heapGraph P) K input).

Lemma ev_least n a o : ev n a o <> Unfinished -> exists k, ev k a o = Unfinished /\ ev (S k) a o = ev n a o.
Proof.
  induction n as [|n IH]; intros H; [exfalso; apply H; reflexivity|].
  destruct (ev n a o) eqn:E; [exists n; auto| |]; (destruct IH as (k & E1 & E2); [discriminate|]; exists k; split; auto; rewrite E2; symmetry; rewrite <- E; apply eval_mono1; rewrite E; discriminate).
Qed.

Lemma root_tail n root ro t ns c : nth_error P root = Some ro -> nonChar ro -> Gives (heapGraph P) K input root 0 (Match t ns) ->
  parse P kws n root (newContext input REof) = Ok c -> tailed t c.
Proof.
  intros Hr Hn He H. destruct (root_ref P kws K input Hids Hgens HK1 HK2 Hnk Hvalid _ _ _ _ He H) as [Ht (A1 & A2 & A3)].
  destruct n as [|n]; [discriminate|]. cbn [parse] in H. rewrite Hr in H. destruct ro as [|nm id ct items ranges gs ac|nm id ct options gs]; [destruct Hn| |].
  - unfold seqParse in H. destruct (_ && _)%bool; [inversion H; subst; discriminate|]. cbv zeta in H. set (c0 := if ac then _ else _) in H. binv H.
    assert (X : exists c1, x = SLoop t c1).
    { destruct He as [_ (k0 & He)]. destruct (ev_least k0 root 0) as (k & E1 & E2); [rewrite He; discriminate|]. rewrite He in E2.
      rewrite (eval_seq P K input k root _ _ _ _ _ _ _ 0 Hr) in E2.
      set (e := evalItems (ev k) k (objItems items ranges) 0 0) in *.
      pose proof (tinv_new P K input) as T0.
      assert (Hpd : pend P K input k (newContext input REof)).
      { intros b ob o _ _ Hc. unfold pcount in Hc. simpl in Hc. destruct (nodeID ob); simpl in Hc; lia. }
      pose proof E as Es. apply (seqLoop_ref P kws K input Hids k n (fun p c c' => parse_ref P kws K input Hids Hgens HK1 HK2 Hnk Hvalid k n p c c') root nm id ct items ranges gs ac _ n Hr k) in Es; auto.
      - change (skipn 0 (objItems items ranges)) with (objItems items ranges) in Es. simpl in Es. fold e in Es. destruct e as [| |t1 ns1]; [discriminate|discriminate|].
        destruct Es as (c1 & -> & _). destruct (_ && _)%bool; [discriminate|]. inversion E2; subst. eauto.
      - unfold c0. destruct ac; auto. split; [apply cinv_mark; apply T0|]. simpl. eapply tres_ext; [| | |exact (proj2 T0)].
        + apply stored_ext. apply mark_match.
        + intros. rewrite (noMatchHas_ext _ _ (proj2 (mark_match _ _ _))). auto.
        + intros a nm' i cm ops g o Ha. rewrite pcount_mark. simpl. intros. lia.
      - unfold c0. destruct ac; auto.
      - unfold c0. destruct ac; auto. apply (pend_mark P K input Hids k (newContext input REof) root _ Hr I E1 Hpd).
      - unfold c0. destruct ac; auto.
      - change (skipn 0 (objItems items ranges)) with (objItems items ranges). simpl. fold e. intros Ee. rewrite Ee in E2. discriminate. }
    destruct X as (c1 & ->). binv H. destruct x as [c2 b]. destruct b; pose proof (unmark_cons _ _ _ _ _ H) as (H4 & _); apply unmark_fp in H; destruct H as (H1 & H2 & H3); [rewrite H3 in A1; discriminate|].
    unfold tailed. rewrite H1, H2, H4. split; [apply clear_tail|apply success_cons].
  - unfold choiceParse in H. destruct (fromResults (newContext input REof) id) as [c1|] eqn:Ef; [unfold fromResults in Ef; simpl in Ef; destruct id; discriminate|].
    destruct (pending _ _ _); [inversion H; subst; discriminate|]. cbv zeta in H. binv H. destruct x as [s c1]. destruct (chMatch s).
    + binv H. destruct x as [c2 b]. destruct b; pose proof (mapResults_cons _ _ _ H) as (H4 & H5); apply mapResults_fp in H; destruct H as (H1 & H2 & H3); [rewrite H3 in A1; discriminate|].
      rewrite A2 in H5. cbn [success cOffset] in H5. rewrite H5. unfold tailed. rewrite H1, H2, H4. split; [|apply success_cons].
      simpl. destruct (Z.ltb_spec (Z.of_nat (chTo s)) (chFailOffset s)); simpl; [right; lia|]. destruct (Z.ltb_spec (-1) (Z.of_nat (chTo s))); simpl; auto; lia.
    + apply mapResults_fp in H. destruct H as (_ & _ & H3). rewrite H3 in A1. discriminate.
Qed.
Lemma parseError_tail t c p off line col def : tailed t c -> parseError P c p = Ok (ErrParse off line col def) -> t <= off.
Proof.
  intros [H1 H2] H. unfold parseError in H. destruct (nth_error P p); [|discriminate]. binv H. injection H as <- _ _ _. destruct (cFailingParser c); [destruct H1 as [H1|H1]; [discriminate|]|]; lia.
Qed.
Lemma read_tail t c c1 b : tailed t c -> read c = (c1, b) -> tailed t c1.
Proof.
  intros H E. unfold read in E. destruct (cEof c); [inversion E; subst; auto|]. destruct (cReadErr c); [inversion E; subst; auto|].
  destruct (cInput c); [destruct (cEnd c); inversion E; subst; auto|]. destruct (Z.eqb _ _); inversion E; subst; auto.
Qed.
Lemma read_err c c1 b off line col def : cReadErr c = None -> read c = (c1, b) -> cReadErr c1 <> Some (ErrParse off line col def).
Proof.
  intros H E. unfold read in E. rewrite H in E. destruct (cEof c); [inversion E; subst; congruence|].
  destruct (cInput c); [destruct (cEnd c); inversion E; subst; simpl; congruence|]. destruct (Z.eqb _ _); inversion E; subst; simpl; congruence.
Qed.
Lemma finalize_tail t c root c1 off line col def : cReadErr c = None ->
  tailed t c -> finalizeParse P c root = Ok (c1, Some (ErrParse off line col def)) -> t <= off.
Proof.
  intros Hre Ht H. unfold finalizeParse in H. destruct (nth_error P root); [|discriminate].
  destruct (longestResult _ _ _); try (binv H; inversion H; subst; eapply parseError_tail; eauto).
  destruct (to <? cReadOffset c); [binv H; inversion H; subst; eapply parseError_tail; eauto|]. destruct (read c) as [c2 ok] eqn:Ed.
  destruct (cEof c2); [discriminate|]. destruct (cReadErr c2) eqn:Ere; [inversion H; subst; exfalso; eapply read_err; eauto|].
  binv H; inversion H; subst. eapply parseError_tail; [eapply read_tail; eauto|exact E].
Qed.
Theorem run_tail fuel root ro t ns off line col def : nth_error P root = Some ro -> nonChar ro -> Gives (heapGraph P) K input root 0 (Match t ns) ->
  parseInput P kws root fuel input REof = Ok (Failed (ErrParse off line col def)) -> t <= off.
Proof.
  intros Hr Hn He H. unfold parseInput, parseInputPB in H. binv H. pose proof (root_tail _ _ _ _ _ _ Hr Hn He E) as Ht.
  pose proof (post_of P kws input REof _ _ _ _ (cinv_new input REof GT) E) as (Hcv & _). pose proof (tinv_noErr input Hvalid x Hcv) as Hre. rewrite Hre in H.
  binv H. destruct x0 as [c1 [err|]]; [inversion H; subst; eapply finalize_tail; eauto|]. exfalso. binv H. destruct x0 as [[[|? ?] ?] ?]; discriminate.
Qed.
End RUN.

Theorem u_error_after calls s s' name input t ns off line col def :
  usable calls s -> refersToDefs calls -> literalKeywords calls -> nokwOnSequences calls ->
  rootName calls = Some name -> ~ In runeError input -> Means calls input name 0 (Match t ns) ->
  Parses s input REof s' (Failed (ErrParse off line col def)) -> t <= off.
Proof.
  intros Hd Hr Hkw Hnokw Hroot Hv Hm HP. apply Parses_run in HP. destruct HP as (fuel & [err|] & HI & H).
  { injection H as <-. apply Init_err in HI. contradiction. }
  destruct H as (root & Er & H). pose proof (literal_ready _ Hr Hkw) as Hws.
  destruct (proj2 Hd _ _ HI) as (PL & root1 & name1 & R1 & Su). pose proof (su_name _ _ _ _ _ _ Su) as E. rewrite Hroot in E. injection E as <-.
  pose proof (su_root _ _ _ _ _ _ Su) as E. rewrite Er in E. injection E as <-. rewrite (live_run _ _ _ _ (su_live _ _ _ _ _ _ Su)) in H.
  pose proof (su_ok _ _ _ _ _ _ Su) as A. apply (means_heap calls s' PL root name R1 Hws Su) in Hm.
  destruct (ao_nonChar _ _ _ _ _ A) as (o & Ho & Hn & En). pose proof (kws_in calls s' PL root name R1 Hkw Su) as [K1 K2].
  exact (run_tail PL (sKeywords s') (keywordTexts calls) input (ao_ids _ _ _ _ _ A) (ao_gens _ _ _ _ _ A) K1 K2
    (setup_nokw calls s' PL root name R1 Hws Hnokw Su) Hv fuel root o t ns off line col def Ho Hn Hm H).
Qed.
Theorem error_after calls s s' name input t ns off line col def :
  Defined calls s -> refersToDefs calls -> literalKeywords calls -> nokwOnSequences calls ->
  rootName calls = Some name -> ~ In runeError input -> Means calls input name 0 (Match t ns) ->
  Parses s input REof s' (Failed (ErrParse off line col def)) -> t <= off.
Proof. intros Hd Hr Hk. apply u_error_after; auto. apply defined_usable; auto. apply literal_ready; auto. Qed.
