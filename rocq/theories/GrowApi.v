(** Parse against the reference semantics with definitions that start with themselves: the statements of PropGrow.v. *)
From Verif Require Import Base Utf8 IdSet Results Parser Build Syntax ListFacts ResultsFacts ParseFacts TermFacts NoPanic Lang Sound RunFacts Restrict Grammar WsLang ApiSpec InitWalk InitRun InitOk SyntaxFacts InitCore InitSpec InitFuel Rep Live LangGen Api WsObjs WsGen WsShape WsNames WsDistinct Utf8Facts WsApi WsIds ApiFacts FuelFacts RefSpec RefFuel RefParse RefBuild RefRun RefSim RefApi RefTotal RefCheck RefSafe LeftSpec GrowSpec GrowFuel GrowTotal GrowParse GrowBuild GrowRun GrowSim.

(** a match of a labelled choice with extensions is one node *)
Section ONE.
Context {A : Type}.
Variable G : A -> option (gobj A).
Variables (rec : A -> nat -> outcome) (k : nat) (nm : string) (from : nat).
Lemma round_one xs : forall t ns t' ns', (exists below, ns = [Node nm from t below]) -> evalRound G rec k (Some nm) from xs t ns = Match t' ns' -> exists below, ns' = [Node nm from t' below].
Proof.
  induction xs as [|x xs IH]; intros t ns t' ns' Hns H; cbn [evalRound] in H; [inversion H; subst; auto|].
  destruct (G x) as [[| l nk [|y rest]|]|]; try discriminate. destruct (evalItems rec k rest 0 t) as [| |t1 ns1]; try discriminate; eauto.
  destruct (t <? t1); [|discriminate]. eapply IH; [|exact H]. simpl. eauto.
Qed.
Lemma grow_one j : forall xs t ns t' ns', (exists below, ns = [Node nm from t below]) -> evalGrow G rec k (Some nm) from j xs t ns = Match t' ns' -> exists below, ns' = [Node nm from t' below].
Proof.
  induction j as [|j IH]; intros xs t ns t' ns' Hns H; [discriminate|]. cbn [evalGrow] in H. destruct (evalRound G rec k (Some nm) from xs t ns) as [| |t1 ns1] eqn:E; try discriminate.
  destruct (t <? t1); [|inversion H; subst; auto]. eapply IH; [|exact H]. eapply round_one; eauto.
Qed.
End ONE.

Section RUN.
Variable P : pheap.
Variable kws : list addr.
Variable K : list (list rune).
Variable input : list rune.
Hypothesis Hids : uniqueIds P.
Hypothesis Hgens : gensOk P.
Hypothesis HK1 : forall w, In w K -> exists kw, In kw kws /\ literal P kw w.
Hypothesis HK2 : forall kw, In kw kws -> exists w, In w K /\ literal P kw w.
Hypothesis Hnk : nokwSequences P.
Hypothesis Hvalid : ~ In runeError input.
Hypothesis Hac : allCharsOk P.
Hypothesis Hkw : kwOk P kws.
Hypothesis Hwf : wfHeap P kws.
Variable root : addr.
Variable ro : pobj.
Hypothesis Hroot : nth_error P root = Some ro.
Hypothesis Hro : nonChar ro.

Theorem run_prefixL t ns : GivesL Nat.eqb (heapGraph P) K input root 0 (Match t ns) -> t < List.length input ->
  exists fuel0 err, forall fuel, fuel0 <= fuel -> parseInput P kws root fuel input REof = Ok (Failed err).
Proof.
  intros He Hlt. set (f1 := parseFuel P input).
  pose proof (parse_terminates P kws input REof Hac Hkw root f1 (Nat.le_refl _)) as Hterm.
  assert (Hrl : root < List.length P) by (apply nth_error_Some; congruence).
  pose proof (parse_noPanic P kws input REof Hwf Hvalid f1 root Hrl) as Hnp.
  destruct (parse P kws f1 root (newContext input REof)) as [c|why|] eqn:Ep; [|exfalso; eapply Hnp; eauto|contradiction].
  destruct (GrowParse.root_ref P kws K input Hids Hgens HK1 HK2 Hnk Hvalid Hac _ _ _ _ He Ep) as [Ht (A1 & A2 & A3)].
  pose proof (post_of P kws input REof _ _ _ _ (cinv_new input REof GT) Ep) as (Hcv & _).
  pose proof (root_safe _ _ _ _ _ _ _ _ Hroot Hro Ep A1) as Hs.
  assert (Hf : fpOk P c) by (eapply parse_fp; [exact Ep|intros q Hq; discriminate]).
  pose proof (finalize_np P input REof c root Hcv Hs Hf ltac:(congruence)) as Hfn.
  pose proof (finalize_noFuel P c root) as Hff.
  pose proof (tinv_noErr input Hvalid c Hcv) as Hre.
  destruct (finalizeParse P c root) as [[c1 [err|]]|w|] eqn:Ef; [|exfalso|exfalso; eapply Hfn; eauto|congruence].
  - exists f1, err. intros fuel Hle. unfold parseInput, parseInputPB. rewrite (parse_more P kws _ _ _ _ _ Hle Ep) by discriminate. cbn [bind]. rewrite Hre, Ef. reflexivity.
  - destruct (finalize_ok _ _ _ _ _ _ Hcv Hre Ef) as (ob & F1 & _ & _ & _ & F5 & _). rewrite Hroot in F1. inversion F1; subst ob.
    destruct (GrowParse.ti_2 _ _ _ _ (proj2 Ht) _ _ _ _ _ Hroot Hro F5 He) as (t' & ns' & E & Hle & _). inversion E; subst. lia.
Qed.
End RUN.

Section MEANS.
Variables (calls : list defcall) (s' : syntax) (PL : pheap) (root : addr) (name : string) (R1 : string -> option rule).
Hypothesis Hnd : NoDup (map fst (flat_map callRules calls)).
Hypothesis Hws : wsReady calls.
Hypothesis Hproper : hasWhitespaceDef calls -> properNames calls.
Hypothesis Hkw : literalKeywords calls.
Hypothesis Hrefs : refersToDefs calls.
Hypothesis Hnokw : nokwOnSequences calls.
Hypothesis Su : setup calls s' PL root name R1.
Let A := su_ok _ _ _ _ _ _ Su.
Let Hmh := meansL_heap calls s' PL root name R1 Hws Hproper Su.
Let Hkws := kws_in calls s' PL root name R1 Hkw Su.
Let Hnk := setup_nokw calls s' PL root name R1 Hws Hnokw Su.
Let Hap := setup_apart calls s' PL root name R1 Hnd Hws Hrefs Su.

Lemma root_labelledL input t ns : GivesL Nat.eqb (heapGraph PL) (keywordTexts calls) input root 0 (Match t ns) -> exists below, ns = [Node name 0 t below].
Proof.
  intros [_ (n & E)]. destruct n as [|n]; [discriminate|]. cbn [evalL] in E. destruct (ao_nonChar _ _ _ _ _ A) as (o & Ho & Hn & En).
  pose proof (ao_visible _ _ _ _ _ A _ Ho) as Hv.
  assert (Eg : heapGraph PL root = match o with PChar _ _ cn ch rs => Some (GChar cn ch rs) | PSeq _ _ ct items ranges _ _ => Some (GSeq (Some name) (hasFlag ct CNoKeyword) (combine items (map toBounds ranges))) | PChoice _ _ ct options _ => Some (GChoice (Some name) options) end).
  { unfold heapGraph. rewrite Ho. destruct o; [destruct Hn| |]; simpl in Hv, En; subst; unfold heapLabel; rewrite Hv; reflexivity. }
  rewrite Eg in E. destruct o as [|nm i ct items ranges gs ac|nm i ct options gs]; [destruct Hn| |].
  - destruct (extending _ _ _); [discriminate|]. destruct (evalItems _ _ _ _ _) as [| |t1 ns1]; try discriminate. destruct (_ && _); [discriminate|]. simpl in E. inversion E; subst. eauto.
  - destruct (extensionsOf _ _ _ _) as [|x xs].
    + destruct (evalOptions _ _ _ _) as [| |t1 ns1]; try discriminate. simpl in E. inversion E; subst. eauto.
    + destruct (inBlocks _ _ _ _); [|discriminate]. destruct (evalOptions _ _ _ _) as [| |t1 ns1]; try discriminate. destruct (0 <? t1); [|discriminate].
      eapply grow_one; [|exact E]. simpl. eauto.
Qed.
Theorem setup_acceptL input ns : ~ In runeError input -> MeansL calls input name 0 (Match (List.length input) ns) ->
  exists t fuel0, ns = [t] /\ forall fuel, fuel0 <= fuel -> parseInput PL (sKeywords s') root fuel input REof = Ok (Tree t input).
Proof.
  intros Hv Hm. apply Hmh in Hm. destruct (root_labelledL _ _ _ Hm) as (below & ->).
  destruct (ao_nonChar _ _ _ _ _ A) as (o & Ho & Hn & En). destruct (ao_pwf _ _ _ _ _ A) as [W1 W2 W3 W4].
  destruct (GrowRun.run_accept PL (sKeywords s') (keywordTexts calls) input (ao_ids _ _ _ _ _ A) (ao_gens _ _ _ _ _ A) (proj1 Hkws) (proj2 Hkws) Hnk Hv W1 W2 W3 Hap root o Ho Hn _ Hm) as (f & Hf).
  eexists _, f. split; [reflexivity|]. exact Hf.
Qed.
Theorem setup_onlyL input r fuel t toks : ~ In runeError input -> MeansL calls input name 0 r ->
  parseInput PL (sKeywords s') root fuel input REof = Ok (Tree t toks) -> r = Match (List.length input) [t] /\ toks = input.
Proof.
  intros Hv Hm Hr. pose proof Hm as Hm0. apply Hmh in Hm.
  destruct (ao_nonChar _ _ _ _ _ A) as (o & Ho & Hn & En). destruct (ao_pwf _ _ _ _ _ A) as [W1 W2 W3 W4].
  destruct (GrowRun.run_only PL (sKeywords s') (keywordTexts calls) input (ao_ids _ _ _ _ _ A) (ao_gens _ _ _ _ _ A) (proj1 Hkws) (proj2 Hkws) Hnk Hv W1 root o Ho Hn r fuel t toks Hm Hr) as (ns & ->).
  destruct (setup_acceptL input ns Hv Hm0) as (t1 & f & -> & Hf).
  pose proof (Hf (f + fuel) ltac:(lia)) as H1. assert (H2 : parseInput PL (sKeywords s') root (f + fuel) input REof = Ok (Tree t toks)).
  { assert (Hle : fuel <= f + fuel) by lia. pose proof (FuelFacts.parseInput_mono PL (sKeywords s') root fuel (f + fuel) input REof Hle) as X. rewrite Hr in X. apply X. discriminate. }
  rewrite H2 in H1. inversion H1; subst. auto.
Qed.
Theorem setup_prefixL input t ns : ~ In runeError input -> MeansL calls input name 0 (Match t ns) -> t < List.length input ->
  exists f err, forall fuel, f <= fuel -> parseInput PL (sKeywords s') root fuel input REof = Ok (Failed err).
Proof.
  intros Hv Hm Ht. apply Hmh in Hm.
  destruct (ao_nonChar _ _ _ _ _ A) as (o & Ho & Hn & En). destruct (ao_pwf _ _ _ _ _ A) as [W1 W2 W3 W4].
  exact (run_prefixL PL (sKeywords s') (keywordTexts calls) input (ao_ids _ _ _ _ _ A) (ao_gens _ _ _ _ _ A) (proj1 Hkws) (proj2 Hkws) Hnk Hv W1 W2 W3 root o Ho Hn t ns Hm Ht).
Qed.
End MEANS.

(** ** Parse *)
Section PARSE.
Variables (calls : list defcall) (s s' : syntax) (name : string) (input : list rune) (r : outcome).
Hypothesis Hdef : usable calls s.
Hypothesis Hproper : hasWhitespaceDef calls -> properNames calls.
Hypothesis Hkw : literalKeywords calls.
Hypothesis Hrefs : refersToDefs calls.
Hypothesis Hnokw : nokwOnSequences calls.
Hypothesis Hinit : Inits s s' None.
Hypothesis Hroot : rootName calls = Some name.
Hypothesis Hvalid : ~ In runeError input.
Hypothesis Hm : MeansL calls input name 0 r.
Let Hws := literal_ready calls Hrefs Hkw.

Theorem parse_meansL s2 t toks : Parses s input REof s2 (Tree t toks) <-> s2 = s' /\ toks = input /\ r = Match (List.length input) [t].
Proof.
  split.
  - intros HP. destruct (Parses_tree _ _ _ _ _ _ _ Hdef HP) as (fuel & PL & root & name1 & R1 & Su & Hr).
    pose proof (su_name _ _ _ _ _ _ Su) as E. rewrite Hroot in E. inversion E; subst name1.
    destruct (setup_onlyL calls s2 PL root name R1 (proj1 Hdef) Hws Hproper Hkw Hrefs Hnokw Su input r fuel t toks Hvalid Hm Hr) as [H1 H2]. split; auto.
    apply Parses_run in HP. destruct HP as (f & [err|] & HI & H); [discriminate|]. destruct Hinit as (f' & HI').
    destruct (Nat.le_ge_cases f f') as [L|L].
    + pose proof (Init_mono _ _ s L) as X. rewrite HI in X. specialize (X ltac:(discriminate)). congruence.
    + pose proof (Init_mono _ _ s L) as X. rewrite HI' in X. specialize (X ltac:(discriminate)). congruence.
  - intros (-> & -> & Er). pose proof Hm as Hm'. rewrite Er in Hm'. destruct Hinit as (f' & HI').
    destruct (proj2 Hdef _ _ HI') as (PL & root & name1 & R1 & Su). pose proof (su_name _ _ _ _ _ _ Su) as E. rewrite Hroot in E. inversion E; subst name1.
    destruct (setup_acceptL calls s' PL root name R1 (proj1 Hdef) Hws Hproper Hkw Hrefs Hnokw Su input [t] Hvalid Hm') as (t1 & f & Et & Hf). inversion Et; subst t1.
    exists (f + f'). unfold Parse. assert (L : f' <= f + f') by lia. pose proof (Init_mono _ _ s L) as X. rewrite HI' in X. rewrite X by discriminate. cbn [bind].
    rewrite (su_root _ _ _ _ _ _ Su). rewrite (live_run _ _ _ _ (su_live _ _ _ _ _ _ Su)). rewrite (Hf (f + f') ltac:(lia)). reflexivity.
Qed.
Theorem meansL_nested s2 t toks : Parses s input REof s2 (Tree t toks) -> wellNested t.
Proof.
  intros HP. apply parse_meansL in HP. destruct HP as (_ & _ & E). destruct Hm as [_ (n & En)]. rewrite E in En. apply evalL_nested in En. destruct En as [_ En]. inversion En; auto.
Qed.
Theorem meansL_single ns : r = Match (List.length input) ns -> exists t, ns = [t].
Proof.
  intros Er. pose proof Hm as Hm'. rewrite Er in Hm'. destruct Hinit as (f' & HI').
  destruct (proj2 Hdef _ _ HI') as (PL & root & name1 & R1 & Su). pose proof (su_name _ _ _ _ _ _ Su) as E. rewrite Hroot in E. inversion E; subst name1.
  destruct (setup_acceptL calls s' PL root name R1 (proj1 Hdef) Hws Hproper Hkw Hrefs Hnokw Su input ns Hvalid Hm') as (t1 & f & Et & Hf). eauto.
Qed.
Theorem meansL_prefix t ns : r = Match t ns -> t < List.length input -> exists err, Parses s input REof s' (Failed err).
Proof.
  intros Er Ht. pose proof Hm as Hm'. rewrite Er in Hm'. destruct Hinit as (f' & HI').
  destruct (proj2 Hdef _ _ HI') as (PL & root & name1 & R1 & Su). pose proof (su_name _ _ _ _ _ _ Su) as E. rewrite Hroot in E. inversion E; subst name1.
  destruct (setup_prefixL calls s' PL root name R1 Hws Hproper Hkw Hnokw Su input t ns Hvalid Hm' Ht) as (f & err & Hf).
  exists err, (f + f'). unfold Parse. assert (L : f' <= f + f') by lia. pose proof (Init_mono _ _ s L) as X. rewrite HI' in X. rewrite X by discriminate. cbn [bind].
  rewrite (su_root _ _ _ _ _ _ Su). rewrite (live_run _ _ _ _ (su_live _ _ _ _ _ _ Su)). rewrite (Hf (f + f') ltac:(lia)). reflexivity.
Qed.
Theorem meansL_safe t ns : r = Match t ns -> ~ ParsePanics s input REof.
Proof.
  intros Er. destruct (Nat.lt_ge_cases t (List.length input)) as [L|L].
  - destruct (meansL_prefix _ _ Er L) as (err & HP). eapply Parses_noPanic; eauto.
  - assert (t = List.length input).
    { destruct Hm as [_ (n & En)]. rewrite Er in En. destruct (Nat.lt_ge_cases 0 t) as [L'|L']; [|lia]. pose proof (evalL_le _ _ _ _ _ _ _ _ _ En L'). lia. }
    subst t. destruct (meansL_single _ Er) as (n & ->). eapply Parses_noPanic. apply parse_meansL. eauto.
Qed.
End PARSE.

(** ** one outcome *)
Theorem meansL_total calls input n o : growthGrounded calls n ->
  exists r, MeansL calls input n o r /\ forall r', MeansL calls input n o r' -> r' = r.
Proof.
  intros (Hx & E & rank & HE & Hg).
  destruct (evalL_total keyEqb (graphOf calls) (keywordTexts calls) input E rank HE (reaches (graphOf calls) (KDef n)) Hg (re_next (graphOf calls) (KDef n))
    (List.length input - o) o (Nat.le_refl _) (rank (KDef n)) (KDef n) (Nat.le_refl _) Hx (re_start _ _)) as (m & Hm).
  exists (evalL keyEqb (graphOf calls) (keywordTexts calls) input m (KDef n) o). split; [split; eauto|]. intros r' Hr'. eapply GivesL_fun; [exact Hr'|]. split; eauto.
Qed.

Lemma defined_proper calls s : Defined calls s -> properNames calls.
Proof.
  intros Hd. apply defineAll_raw in Hd. destruct Hd as [_ Hv]. split.
  - intros d Hin. exists [callName d]. exists (callName d), []. split; auto. split; auto. split; [|constructor]. apply valid_colonFree; auto.
  - left. intros n (d & Hin & <-). apply valid_colonFree; auto.
Qed.

(** ** definition calls *)
Section DEFINED.
Variables (calls : list defcall) (s s' : syntax) (name : string) (input : list rune).
Hypothesis Hd : Defined calls s.
Hypothesis Hr : refersToDefs calls.
Hypothesis Hk : literalKeywords calls.
Hypothesis Hn : nokwOnSequences calls.
Hypothesis Hroot : rootName calls = Some name.
Hypothesis Hv : ~ In runeError input.
Let Hu := defined_usable calls s Hd (literal_ready calls Hr Hk).
Let Hp : hasWhitespaceDef calls -> properNames calls := fun _ => defined_proper calls s Hd.

Theorem grow_outcome r : Inits s s' None -> MeansL calls input name 0 r ->
  forall s2 t toks, Parses s input REof s2 (Tree t toks) <-> s2 = s' /\ toks = input /\ r = Match (List.length input) [t].
Proof. intros Hi Hm. exact (parse_meansL calls s s' name input r Hu Hp Hk Hr Hn Hi Hroot Hv Hm). Qed.
Theorem grow_prefix t ns : Inits s s' None -> MeansL calls input name 0 (Match t ns) ->
  ~ ParsePanics s input REof /\ (t < List.length input -> exists err, Parses s input REof s' (Failed err)).
Proof.
  intros Hi Hm. split.
  - exact (meansL_safe calls s s' name input _ Hu Hp Hk Hr Hn Hi Hroot Hv Hm t ns eq_refl).
  - exact (meansL_prefix calls s s' name input _ Hu Hp Hk Hr Hn Hi Hroot Hv Hm t ns eq_refl).
Qed.
Hypothesis Hg : growthGrounded calls name.
Theorem grow_one_outcome : Inits s s' None ->
  exists r, MeansL calls input name 0 r /\ (forall r', MeansL calls input name 0 r' -> r' = r) /\
    forall s2 t toks, Parses s input REof s2 (Tree t toks) <-> s2 = s' /\ toks = input /\ r = Match (List.length input) [t].
Proof.
  intros Hi. destruct (meansL_total calls input name 0 Hg) as (r & Hm & H1).
  exists r. split; auto. split; auto. apply grow_outcome; auto.
Qed.
Theorem grow_accepts : Inits s s' None ->
  ((exists t, Parses s input REof s' (Tree t input)) <-> (exists ns, MeansL calls input name 0 (Match (List.length input) ns))).
Proof.
  intros Hi. destruct (grow_one_outcome Hi) as (r & Hm & H1 & H2). split.
  - intros (t & HP). apply H2 in HP. destruct HP as (_ & _ & ->). eauto.
  - intros (ns & Hm'). pose proof (H1 _ Hm') as Er. destruct (meansL_single calls s s' name input _ Hu Hp Hk Hr Hn Hi Hroot Hv Hm' ns eq_refl) as (t & ->). exists t. apply H2. auto.
Qed.
Theorem grow_nested t toks : Parses s input REof s' (Tree t toks) -> wellNested t.
Proof.
  intros HP. pose proof (Parses_Inits _ _ _ _ _ _ HP) as Hi. destruct (grow_one_outcome Hi) as (r & Hm & _).
  exact (meansL_nested calls s s' name input r Hu Hp Hk Hr Hn Hi Hroot Hv Hm s' t toks HP).
Qed.
End DEFINED.
