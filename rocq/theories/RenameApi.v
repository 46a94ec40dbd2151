(** Defining, Init and Parse with other names. *)
From Verif Require Import Base Utf8 IdSet Results Parser Build Syntax Define ListFacts SyntaxFacts ReaderFacts ParseFacts Sound RunFacts ErrFacts InitWalk InitRun InitCore InitSpec Grammar Lang Rep Api ApiSpec DefSpec WsNames WsRefs WsApi ApiFacts RefApi RefFacts RefCheck BlameApi HideRun HideInit HideApi RenameSpec RenameRun RenameNames RenameInit.

(** ** two renamings that agree on the names of the nodes *)
Section SAME.
Variables fa fb : string -> string.
Variable P : pheap.
Definition makesNode (o : pobj) : bool :=
  match o with PChar _ _ _ _ _ => false | PSeq _ _ ct _ _ _ _ => negb (hasFlag ct CAlias) | PChoice _ _ ct _ _ => negb (hasFlag ct CAlias) end.
Hypothesis same : forall a o, nth_error P a = Some o -> makesNode o = true -> fa (nodeName o) = fb (nodeName o).
Definition sameN (l : list node) : Prop := map (renameNode fa) l = map (renameNode fb) l.
Lemma sameN_app l l' : sameN l -> sameN l' -> sameN (l ++ l'). Proof. unfold sameN. intros A B. rewrite !map_app, A, B. auto. Qed.
Lemma sameN_rep l k : sameN l -> sameN (List.concat (repeat l k)).
Proof. intros H. induction k as [|k IH]; cbn [repeat List.concat]; [reflexivity|]. apply sameN_app; auto. Qed.
Lemma buildLoop_same rec items ranges k : (forall a c ns ok c', rec a c = Ok (ns, ok, c') -> sameN ns) ->
  forall ii cnt nodes c nodes' c', sameN nodes -> buildLoop rec k items ranges ii cnt nodes c = Ok (nodes', c') -> sameN nodes'.
Proof.
  intros Hr. induction k as [|k IH]; intros ii cnt nodes c nodes' c' Hn H; [discriminate|]. cbn [buildLoop] in H. destruct (nth_error items ii) as [item|]; [|injection H as <- _; auto].
  cbv zeta in H. destruct (rec item c) as [[[n ok] c1]|w|] eqn:E; try discriminate. cbn [bind] in H. apply Hr in E. destruct ok; [|eapply IH; [|exact H]; auto].
  destruct (nth_error ranges ii) as [[mn mx]|]; [|discriminate]. destruct (_ <? _).
  - destruct (_ && _)%bool; eapply IH; try exact H; apply sameN_app; auto.
  - eapply IH; [|exact H]. apply sameN_app; auto. apply sameN_rep; auto.
Qed.
Lemma build_same n : forall b c ns ok c', build P n b c = Ok (ns, ok, c') -> sameN ns.
Proof.
  induction n as [|n IH]; intros b c ns ok c' H; [discriminate|]. cbn [build] in H. destruct (nth_error P b) as [[nm i cn ch rs|nm i ct items ranges gs ac|nm i ct options gs]|] eqn:Eb; try discriminate.
  - injection H as <- _ _. reflexivity.
  - pose proof (same _ _ Eb) as Es. cbn [makesNode nodeName] in Es. unfold seqBuild in H. destruct (longestMatch _ _ _) as [to|]; [|injection H as <- _ _; reflexivity]. cbv zeta in H. destruct ac.
    { destruct (hasFlag ct CAlias); injection H as <- _ _; [reflexivity|]. unfold sameN. cbn. rewrite Es; auto. }
    binv H. destruct x as [c1|]; [|injection H as <- _ _; reflexivity]. binv H. destruct x as [nodes c2]. apply (buildLoop_same _ _ _ _ IH) in E0; [|reflexivity]. binv H.
    destruct (hasFlag ct CAlias); injection H as <- _ _; auto. unfold sameN in *. cbn. rewrite Es, E0; auto.
  - pose proof (same _ _ Eb) as Es. cbn [makesNode nodeName] in Es. unfold choiceBuild in H. destruct (longestMatch _ _ _) as [to|]; [|injection H as <- _ _; reflexivity]. cbv zeta in H.
    binv H. destruct x as [c1|]; [|injection H as <- _ _; reflexivity]. binv H. destruct x as [o|]; [|discriminate]. binv H. destruct x as [[nodes ok1] c2]. apply IH in E1. binv H.
    destruct (hasFlag ct CAlias); injection H as <- _ _; auto. unfold sameN in *. cbn. rewrite Es, E1; auto.
Qed.
Lemma tree_same kws root fuel input e t toks : parseInput P kws root fuel input e = Ok (Tree t toks) -> renameNode fa t = renameNode fb t.
Proof.
  unfold parseInput, parseInputPB. intros H. binv H. destruct (cReadErr x); [discriminate|]. binv H. destruct x0 as [c1 [er|]]; [discriminate|]. cbv zeta in H. binv H.
  destruct x0 as [[ns ok] c2]. apply build_same in E1. destruct ns as [|t0 ns]; [discriminate|]. injection H as <- _. injection E1; auto.
Qed.
End SAME.
(** the errors of a run *)
Lemma run_err P kws root fuel input e er : parseInput P kws root fuel input e = Ok (Failed er) ->
  (exists off line col def, er = ErrParse off line col def) \/ forall f, renameErr f er = er.
Proof.
  unfold parseInput, parseInputPB. intros H. binv H. destruct (cReadErr x) as [e1|] eqn:E1.
  - injection H as <-. right. intros f. destruct (plain_err f P _ _ _ _ _ _ E) as [A _]. auto.
  - binv H. destruct x0 as [c1 [e2|]].
    + injection H as ->. destruct (plain_err (fun x => x) P _ _ _ _ _ _ E) as [_ _].
      assert (K : forall (y : context) p, bind (parseError P y p) (fun e => Ok (y, Some e)) = Ok (c1, Some er) -> exists off line col def, er = ErrParse off line col def).
      { intros y p X. binv X. injection X as _ <-. unfold parseError in E2. destruct (nth_error P p); [|discriminate]. cbv zeta in E2. binv E2. injection E2 as <-. eauto. }
      unfold finalizeParse in E0. cbv zeta in E0. destruct (nth_error P root) as [o|]; [|discriminate]. destruct (longestResult _ _ _); try (left; eapply K; exact E0).
      destruct (_ <? _); [left; eapply K; exact E0|]. destruct (read x) as [c2 b] eqn:Er. destruct (cEof c2); [discriminate|]. destruct (cReadErr c2) as [e3|] eqn:E3; [|left; eapply K; exact E0].
      injection E0 as _ ->. right. intros f. destruct (plain_err f P _ _ _ _ _ _ E) as [_ B]. apply B. rewrite Er. auto.
    + cbv zeta in H. binv H. destruct x0 as [[[|t ns] ok] c3]; discriminate.
Qed.

(** ** the names of the definitions that make nodes *)
Section NAMED.
Variable Q : list string.
Definition named (h : dheap) : Prop := forall d, In d h -> hasFlag (dCommit d) CAlias = false -> In (dName d) Q.
Definition notIn (n : string) : bool := if in_dec string_dec n Q then false else true.
Lemma notIn_false n : notIn n = false <-> In n Q. Proof. unfold notIn. destruct (in_dec _ _ _); split; congruence || tauto. Qed.
Lemma named_app h l : named h -> named l -> named (h ++ l). Proof. intros A B d Hd. apply in_app_or in Hd. destruct Hd; auto. Qed.
Lemma named_upd h a f : (forall d, hasFlag (dCommit (f d)) CAlias = false -> dName (f d) = dName d /\ hasFlag (dCommit d) CAlias = false) -> named h -> named (updNth a f h).
Proof. intros F H d Hd Hf. apply in_updNth in Hd. destruct Hd as [Hd|(y & Hy & ->)]; auto. destruct (F y Hf) as [-> X]. auto. Qed.
Lemma named_preinit defs : forall h, named h -> named (preinitAll h defs).
Proof.
  unfold preinitAll. induction defs as [|a l IH]; intros h H; simpl; auto. apply IH. apply named_upd; auto. intros d. destruct (preinit_name d) as [P1 P2]. rewrite P1, P2. auto.
Qed.
Lemma alias_kept c : hasFlag (N.lor c CAlias) CAlias = true.
Proof. change CAlias with (2 ^ 1)%N. rewrite hasFlag_bit, N.lor_spec. change (N.testbit (2 ^ 1) 1) with true. apply orb_true_r. Qed.
Lemma alias_setCommit c c' d : (isCharK (dKind d) = false -> hasFlag c CAlias = true) -> c' = dCommit (setCommitType c d) -> hasFlag c' CAlias = false -> dCommit (setCommitType c d) = dCommit d /\ isCharK (dKind d) = true.
Proof. intros Hc -> Hf. unfold setCommitType in *. destruct (dKind d); auto; simpl in *; rewrite Hc in Hf; auto; discriminate. Qed.
Lemma named_split defs : forall h h1 w r, splitWhitespaceDefs h defs = (h1, w, r) -> named h -> named h1.
Proof.
  induction defs as [|a l IH]; intros h h1 w r H Hs; cbn [splitWhitespaceDefs] in H; [injection H as <- _ _; auto|]. destruct (hasFlag _ _).
  - destruct (splitWhitespaceDefs (updNth _ _ _) l) as [[h2 w2] r2] eqn:E. injection H as <- _ _. apply IH in E; auto. apply named_upd; auto.
    intros d Hf. destruct (alias_setCommit _ _ d (fun _ => alias_kept _) eq_refl Hf) as [X _]. rewrite X in Hf. rewrite setCommit_name. auto.
  - destruct (splitWhitespaceDefs h l) as [[h2 w2] r2] eqn:E. injection H as <- _ _. apply IH in E; auto.
Qed.
Lemma named_wsItems n items : forall i, named (fst (wsItems n i items)).
Proof.
  induction items as [|it items IH]; intros i; [intros d []|]. cbn [wsItems]. specialize (IH (S i)). destruct (wsItems n (S i) items) as [defs rest]. cbn [fst] in IH.
  destruct (Z.eqb _ _); auto. cbv zeta. destruct (Z.ltb _ _); cbn [fst]; intros d Hd; simpl in Hd; [destruct Hd as [<-|Hd]|destruct Hd as [<-|[<-|Hd]]]; auto; discriminate.
Qed.
Lemma named_toDefs defs : forall h h1 r, applyWhitespaceToDefs h defs = (h1, r) -> named h -> named h1.
Proof.
  induction defs as [|a l IH]; intros h h1 r H Hs; cbn [applyWhitespaceToDefs] in H; [injection H as <- _; auto|].
  destruct (nth_error h a) as [[n i ct [cn ch rs|oi items rs ids gs ac v ii|os od gs v ii]]|] eqn:Ea; try (destruct (applyWhitespaceToDefs h l) as [h2 r2] eqn:E; injection H as <- _; eauto).
  destruct (hasFlag ct CNoWhitespace); [destruct (applyWhitespaceToDefs h l) as [h2 r2] eqn:E; injection H as <- _; eauto|]. cbv zeta in H.
  destruct (applyWhitespaceToDefs (h ++ _) l) as [h2 r2] eqn:E. injection H as <- _. apply IH in E; auto. apply named_app; auto.
  unfold applyWhitespaceToSeq. pose proof (named_wsItems n items 0) as W. destruct (wsItems n 0 items) as [defs its]. cbn [fst] in W. apply named_app; auto.
  intros d [<-|[]] Hf. cbn [newSequence dName dCommit] in *. apply nth_error_In in Ea. exact (Hs _ Ea Hf).
Qed.
(** single characters are aliases *)
Definition chars (h : dheap) : Prop := forall d, In d h -> isCharK (dKind d) = true -> hasFlag (dCommit d) CAlias = true.
Lemma chars_upd h a f : (forall d, isCharK (dKind (f d)) = true -> isCharK (dKind d) = true /\ dCommit (f d) = dCommit d) -> chars h -> chars (updNth a f h).
Proof. intros F H d Hd Hf. apply in_updNth in Hd. destruct Hd as [Hd|(y & Hy & ->)]; auto. destruct (F y Hf) as [A ->]. auto. Qed.
Lemma chars_app h l : chars h -> chars l -> chars (h ++ l). Proof. intros A B d Hd. apply in_app_or in Hd. destruct Hd; auto. Qed.
Lemma chars_preinit defs : forall h, chars h -> chars (preinitAll h defs).
Proof.
  unfold preinitAll. induction defs as [|a l IH]; intros h H; simpl; auto. apply IH. apply chars_upd; auto. intros d. destruct (preinit_name d) as [_ ->]. unfold preinit, initRanges. destruct (dKind d) eqn:E; rewrite ?E; auto.
Qed.
Lemma chars_split defs : forall h h1 w r, splitWhitespaceDefs h defs = (h1, w, r) -> chars h -> chars h1.
Proof.
  induction defs as [|a l IH]; intros h h1 w r H Hs; cbn [splitWhitespaceDefs] in H; [injection H as <- _ _; auto|]. destruct (hasFlag _ _).
  - destruct (splitWhitespaceDefs (updNth _ _ _) l) as [[h2 w2] r2] eqn:E. injection H as <- _ _. apply IH in E; auto. apply chars_upd; auto. intros d. unfold setCommitType. destruct (dKind d) eqn:K; rewrite ?K; auto; discriminate.
  - destruct (splitWhitespaceDefs h l) as [[h2 w2] r2] eqn:E. injection H as <- _ _. apply IH in E; auto.
Qed.
Lemma chars_wsItems n items : forall i, chars (fst (wsItems n i items)).
Proof.
  induction items as [|it items IH]; intros i; [intros d []|]. cbn [wsItems]. specialize (IH (S i)). destruct (wsItems n (S i) items) as [defs rest]. cbn [fst] in IH.
  destruct (Z.eqb _ _); auto. cbv zeta. destruct (Z.ltb _ _); cbn [fst]; intros d Hd; simpl in Hd; [destruct Hd as [<-|Hd]|destruct Hd as [<-|[<-|Hd]]]; auto; discriminate.
Qed.
Lemma chars_toDefs defs : forall h h1 r, applyWhitespaceToDefs h defs = (h1, r) -> chars h -> chars h1.
Proof.
  induction defs as [|a l IH]; intros h h1 r H Hs; cbn [applyWhitespaceToDefs] in H; [injection H as <- _; auto|].
  destruct (nth_error h a) as [[n i ct [cn ch rs|oi items rs ids gs ac v ii|os od gs v ii]]|] eqn:Ea; try (destruct (applyWhitespaceToDefs h l) as [h2 r2] eqn:E; injection H as <- _; eauto).
  destruct (hasFlag ct CNoWhitespace); [destruct (applyWhitespaceToDefs h l) as [h2 r2] eqn:E; injection H as <- _; eauto|]. cbv zeta in H.
  destruct (applyWhitespaceToDefs (h ++ _) l) as [h2 r2] eqn:E. injection H as <- _. apply IH in E; auto. apply chars_app; auto.
  unfold applyWhitespaceToSeq. pose proof (chars_wsItems n items 0) as W. destruct (wsItems n 0 items) as [defs its]. cbn [fst] in W. apply chars_app; auto. intros d [<-|[]]. discriminate.
Qed.
(** every definition after a step is one before the step, with the same name and flags *)
Definition bEv (h h' : dheap) : Prop := forall d', In d' h' -> exists d, In d h /\ dName d' = dName d /\ dCommit d' = dCommit d.
Lemma named_back h h' : bEv h h' -> named h -> named h'.
Proof. intros B H d' Hd Hf. destruct (B d' Hd) as (d & Hd1 & E1 & E2). rewrite E1. apply H; auto. congruence. Qed.
Lemma bEv_refl h : bEv h h. Proof. intros d H; eauto. Qed.
Lemma bEv_trans a b c : bEv a b -> bEv b c -> bEv a c.
Proof. intros A B d H. destruct (B d H) as (d1 & H1 & E1 & E2). destruct (A d1 H1) as (d2 & H2 & E3 & E4). exists d2. split; auto. split; congruence. Qed.
Lemma bEv_reg defs : forall h r h' r', newRegistryLoop h r defs = (h', r') -> bEv h h'.
Proof.
  induction defs as [|a l IH]; intros h r h' r' H; cbn [newRegistryLoop] in H; [injection H as <- _; apply bEv_refl|]. destruct (setDefinition h r a) as [[h1 r1] e] eqn:E. eapply bEv_trans; [|eapply IH; eauto].
  unfold setDefinition in E. destruct (nth_error h a) as [d|]; [destruct (lookup _ _)|]; injection E as <- _ _; try apply bEv_refl.
  intros d' Hd. apply in_updNth in Hd. destruct Hd as [Hd|(y & Hy & ->)]; eauto.
Qed.
Lemma bEv_core m n l h h' e : initCore m n l h = Ok (h', e) -> bEv h h'.
Proof.
  assert (V : forall h h', vEvolved h h' -> bEv h h').
  { intros x y V d' H. apply In_nth_error in H. destruct H as (a & H). specialize (V a). destruct (nth_error x a) as [d|] eqn:Ea; [|congruence]. apply nth_error_In in Ea. destruct V as (d1 & H' & [-> | ->]); rewrite H in H'; injection H' as ->; exists d; auto. }
  assert (I : forall h h', iEvolved m h h' -> bEv h h').
  { intros x y I d' H. apply In_nth_error in H. destruct H as (a & H). specialize (I a). unfold evAt in I. destruct (nth_error x a) as [d|] eqn:Ea; [|congruence]. apply nth_error_In in Ea.
    destruct I as (d1 & H' & [E|(_ & E & _)]); rewrite H in H'; injection H' as <-; exists d; split; auto; unfold eraseG, setKind in E; injection E; auto. }
  unfold initCore. intros H. binv H. destruct x as [h1 [e1|]].
  - inversion H; subst. apply validateAll_spec in E. apply V, E.
  - binv H. inversion H; subst. apply validateAll_spec in E. apply initAll_spec in E0. eapply bEv_trans; [apply V, E|apply I, E0].
Qed.
Lemma Init_named n s s1 : sInitialized s = false -> sInitFailed s = false -> named (sHeap s) -> chars (sHeap s) -> rootsShown notIn (sHeap s) -> Init n s = Ok (s1, None) -> named (sHeap s1).
Proof.
  intros I1 I2 Hn Hc Hs H. rewrite Init_split, I1, I2 in H. destruct (sRoot s) as [r|] eqn:Er; [|discriminate]. destruct (nth_error (sHeap s) r) as [rd|] eqn:Ed; [|discriminate]. destruct (sRegistry s) as [reg|]; [|discriminate].
  destruct (checkCommitType rd) eqn:Ec; [discriminate|]. binv H. destruct x as [[h reg1] root1]. binv H. destruct x as [h1 [e1|]]; [discriminate|]. injection H as <-. cbn [sHeap].
  eapply named_back; [eapply bEv_core; exact E0|]. clear E0. unfold prepare in E. apply (named_preinit (gDefinitions reg)) in Hn. apply (chars_preinit (gDefinitions reg)) in Hc. apply (rs_preinit notIn (gDefinitions reg)) in Hs. set (h0 := preinitAll _ _) in *. cbv zeta in E. destruct (hasWhitespace _ _).
  - unfold applyWhitespace in E. destruct (splitWhitespaceDefs h0 _) as [[h2 ws] rest] eqn:X1. pose proof (named_split _ _ _ _ _ X1 Hn) as N2. pose proof (chars_split _ _ _ _ _ X1 Hc) as C2. apply rs_split with (hid := notIn) in X1; auto. set (h3 := h2 ++ _) in *.
    assert (R3 : rootsShown notIn h3) by (apply rs_app; auto; intros d0 [<-|[]]; discriminate). assert (N3 : named h3) by (apply named_app; auto; intros d0 [<-|[]]; discriminate). assert (C3 : chars h3) by (apply chars_app; auto; intros d0 [<-|[]]; discriminate).
    destruct (applyWhitespaceToDefs h3 rest) as [h4 defs] eqn:X2. pose proof (named_toDefs _ _ _ _ X2 N3) as N4. pose proof (chars_toDefs _ _ _ _ X2 C3) as C4. apply rs_toDefs with (hid := notIn) in X2; auto.
    destruct (splitRoot h4 defs) as [[r4|] rest2] eqn:Es; [|discriminate]. unfold applyWhitespaceToRoot in E. cbn [bind] in E. unfold newRegistry in E.
    match type of E with (let (_, _) := newRegistryLoop ?x ?y ?z in _) = _ => destruct (newRegistryLoop x y z) as [h5 reg5] eqn:X3 end. injection E as <- _ <-.
    eapply named_back; [eapply bEv_reg; exact X3|]. apply named_app.
    + intros d Hd Hf. apply in_updNth in Hd. destruct Hd as [Hd|(y & Hy & ->)]; [auto|].
      assert (K : forall c, hasFlag (N.lor c CAlias) CAlias = true) by apply alias_kept.
      unfold setCommitType in Hf. cbn [setName dKind dCommit] in Hf.
      destruct (dKind y) eqn:Ey; cbn [dCommit] in Hf; try (rewrite K in Hf; discriminate).
      specialize (C4 y Hy). rewrite Ey in C4. specialize (C4 eq_refl). cbn [setName dCommit] in Hf. congruence.
    + intros d [<-|[]] _. cbn [newSequence dName].
      unfold splitRoot in Es. injection Es as Es _. assert (Hin : In r4 (filter (fun a => hasFlag (commitAt h4 a) CRoot) defs)).
      { clear -Es. induction (filter _ defs) as [|x l IH] using rev_ind; [discriminate|]. rewrite map_app in Es. cbn [map] in Es. rewrite last_app_one in Es. injection Es as ->. apply in_or_app; right; left; auto. }
      apply filter_In in Hin. destruct Hin as [_ Hfl]. unfold commitAt in Hfl. unfold nameAt. destruct (nth_error h4 r4) as [d6|] eqn:E6; [|discriminate]. apply nth_error_In in E6. apply notIn_false. auto.
  - injection E as <- _ <-. auto.
Qed.
End NAMED.

(** ** for the calls of a user *)
Section CALLS.
Variables (f : string -> string) (calls : list defcall) (s : syntax).
Hypothesis Hd : Defined calls s.
Hypothesis Hv : forall n, In n (namesIn calls) -> n <> ""%string /\ isValidSymbol n = true /\ f n <> ""%string /\ isValidSymbol (f n) = true.
Hypothesis Hi : forall n m, In n (namesIn calls) -> In m (namesIn calls) -> f n = f m -> n = m.
Notation names := (map callName calls).
Lemma name_in n : In n names -> In n (namesIn calls).
Proof. intros H. apply in_map_iff in H. destruct H as (d & <- & H). unfold namesIn. apply in_flat_map. exists d. split; auto. left; auto. Qed.
Lemma ref_in d n : In d calls -> In n (callRefs d) -> In n (namesIn calls).
Proof. intros H Hn. unfold namesIn. apply in_flat_map. exists d. split; auto. right; auto. Qed.
Lemma call_name d : In d calls -> In (callName d) (namesIn calls). Proof. intros. apply name_in, in_map. auto. Qed.
Lemma free_in n : In n (namesIn calls) -> colonFree n. Proof. intros H. apply valid_colonFree. apply Hv; auto. Qed.
Lemma ud_refs d : callRefs (withUserDefined d) = callRefs d. Proof. destruct d; auto. Qed.
Lemma root_in n : rootName calls = Some n -> In n names.
Proof.
  unfold rootName. destruct (find isRoot calls) as [d|] eqn:E; [intros H; injection H as <-; apply find_some in E; apply in_map; tauto|].
  intros H. clear -H. destruct calls as [|d l _] using rev_ind; [discriminate|]. rewrite map_app in H. simpl in H. rewrite last_app_one in H. injection H as <-. rewrite map_app. apply in_or_app; right; left; auto.
Qed.
(** what is in the heap *)
Lemma heap_obj d : In d (sHeap s) -> exists o c, In c calls /\ In o (callObjs (withUserDefined c)) /\ dName d = dName o /\ dKind d = dKind o /\ (hasFlag (dCommit d) CAlias = hasFlag (dCommit o) CAlias) /\
  (isCharK (dKind o) = true -> dCommit d = CAlias) /\ (hasFlag (dCommit d) CRoot = true -> rootName calls = Some (dName d)).
Proof.
  intros H. apply In_nth_error in H. destruct H as (a & Ha). pose proof (rep_defineAll _ _ Hd) as R.
  assert (La : a < List.length (flat_map callObjs (map withUserDefined calls))) by (rewrite <- (rp_len _ _ R); apply nth_error_Some; congruence).
  apply nth_error_Some in La. destruct (nth_error (flat_map callObjs (map withUserDefined calls)) a) as [o|] eqn:Eo; [|congruence].
  destruct (rp_obj _ _ R _ _ Eo) as (d0 & Hd0 & N & K & _ & F1 & F2). rewrite Ha in Hd0. injection Hd0 as <-. pose proof (nth_error_In _ _ Eo) as Ho. pose proof Ho as Ho'. apply in_flat_map in Ho'. destruct Ho' as (c & Hc & Ho').
  apply in_map_iff in Hc. destruct Hc as (c0 & <- & Hc). exists o, c0. split; auto. split; auto. split; auto. split; auto. destruct (rp_fresh _ _ R o Ho) as (_ & _ & C).
  destruct (isCharK (dKind o)) eqn:Ek.
  - rewrite F1, C by auto. split; auto. split; auto. discriminate.
  - destruct (F2 eq_refl) as [S1 S2]. split; [apply (sameBut_flag [7%N] _ _ 1); auto; intros [X|[]]; discriminate|]. split; [discriminate|]. intros X. apply S2 in X. eapply rooted; eauto.
Qed.
Lemma obj_shape c o : In c calls -> In o (callObjs (withUserDefined c)) ->
  match dKind o with
  | KChar _ _ _ => True
  | KSeq _ items _ _ _ _ _ _ => dName o = callName c /\ Forall (fun it => siMax (normalizeItemRange it) = 1%Z \/ colonFree (siName it)) items
  | KChoice _ _ _ _ _ => dName o = callName c
  end.
Proof.
  intros Hc Ho. assert (Fr : forall n, In n (callRefs c) -> colonFree n) by (intros n Hn; apply free_in; eapply ref_in; eauto).
  destruct c as [n ct|n ct cn ch rs|n ct ch|n ct items|n ct options]; cbn [withUserDefined callObjs callName callRefs] in *.
  - destruct Ho as [<-|[<-|[]]]; simpl; auto.
  - destruct Ho as [<-|[<-|[]]]; simpl; auto.
  - apply in_app_or in Ho. destruct Ho as [Ho|[<-|[]]].
    + apply in_map_iff in Ho. destruct Ho as (ic & <- & _). simpl; auto.
    + simpl. split; auto. apply Forall_forall. intros it Hit. unfold namesToSequenceItems in Hit. apply in_map_iff in Hit. destruct Hit as (x & <- & _). left. reflexivity.
  - destruct Ho as [<-|[]]. simpl. split; auto. apply Forall_forall. intros it Hit. right. apply Fr. apply in_map; auto.
  - destruct Ho as [<-|[]]. simpl; auto.
Qed.
Lemma heap_symbols : symbolHeap (sHeap s).
Proof.
  intros d Hin. destruct (heap_obj d Hin) as (o & c & Hc & Ho & N & K & _ & _ & Hr). split.
  - intros X. apply Hr in X. apply free_in, name_in, root_in. auto.
  - pose proof (obj_shape c o Hc Ho) as Sh. rewrite K. destruct (dKind o); auto. destruct Sh as [S1 S2]. split; auto. rewrite N, S1. apply free_in, call_name. auto.
Qed.
Lemma heap_named : named names (sHeap s).
Proof.
  intros d Hin Hf. destruct (heap_obj d Hin) as (o & c & Hc & Ho & N & K & _ & Hch & Hr). pose proof (obj_shape c o Hc Ho) as Sh. rewrite N. destruct (dKind o) eqn:Eo.
  - rewrite Hch in Hf by auto. discriminate.
  - destruct Sh as [-> _]. apply in_map. auto.
  - rewrite Sh. apply in_map. auto.
Qed.
Lemma heap_chars : chars (sHeap s).
Proof. intros d Hin Hk. destruct (heap_obj d Hin) as (o & c & Hc & Ho & N & K & _ & Hch & Hr). rewrite Hch; [reflexivity|congruence]. Qed.
Lemma heap_roots : rootsShown (notIn names) (sHeap s).
Proof. intros d Hin Hf. destruct (heap_obj d Hin) as (o & c & _ & _ & _ & _ & _ & _ & Hr). apply notIn_false, root_in. auto. Qed.
Lemma heap_defs a : In a (gDefinitions (regOf s)) -> a < List.length (sHeap s).
Proof. pose proof (rep_defineAll _ _ Hd) as R. rewrite (rp_defs _ _ R), (rp_len _ _ R). intros H. apply in_seq in H. lia. Qed.

(** undefined names are references of the user *)
Lemma rule_refs n r x : grammarOf calls n = Some r -> In x (ruleRefs r) -> grammarOf calls x <> None \/ In x (namesIn calls).
Proof.
  intros Hr Hx. apply ruleIn_pair in Hr. apply in_flat_map in Hr. destruct Hr as (c & Hc & Hr).
  assert (K : forall y q, In (y, q) (callRules c) -> grammarOf calls y <> None).
  { intros y q Hq. unfold grammarOf. apply some_ruleIn. apply in_map_iff. exists (y, q). split; auto. apply in_flat_map. eauto. }
  assert (CR : forall m l i j, j < List.length l -> exists q, In (childName m (i + j), q) (charRules m i l)).
  { intros m l. induction l as [|y l IH]; intros i j Hj; simpl in Hj; [lia|]. destruct j as [|j]; [rewrite Nat.add_0_r; eexists; left; reflexivity|]. destruct (IH (S i) j) as (q & Hq); [lia|]. exists q. right. rewrite Nat.add_succ_r. exact Hq. }
  destruct c as [m ct|m ct cn ch rs|m ct ch|m ct items|m ct options].
  - left. cbn [callRules] in *. destruct Hr as [E|[E|[]]]; injection E as <- <-; simpl in Hx; try contradiction. destruct Hx as [<-|[]]. eapply K. left; reflexivity.
  - left. cbn [callRules] in *. destruct Hr as [E|[E|[]]]; injection E as <- <-; simpl in Hx; try contradiction. destruct Hx as [<-|[]]. eapply K. left; reflexivity.
  - left. cbn [callRules] in Hr. apply in_app_or in Hr. destruct Hr as [Hr|[E|[]]].
    + exfalso. clear -Hr Hx. revert Hr. generalize 0 at 1. induction ch as [|y l IH]; intros i Hr; simpl in Hr; [contradiction|]. destruct Hr as [E|Hr]; [injection E as _ <-; contradiction|eauto].
    + injection E as <- <-. simpl in Hx. rewrite map_map in Hx. apply in_map_iff in Hx. destruct Hx as (j & <- & Hj). apply in_seq in Hj. cbn [once siName]. destruct (CR m ch 0 j) as (q & Hq); [lia|]. eapply K. cbn [callRules]. apply in_or_app; left. exact Hq.
  - right. destruct Hr as [E|[]]. injection E as <- <-. eapply ref_in; eauto.
  - right. destruct Hr as [E|[]]. injection E as <- <-. eapply ref_in; eauto.
Qed.
Lemma refs_symbols : symbolRefs calls.
Proof. intros n r x Hr Hx. destruct (rule_refs n r x Hr Hx) as [H|H]; auto. right. apply Hv; auto. Qed.
Lemma needed_in n : needed calls n -> grammarOf calls n = None -> In n (namesIn calls).
Proof.
  intros H Hg. destruct H as [n Hn|d Hin _|d Hin _|m r x _ Hr Hx].
  - apply name_in, root_in; auto.
  - apply call_name; auto.
  - apply call_name; auto.
  - destruct (rule_refs m r x Hr Hx); auto. congruence.
Qed.

Theorem renames : exists s', Defined (map (renameCall f) calls) s' /\
  (forall err, (exists s1, Inits s s1 err) -> exists s1, Inits s' s1 (option_map (renameErr f) err)) /\
  (forall err', (exists s1, Inits s' s1 err') -> exists err s1, Inits s s1 err /\ err' = option_map (renameErr f) err) /\
  forall input e,
    (forall out, (exists s1, Parses s input e s1 out) -> exists s1, Parses s' input e s1 (renOut f out)) /\
    (forall out', (exists s1, Parses s' input e s1 out') -> exists out s1, Parses s input e s1 out /\ out' = renOut f out) /\
    (ParsePanics s input e <-> ParsePanics s' input e).
Proof.
  destruct (extend f (namesIn calls)) as (g & G1 & G2 & G3 & G4).
  { intros n Hn. destruct (Hv n Hn) as (A & B & C & D). split; auto. split; [apply valid_colonFree; auto|]. split; auto. apply valid_colonFree; auto. }
  { exact Hi. }
  assert (E : forall n, In n (namesIn calls) -> rn g n = f n) by (intros n Hn; rewrite (rn_free g); auto; apply free_in; auto).
  assert (Ec : map (renameCall (rn g)) calls = map (renameCall f) calls).
  { apply map_ext_in. intros d Hin. assert (Er : forall n, In n (callRefs d) -> rn g n = f n) by (intros n Hn; apply E; eapply ref_in; eauto). pose proof (E _ (call_name d Hin)) as En.
    destruct d as [n ct|n ct cn ch rs|n ct ch|n ct items|n ct options]; cbn [renameCall callName callRefs] in *; rewrite En; auto; f_equal; apply map_ext_in; auto.
    intros it Hit. unfold renameItem. rewrite Er; auto. apply in_map; auto. }
  assert (Ki : forall n, Init n (rns g s) = mapR (fun x => (rns g (fst x), option_map (renameErr (rn g)) (snd x))) (Init n s)).
  { intros n. apply Init_rn; auto; [apply heap_symbols|apply heap_defs]. }
  assert (Kp : forall n input e, Parse n (rns g s) input e = mapR (fun x => (rns g (fst x), renOut (rn g) (snd x))) (Parse n s input e)).
  { intros n input e. apply Parse_rn; auto; [apply heap_symbols|apply heap_defs]. }
  assert (Ei : forall s1 err, Inits s s1 err -> option_map (renameErr (rn g)) err = option_map (renameErr f) err).
  { intros s1 err H. pose proof (init_refs_all calls s s1 err Hd refs_symbols H) as X. destruct err as [err|]; auto. cbn [option_map]. f_equal. destruct err; auto; try contradiction; cbn [renameErr].
    - destruct X as [X1 X2]. rewrite E; auto. apply needed_in; auto.
    - destruct X as (_ & d & Hin & <- & _). rewrite E; auto. apply call_name; auto. }
  assert (Ep : forall s1 input e out, Parses s input e s1 out -> renOut (rn g) out = renOut f out).
  { intros s1 input e out HP. pose proof HP as (n & H). unfold Parse in H. destruct (Init n s) as [[s2 [err|]]|w|] eqn:Einit; try discriminate; cbn [bind] in H.
    - injection H as -> <-. cbn [renOut]. f_equal. assert (X : Inits s s1 (Some err)) by (exists n; auto). apply Ei in X. injection X; auto.
    - destruct (sRoot s2) as [root|]; [|discriminate]. binv H. injection H as <- <-. destruct x as [t toks|er]; cbn [renOut].
      + f_equal. eapply tree_same; [|exact E0]. intros a o Ho Hm. pose proof (rep_defineAll _ _ Hd) as R.
        pose proof (Init_named names n s s2 (rp_init _ _ R) (rp_failed _ _ R) heap_named heap_chars heap_roots Einit) as Nm.
        unfold parsers in Ho. rewrite nth_error_map in Ho. destruct (nth_error (sHeap s2) a) as [d|] eqn:Ea; [|discriminate]. injection Ho as <-. apply nth_error_In in Ea.
        specialize (Nm d Ea). unfold toParser in *. destruct (dKind d); cbn [makesNode nodeName] in *; try discriminate; apply negb_true_iff in Hm; apply E, name_in, Nm; auto.
      + f_equal. destruct (run_err _ _ _ _ _ _ _ E0) as [(off & line & col & def & ->)|X]; [|rewrite !X; auto]. cbn [renameErr]. f_equal.
        destruct (calls_blame calls s input e s2 off line col def Hd) as (c & Hc & <- & _); auto; [|apply E, call_name; auto]. intros c Hc. apply Hv, call_name; auto. }
  exists (rns g s). split.
  { unfold Defined in *. rewrite <- Ec. apply (defineAll_rn g G2 G3 calls) in Hd; auto. intros d Hin. rewrite E by (apply call_name; auto). apply Hv, call_name; auto. }
  split; [|split].
  - intros err (s1 & n & H). exists (rns g s1), n. rewrite Ki, H. cbn [mapR fst snd]. rewrite (Ei s1 err) by (exists n; auto). auto.
  - intros err' (s1 & n & H). rewrite Ki in H. destruct (Init n s) as [[s2 err]|w|] eqn:E0; try discriminate. injection H as <- <-. assert (X : Inits s s2 err) by (exists n; auto). exists err, s2. split; auto. eapply Ei; eauto.
  - intros input e. split; [|split].
    + intros out (s1 & n & H). exists (rns g s1), n. rewrite Kp, H. cbn [mapR fst snd]. rewrite (Ep s1 input e out) by (exists n; auto). auto.
    + intros out' (s1 & n & H). rewrite Kp in H. destruct (Parse n s input e) as [[s2 out]|w|] eqn:E0; try discriminate. injection H as <- <-. assert (X : Parses s input e s2 out) by (exists n; auto). exists out, s2. split; auto. eapply Ep; eauto.
    + split; intros (n & w & H).
      * exists n, w. rewrite Kp, H. auto.
      * rewrite Kp in H. destruct (Parse n s input e) as [[s2 out]|w2|] eqn:E0; try discriminate. exists n, w2. auto.
Qed.
End CALLS.
