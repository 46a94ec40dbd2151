(** The definitions without a flag give the same syntax, but for the flag. *)
From Verif Require Import Base Utf8 IdSet Results Parser Build Syntax ListFacts SyntaxFacts ParseFacts InitWalk InitRun InitCore InitSpec Grammar Lang Rep Api WsNames WsRefs WsApi RefApi ApiSpec HideRun HideInit FlagSpec.

Section FLAG.
Variable F : commitType.
Hypothesis F_alias : N.land CAlias F = 0%N.
Hypothesis F_root : N.land CRoot F = 0%N.
Hypothesis F_ws : N.land CWhitespace F = 0%N.
Hypothesis F_kw : N.land CKeyword F = 0%N.
Hypothesis F_user : N.land CUserDefined F = 0%N.
Lemma drop_flag c g : N.land g F = 0%N -> hasFlag (N.ldiff c F) g = hasFlag c g.
Proof.
  intros H. unfold hasFlag. replace (N.land (N.ldiff c F) g) with (N.land c g); auto. apply N.bits_inj. intros k. rewrite !N.land_spec, N.ldiff_spec.
  assert (B : N.testbit (N.land g F) k = false) by (rewrite H; apply N.bits_0). rewrite N.land_spec in B. destruct (N.testbit g k), (N.testbit F k), (N.testbit c k); auto; discriminate.
Qed.
Lemma drop_free g : N.land g F = 0%N -> N.ldiff g F = g.
Proof.
  intros H. apply N.bits_inj. intros k. rewrite N.ldiff_spec. assert (B : N.testbit (N.land g F) k = false) by (rewrite H; apply N.bits_0). rewrite N.land_spec in B. destruct (N.testbit g k), (N.testbit F k); auto; discriminate.
Qed.
Lemma drop_le c g : hasFlag (N.ldiff c F) g = true -> hasFlag c g = true.
Proof.
  unfold hasFlag. rewrite !negb_true_iff, !N.eqb_neq. intros H E. apply H. apply N.bits_inj. intros k. rewrite N.land_spec, N.ldiff_spec, N.bits_0.
  assert (B : N.testbit (N.land c g) k = false) by (rewrite E; apply N.bits_0). rewrite N.land_spec in B. destruct (N.testbit c k), (N.testbit g k), (N.testbit F k); auto.
Qed.
Lemma drop_lor c g : N.land g F = 0%N -> N.ldiff (N.lor c g) F = N.lor (N.ldiff c F) g.
Proof.
  intros H. apply N.bits_inj. intros k. rewrite N.ldiff_spec, !N.lor_spec, N.ldiff_spec. assert (B : N.testbit (N.land g F) k = false) by (rewrite H; apply N.bits_0). rewrite N.land_spec in B.
  destruct (N.testbit g k), (N.testbit F k), (N.testbit c k); auto; discriminate.
Qed.
Lemma drop_ldiff c g : N.ldiff (N.ldiff c g) F = N.ldiff (N.ldiff c F) g.
Proof. apply N.bits_inj. intros k. rewrite !N.ldiff_spec. destruct (N.testbit g k), (N.testbit F k), (N.testbit c k); auto. Qed.
Definition mk (d : defobj) : defobj := setCommitType (N.ldiff (dCommit d) F) d.
Notation mkh := (map mk).
Definition mks (s : syntax) : syntax := withHeap s (mkh (sHeap s)).

Lemma mk_name d : dName (mk d) = dName d. Proof. unfold mk, setCommitType. destruct (dKind d); auto. Qed.
Lemma mk_id d : dId (mk d) = dId d. Proof. unfold mk, setCommitType. destruct (dKind d); auto. Qed.
Lemma mk_kind d : dKind (mk d) = dKind d. Proof. unfold mk, setCommitType. destruct (dKind d) eqn:E; auto. Qed.
Lemma mk_flag d f : N.land f F = 0%N -> hasFlag (dCommit (mk d)) f = hasFlag (dCommit d) f.
Proof. intros H. unfold mk, setCommitType. destruct (dKind d); auto; apply drop_flag; auto. Qed.
Lemma mk_le d f : hasFlag (dCommit (mk d)) f = true -> hasFlag (dCommit d) f = true.
Proof. unfold mk, setCommitType. destruct (dKind d); auto; apply drop_le. Qed.
Lemma mk_setKind k d : isCharK k = isCharK (dKind d) -> mk (setKind k d) = setKind k (mk d).
Proof. intros H. unfold mk, setCommitType, setKind. simpl. destruct k, (dKind d); simpl in *; auto; discriminate. Qed.
Lemma mk_setID i d : mk (setID i d) = setID i (mk d).
Proof. destruct d as [n j c [| |]]; reflexivity. Qed.
Lemma mk_lor f d : N.land f F = 0%N -> mk (setCommitType (N.lor (dCommit d) f) d) = setCommitType (N.lor (dCommit (mk d)) f) (mk d).
Proof. intros H. unfold mk, setCommitType. destruct d as [n i c [| |]]; simpl; auto; rewrite drop_lor; auto. Qed.
Lemma mk_ldiff f d : mk (setCommitType (N.ldiff (dCommit d) f) d) = setCommitType (N.ldiff (dCommit (mk d)) f) (mk d).
Proof. unfold mk, setCommitType. destruct d as [n i c [| |]]; simpl; auto; rewrite drop_ldiff; auto. Qed.

Lemma mkh_upd f : forall h a, (forall d, nth_error h a = Some d -> mk (f d) = f (mk d)) -> updNth a f (mkh h) = mkh (updNth a f h).
Proof.
  induction h as [|x h IH]; intros [|a] H; simpl; auto.
  - rewrite (H x eq_refl). auto.
  - rewrite IH; auto.
Qed.
Lemma mkh_upd' f h a : (forall d, mk (f d) = f (mk d)) -> updNth a f (mkh h) = mkh (updNth a f h).
Proof. intros; apply mkh_upd; auto. Qed.
Lemma mkh_nth h a : nth_error (mkh h) a = option_map mk (nth_error h a). Proof. apply nth_error_map. Qed.

(** ** registering *)
Lemma setDefinition_mk h r a : setDefinition (mkh h) r a = (let '(h1, r1, e) := setDefinition h r a in (mkh h1, r1, e)).
Proof.
  unfold setDefinition. rewrite mkh_nth. destruct (nth_error h a) as [d|]; auto. simpl. rewrite mk_name. destruct (lookup _ _); auto.
  rewrite mkh_upd' by apply mk_setID. auto.
Qed.
Lemma applyRoot_mk s a : applyRoot (mks s) a = (mks (fst (applyRoot s a)), snd (applyRoot s a)).
Proof.
  unfold applyRoot, mks, withHeap. cbn [sHeap sExplicitRoot sRoot sRegistry sInitialized sInitFailed sKeywords]. rewrite mkh_nth. destruct (nth_error (sHeap s) a) as [d|]; auto. cbn [option_map]. rewrite mk_flag by auto.
  cbv zeta. destruct (_ && _)%bool; auto.
  assert (A : forall h r, updNth r (fun d => setCommitType (N.ldiff (dCommit d) CRoot) d) (mkh h) = mkh (updNth r (fun d => setCommitType (N.ldiff (dCommit d) CRoot) d) h)) by (intros; apply mkh_upd'; intros; apply mk_ldiff).
  assert (B : forall h r, updNth r (fun d => setCommitType (N.lor (dCommit d) CRoot) d) (mkh h) = mkh (updNth r (fun d => setCommitType (N.lor (dCommit d) CRoot) d) h)) by (intros; apply mkh_upd'; intros; apply mk_lor; auto).
  destruct (sRoot s) as [r|]; destruct (_ || _)%bool; cbn [fst snd sHeap sExplicitRoot sRoot sRegistry sInitialized sInitFailed sKeywords]; rewrite ?A, ?B; auto.
Qed.
Lemma check_drop d : checkCommitType d = None -> checkCommitType (mk d) = None.
Proof.
  unfold checkCommitType. rewrite !check_iff. intros H ct l f Hin Hf Hc. apply mk_le in Hc. specialize (H ct l f Hin Hf Hc). destruct (hasFlag (dCommit (mk d)) f) eqn:E; auto. apply mk_le in E. congruence.
Qed.
Lemma register_mk s d s1 : register s d = (s1, None) -> register (mks s) (mk d) = (mks s1, None).
Proof.
  unfold register. change (sInitialized (mks s)) with (sInitialized s). destruct (sInitialized s) eqn:Ei; [discriminate|]. cbv zeta.
  set (s2 := mkSyntax (sHeap s ++ [d]) _ _ _ _ _ _).
  change (sHeap (mks s)) with (mkh (sHeap s)). change (sRegistry (mks s)) with (sRegistry s). change (sInitFailed (mks s)) with (sInitFailed s).
  change (sExplicitRoot (mks s)) with (sExplicitRoot s). change (sKeywords (mks s)) with (sKeywords s). change (sRoot (mks s)) with (sRoot s).
  change [mk d] with (mkh [d]). rewrite <- map_app, map_length.
  match goal with |- context [applyRoot ?x (List.length (sHeap s))] => change x with (mks s2) end.
  destruct (checkCommitType d) eqn:Ec; [discriminate|]. rewrite (check_drop d Ec), applyRoot_mk. destruct (applyRoot s2 _) as [s3 [err|]]; cbn [fst snd]; [discriminate|].
  change (sHeap (mks s3)) with (mkh (sHeap s3)). rewrite setDefinition_mk. destruct (setDefinition (sHeap s3) _ _) as [[h reg] e]. rewrite mk_flag by auto.
  intros H. assert (e = None) as -> by congruence. injection H as <-. reflexivity.
Qed.
Lemma register_same s s' d d' s1 s1' : mks s = mks s' -> mk d = mk d' -> register s d = (s1, None) -> register s' d' = (s1', None) -> mks s1 = mks s1'.
Proof. intros Es Ed H H'. apply register_mk in H. apply register_mk in H'. rewrite Es, Ed, H' in H. congruence. Qed.
Lemma charSeqLoop_same name chars : forall s s' i s1 s1', mks s = mks s' -> charSeqLoop s name i chars = (s1, None) -> charSeqLoop s' name i chars = (s1', None) -> mks s1 = mks s1'.
Proof.
  induction chars as [|c chars IH]; intros s s' i s1 s1' Es H H'; cbn [charSeqLoop] in *; [congruence|].
  destruct (register s _) as [s2 [e|]] eqn:E; [discriminate|]. destruct (register s' _) as [s2' [e'|]] eqn:E'; [discriminate|]. eapply IH; [|exact H|exact H']. eapply register_same; eauto.
Qed.
Lemma mk_seq n ct ct' items : N.ldiff ct F = N.ldiff ct' F -> mk (newSequence n ct items) = mk (newSequence n ct' items).
Proof. intros H. unfold mk, setCommitType, newSequence. cbn [dKind dName dId dCommit]. rewrite H. auto. Qed.
Lemma mk_choice n ct ct' os : N.ldiff ct F = N.ldiff ct' F -> mk (newChoice n ct os) = mk (newChoice n ct' os).
Proof. intros H. unfold mk, setCommitType, newChoice. cbn [dKind dName dId dCommit]. rewrite H. auto. Qed.
Lemma drop_any c c' g : N.ldiff c F = N.ldiff c' F -> N.ldiff (N.lor c g) F = N.ldiff (N.lor c' g) F.
Proof.
  intros H. apply N.bits_inj. intros k. rewrite !N.ldiff_spec, !N.lor_spec. assert (B : N.testbit (N.ldiff c F) k = N.testbit (N.ldiff c' F) k) by (rewrite H; auto). rewrite !N.ldiff_spec in B.
  destruct (N.testbit g k), (N.testbit F k), (N.testbit c k), (N.testbit c' k); auto.
Qed.
Lemma defineRaw_same s s' d d' s1 s1' : mks s = mks s' -> dropFlag F d = dropFlag F d' -> defineRaw s d = (s1, None) -> defineRaw s' d' = (s1', None) -> mks s1 = mks s1'.
Proof.
  intros Es.
  assert (C : forall n ct ct' cn ch rs, N.ldiff ct F = N.ldiff ct' F -> class s n ct cn ch rs = (s1, None) -> class s' n ct' cn ch rs = (s1', None) -> mks s1 = mks s1').
  { intros n ct ct' cn ch rs Ec. unfold class. cbv zeta. destruct (register s _) as [s2 [e|]] eqn:E; [discriminate|]. destruct (register s' _) as [s2' [e'|]] eqn:E'; [discriminate|].
    intros H H'. eapply register_same; [| |exact H|exact H']; [eapply register_same; eauto|]. apply mk_seq; auto. }
  destruct d as [n ct|n ct cn ch rs|n ct chars|n ct items|n ct options], d' as [n' ct'|n' ct' cn' ch' rs'|n' ct' chars'|n' ct' items'|n' ct' options']; cbn [dropFlag]; try discriminate; intros Ed H H'; cbn [defineRaw] in *.
  - injection Ed as <- Ec. eapply C; eauto.
  - injection Ed as <- Ec <- <- <-. eapply C; eauto.
  - injection Ed as <- Ec <-. unfold charSequence in *. destruct (charSeqLoop s n 0 chars) as [s2 [e|]] eqn:E; [discriminate|]. destruct (charSeqLoop s' n 0 chars) as [s2' [e'|]] eqn:E'; [discriminate|].
    eapply register_same; [| |exact H|exact H']; [eapply charSeqLoop_same; eauto|]. apply mk_seq. apply drop_any; auto.
  - injection Ed as <- Ec <-. eapply register_same; [exact Es| |exact H|exact H']. apply mk_seq; auto.
  - injection Ed as <- Ec <-. eapply register_same; [exact Es| |exact H|exact H']. apply mk_choice; auto.
Qed.
Lemma drop_user d d' : dropFlag F d = dropFlag F d' -> dropFlag F (withUserDefined d) = dropFlag F (withUserDefined d').
Proof. destruct d, d'; cbn [dropFlag withUserDefined]; try discriminate; intros H; injection H; intros; subst; f_equal; apply drop_any; auto. Qed.
Lemma drop_name d d' : dropFlag F d = dropFlag F d' -> callName d = callName d'.
Proof. destruct d, d'; cbn [dropFlag callName]; try discriminate; intros H; injection H; auto. Qed.
Lemma defineAll_same calls : forall calls' s s' s1 s1', sameButFlag F calls calls' -> mks s = mks s' -> defineAll s calls = (s1, None) -> defineAll s' calls' = (s1', None) -> mks s1 = mks s1'.
Proof.
  induction calls as [|d calls IH]; intros [|d' calls'] s s1' s2 s2' Hs Es H H'; try discriminate; cbn [defineAll] in *; [congruence|].
  unfold sameButFlag in Hs. cbn [map] in Hs. injection Hs as Hd Hs. unfold defineCall in *. destruct (isValidSymbol (callName d)); [|discriminate]. destruct (isValidSymbol (callName d')); [|discriminate].
  destruct (defineRaw s _) as [s3 [e|]] eqn:E; [discriminate|]. destruct (defineRaw s1' _) as [s3' [e'|]] eqn:E'; [discriminate|]. eapply IH; [exact Hs| |exact H|exact H']. eapply defineRaw_same; [exact Es| |exact E|exact E']. apply drop_user; auto.
Qed.

(** ** Init *)
Lemma mk_preinit d : mk (preinit d) = preinit (mk d).
Proof. unfold preinit, initRanges. rewrite mk_kind. destruct (dKind d) eqn:E; auto. apply mk_setKind. rewrite E. auto. Qed.
Lemma preinitAll_mk defs : forall h, preinitAll (mkh h) defs = mkh (preinitAll h defs).
Proof. unfold preinitAll. induction defs as [|a l IH]; intros h; simpl; auto. rewrite mkh_upd' by apply mk_preinit. apply IH. Qed.
Lemma flagAt_mk h a f : N.land f F = 0%N -> hasFlag (commitAt (mkh h) a) f = hasFlag (commitAt h a) f.
Proof. intros H. unfold commitAt. rewrite mkh_nth. destruct (nth_error h a) as [d|]; auto. simpl. apply mk_flag; auto. Qed.
Lemma nameAt_mk h a : nameAt (mkh h) a = nameAt h a.
Proof. unfold nameAt. rewrite mkh_nth. destruct (nth_error h a) as [d|]; auto. apply mk_name. Qed.
Lemma hasWhitespace_mk h defs : hasWhitespace (mkh h) defs = hasWhitespace h defs.
Proof. unfold hasWhitespace. induction defs as [|a l IH]; simpl; auto. rewrite flagAt_mk by auto. rewrite IH. auto. Qed.
Lemma splitWs_mk defs : forall h, splitWhitespaceDefs (mkh h) defs = (let '(h1, w, r) := splitWhitespaceDefs h defs in (mkh h1, w, r)).
Proof.
  induction defs as [|a l IH]; intros h; cbn [splitWhitespaceDefs]; auto. rewrite flagAt_mk by auto. destruct (hasFlag _ _).
  - rewrite mkh_upd' by (intros; apply mk_lor; auto). rewrite IH. destruct (splitWhitespaceDefs _ l) as [[h1 w] r]. auto.
  - rewrite IH. destruct (splitWhitespaceDefs _ l) as [[h1 w] r]. auto.
Qed.
Lemma mk_alias n items : mk (newSequence n CAlias items) = newSequence n CAlias items.
Proof. unfold mk, setCommitType, newSequence. cbn [dKind dName dId dCommit]. rewrite drop_free; auto. Qed.
Lemma wsItems_mk n items : forall i, mkh (fst (wsItems n i items)) = fst (wsItems n i items).
Proof.
  induction items as [|it items IH]; intros i; auto. cbn [wsItems]. specialize (IH (S i)). destruct (wsItems n (S i) items) as [defs rest]. cbn [fst] in IH.
  destruct (Z.eqb _ _); auto. cbv zeta. destruct (Z.ltb _ _); cbn [fst map]; rewrite ?IH, ?mk_alias; auto.
Qed.
Lemma toSeq_mk n ct items : applyWhitespaceToSeq n (N.ldiff ct F) items = mkh (applyWhitespaceToSeq n ct items).
Proof. unfold applyWhitespaceToSeq. pose proof (wsItems_mk n items 0) as H. destruct (wsItems n 0 items) as [defs its]. cbn [fst] in H. rewrite map_app, H. auto. Qed.
Lemma toDefs_mk defs : N.land CNoWhitespace F = 0%N -> forall h, applyWhitespaceToDefs (mkh h) defs = (let (h1, r) := applyWhitespaceToDefs h defs in (mkh h1, r)).
Proof.
  intros Hn. induction defs as [|a l IH]; intros h; cbn [applyWhitespaceToDefs]; auto. rewrite mkh_nth.
  destruct (nth_error h a) as [[n i ct [cn ch rs|oi items rs ids gs ac v ii|os od gs v ii]]|]; cbn [option_map]; try (rewrite IH; destruct (applyWhitespaceToDefs h l); reflexivity).
  change (mk (mkDef n i ct (KSeq oi items rs ids gs ac v ii))) with (mkDef n i (N.ldiff ct F) (KSeq oi items rs ids gs ac v ii)). cbn iota. rewrite drop_flag by auto. destruct (hasFlag ct CNoWhitespace).
  - rewrite IH; destruct (applyWhitespaceToDefs h l); reflexivity.
  - cbv zeta. rewrite toSeq_mk, <- map_app, !map_length, IH. destruct (applyWhitespaceToDefs (h ++ _) l); reflexivity.
Qed.
Lemma splitRoot_mk h defs : splitRoot (mkh h) defs = splitRoot h defs.
Proof.
  unfold splitRoot. rewrite (filter_ext' _ (fun a => hasFlag (commitAt h a) CRoot)) by (intros; apply flagAt_mk; auto).
  rewrite (filter_ext' (fun a => negb (hasFlag (commitAt (mkh h) a) CRoot)) (fun a => negb (hasFlag (commitAt h a) CRoot))) by (intros; rewrite flagAt_mk by auto; auto). auto.
Qed.
Lemma toRoot_mk h root : applyWhitespaceToRoot (mkh h) root = (let (h1, r) := applyWhitespaceToRoot h root in (mkh h1, r)).
Proof.
  unfold applyWhitespaceToRoot. cbv zeta. rewrite nameAt_mk. set (w := patchName [nameAt h root; "wsroot"%string]). rewrite mkh_upd'.
  - rewrite map_app, map_length. cbn [map]. unfold mk at 3, setCommitType, newSequence. cbn [dKind dName dId dCommit]. rewrite (drop_free CRoot); auto.
  - intros [n i c [| |]]; unfold mk, setCommitType, setName; cbn [dKind dName dId dCommit]; auto; rewrite drop_lor, drop_ldiff; auto.
Qed.
Lemma newRegistryLoop_mk defs : forall h r, newRegistryLoop (mkh h) r defs = (let (h1, r1) := newRegistryLoop h r defs in (mkh h1, r1)).
Proof.
  induction defs as [|a l IH]; intros h r; cbn [newRegistryLoop]; auto. rewrite setDefinition_mk. destruct (setDefinition h r a) as [[h1 r1] e]. apply IH.
Qed.

Lemma validateNames_mk m rec rec' : (forall h a, rec' (mkh h) a = mapR (fun x => (mkh (fst x), snd x)) (rec h a)) ->
  forall names h, validateNames m rec' names (mkh h) = mapR (fun x => (mkh (fst x), snd x)) (validateNames m rec names h).
Proof.
  intros Hr. induction names as [|n names IH]; intros h; cbn [validateNames]; auto. destruct (lookup m n) as [a|]; auto. rewrite Hr. destruct (rec h a) as [[h1 [e|]]|w|]; cbn [mapR bind fst snd]; auto.
Qed.
Lemma validate_mk m n : forall h a, validate m n (mkh h) a = mapR (fun x => (mkh (fst x), snd x)) (validate m n h a).
Proof.
  induction n as [|n IH]; intros h a; cbn [validate]; auto. rewrite mkh_nth. destruct (nth_error h a) as [d|] eqn:Ed; cbn [option_map]; auto. rewrite mk_kind. destruct (dKind d) as [cn ch rs|oi items rs ids gs ac v ii|os od gs v ii] eqn:Ek; auto.
  - destruct v; auto. rewrite mkh_upd; [apply validateNames_mk; auto|]. intros d0 Hd0. apply mk_setKind. rewrite Ed in Hd0. injection Hd0 as <-. rewrite Ek. auto.
  - destruct v; auto. rewrite mkh_upd; [apply validateNames_mk; auto|]. intros d0 Hd0. apply mk_setKind. rewrite Ed in Hd0. injection Hd0 as <-. rewrite Ek. auto.
Qed.
Lemma validateAll_mk m n l : forall h, validateAll m n l (mkh h) = mapR (fun x => (mkh (fst x), snd x)) (validateAll m n l h).
Proof. induction l as [|a l IH]; intros h; cbn [validateAll]; auto. rewrite validate_mk. destruct (validate m n h a) as [[h1 [e|]]|w|]; cbn [mapR bind fst snd]; auto. Qed.
Lemma forAddrs_mk rec rec' : (forall h a, rec' (mkh h) a = mapR mkh (rec h a)) -> forall l h, forAddrs rec' l (mkh h) = mapR mkh (forAddrs rec l h).
Proof. intros Hr. induction l as [|a l IH]; intros h; cbn [forAddrs]; auto. rewrite Hr. destruct (rec h a) as [h1|w|]; cbn [mapR bind]; auto. Qed.
Lemma addGen_mk n g : forall h a, addGeneralization n g (mkh h) a = mapR mkh (addGeneralization n g h a).
Proof.
  induction n as [|n IH]; intros h a; cbn [addGeneralization]; auto. rewrite mkh_nth. destruct (nth_error h a) as [d|] eqn:Ed; cbn [option_map]; auto. rewrite mk_kind. destruct (dKind d) as [cn ch rs|oi items rs ids gs ac v ii|os od gs v ii] eqn:Ek; auto.
  - destruct (intsContain gs g); auto. cbn [mapR]. rewrite mkh_upd; auto. intros d0 Hd0. apply mk_setKind. rewrite Ed in Hd0. injection Hd0 as <-. rewrite Ek. auto.
  - destruct (intsContain gs g); auto. rewrite mkh_upd; [apply forAddrs_mk; auto|]. intros d0 Hd0. apply mk_setKind. rewrite Ed in Hd0. injection Hd0 as <-. rewrite Ek. auto.
Qed.
Lemma mk_addItem x d : mk (addItemDef x d) = addItemDef x (mk d).
Proof. unfold addItemDef. rewrite mk_kind. destruct (dKind d) eqn:E; auto; apply mk_setKind; rewrite E; auto. Qed.
Lemma mk_allChars b d : mk (setAllChars b d) = setAllChars b (mk d).
Proof. unfold setAllChars. rewrite mk_kind. destruct (dKind d) eqn:E; auto; apply mk_setKind; rewrite E; auto. Qed.
Lemma mk_initialized d : mk (setInitialized d) = setInitialized (mk d).
Proof. unfold setInitialized. rewrite mk_kind. destruct (dKind d) eqn:E; auto; apply mk_setKind; rewrite E; auto. Qed.
Lemma isCharAt_mk h a : isCharAt (mkh h) a = isCharAt h a.
Proof. unfold isCharAt. rewrite mkh_nth. destruct (nth_error h a) as [[n i ct [| |]]|]; auto. Qed.
Lemma initItems_mk m rec d : (forall h a, rec (mkh h) a = mapR mkh (rec h a)) ->
  forall names b h, initItemsLoop m rec d names b (mkh h) = mapR (fun x => (mkh (fst x), snd x)) (initItemsLoop m rec d names b h).
Proof.
  intros Hr. induction names as [|n names IH]; intros b h; cbn [initItemsLoop]; auto. destruct (lookup m n) as [x|]; auto. cbv zeta. rewrite mkh_upd' by (intros; apply mk_addItem). rewrite Hr.
  destruct (rec (updNth d (addItemDef x) h) x) as [h1|w|]; cbn [mapR bind]; auto. rewrite isCharAt_mk. auto.
Qed.
Lemma initOptions_mk m rec gf d id : (forall h a, rec (mkh h) a = mapR mkh (rec h a)) ->
  forall names h, initOptionsLoop m rec gf d id names (mkh h) = mapR mkh (initOptionsLoop m rec gf d id names h).
Proof.
  intros Hr. induction names as [|n names IH]; intros h; cbn [initOptionsLoop]; auto. destruct (lookup m n) as [x|]; auto. cbv zeta. rewrite mkh_upd' by (intros; apply mk_addItem). rewrite Hr.
  destruct (rec (updNth d (addItemDef x) h) x) as [h1|w|]; cbn [mapR bind]; auto. rewrite addGen_mk. destruct (addGeneralization gf id h1 x) as [h2|w|]; cbn [mapR bind]; auto.
Qed.
Lemma initDef_mk m gf n : forall h a, initDef m n gf (mkh h) a = mapR mkh (initDef m n gf h a).
Proof.
  induction n as [|n IH]; intros h a; cbn [initDef]; auto. rewrite mkh_nth. destruct (nth_error h a) as [d|] eqn:Ed; cbn [option_map]; auto. rewrite mk_kind, mk_id. destruct (dKind d) as [cn ch rs|oi items rs ids gs ac v ii|os od gs v ii] eqn:Ek; auto.
  - destruct ii; auto. cbv zeta. rewrite mkh_upd' by (intros; rewrite <- mk_initialized; apply mk_preinit). rewrite (initItems_mk m (initDef m n gf)) by auto.
    destruct (initItemsLoop m (initDef m n gf) a (map siName items) true _) as [[h1 b]|w|]; cbn [mapR bind fst snd]; auto. rewrite mkh_upd' by (intros; apply mk_allChars). auto.
  - destruct ii; auto. rewrite mkh_upd' by apply mk_initialized. apply initOptions_mk; auto.
Qed.

Lemma prepare_mk s reg root : N.land CNoWhitespace F = 0%N \/ hasWhitespace (preinitAll (sHeap s) (gDefinitions reg)) (gDefinitions reg) = false ->
  prepare (mks s) reg root = mapR (fun x => (mkh (fst (fst x)), snd (fst x), snd x)) (prepare s reg root).
Proof.
  intros Hw. unfold prepare. change (sHeap (mks s)) with (mkh (sHeap s)). rewrite preinitAll_mk. set (h := preinitAll _ _) in *. cbv zeta. rewrite hasWhitespace_mk. destruct (hasWhitespace _ _); auto.
  destruct Hw as [Hw|Hw]; [|discriminate].
  unfold applyWhitespace. rewrite splitWs_mk. destruct (splitWhitespaceDefs h _) as [[h1 ws] rest] eqn:E1. cbv zeta. rewrite map_length.
  replace (mkh h1 ++ [newChoice whitespaceName CAlias (map (nameAt (mkh h1)) ws)]) with (mkh (h1 ++ [newChoice whitespaceName CAlias (map (nameAt h1) ws)])).
  2:{ rewrite map_app. rewrite (map_ext (nameAt (mkh h1)) (nameAt h1)) by (intros; apply nameAt_mk). cbn [map]. unfold mk at 2, setCommitType, newChoice. cbn [dKind dName dId dCommit]. rewrite (drop_free CAlias); auto. }
  rewrite toDefs_mk by auto. set (h2 := h1 ++ _) in *. destruct (applyWhitespaceToDefs h2 rest) as [h3 defs] eqn:E3.
  rewrite splitRoot_mk. destruct (splitRoot h3 defs) as [[r|] rest2] eqn:Er; auto.
  rewrite toRoot_mk. destruct (applyWhitespaceToRoot h3 r) as [h4 r4]. cbn [bind]. unfold newRegistry. rewrite newRegistryLoop_mk. destruct (newRegistryLoop h4 emptyRegistry _) as [h5 reg5]. auto.
Qed.
Lemma initCore_mk m n l h : initCore m n l (mkh h) = mapR (fun x => (mkh (fst x), snd x)) (initCore m n l h).
Proof.
  unfold initCore. rewrite validateAll_mk. destruct (validateAll m n l h) as [[h1 [e|]]|w|]; cbn [mapR bind fst snd]; auto.
  rewrite (forAddrs_mk (initDef m n n)) by (intros; apply initDef_mk). destruct (forAddrs _ l h1) as [h2|w|]; auto.
Qed.
Lemma Init_mk n s : (forall r d, sRoot s = Some r -> nth_error (sHeap s) r = Some d -> checkCommitType (mk d) = checkCommitType d) ->
  N.land CNoWhitespace F = 0%N \/ hasWhitespace (preinitAll (sHeap s) (gDefinitions (regOf s))) (gDefinitions (regOf s)) = false ->
  Init n (mks s) = mapR (fun x => (mks (fst x), snd x)) (Init n s).
Proof.
  intros Hr Hw. rewrite !Init_split. change (sInitFailed (mks s)) with (sInitFailed s). change (sInitialized (mks s)) with (sInitialized s). destruct (sInitFailed s); auto. destruct (sInitialized s); auto.
  change (sRoot (mks s)) with (sRoot s). destruct (sRoot s) as [root|] eqn:Er; auto. change (nth_error (sHeap (mks s)) root) with (nth_error (mkh (sHeap s)) root). rewrite mkh_nth. destruct (nth_error (sHeap s) root) as [rd|] eqn:Ed; auto.
  cbn [option_map]. change (sRegistry (mks s)) with (sRegistry s). unfold regOf in Hw. destruct (sRegistry s) as [reg|]; auto. rewrite (Hr root rd) by auto. destruct (checkCommitType rd); auto.
  rewrite prepare_mk by auto. destruct (prepare s reg root) as [[[h reg1] root1]|w|]; auto. cbn [mapR bind fst snd]. change (sKeywords (mks s)) with (sKeywords s). rewrite initCore_mk.
  destruct (initCore _ _ _ h) as [[h1 [e|]]|w|]; auto.
Qed.
Definition mkp (o : pobj) : pobj :=
  match o with
  | PChar n i cn ch rs => PChar n i cn ch rs
  | PSeq n i ct items ranges gs ac => PSeq n i (N.ldiff ct F) items ranges gs ac
  | PChoice n i ct options gs => PChoice n i (N.ldiff ct F) options gs
  end.
Lemma parsers_mk s : parsers (mks s) = map mkp (parsers s).
Proof. unfold parsers. change (sHeap (mks s)) with (mkh (sHeap s)). rewrite !map_map. apply map_ext. intros [n i c [| |]]; reflexivity. Qed.
End FLAG.
