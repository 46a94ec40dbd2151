(** The definitions with more alias flags give the same syntax, but for these flags. *)
From Verif Require Import Base Utf8 IdSet Results Parser Build Syntax ListFacts SyntaxFacts ParseFacts InitWalk InitRun InitCore InitSpec Grammar Lang Rep Api WsNames WsRefs WsApi RefApi ApiSpec HideSpec HideRun.

Section HIDE.
Variable hid : string -> bool.
Notation ctOf := (ctOf hid).
Definition mk (d : defobj) : defobj := setCommitType (ctOf (dName d) (dCommit d)) d.
Notation mkh := (map mk).
Definition mks (s : syntax) : syntax := withHeap s (mkh (sHeap s)).

Lemma mk_name d : dName (mk d) = dName d. Proof. unfold mk, setCommitType. destruct (dKind d); auto. Qed.
Lemma mk_id d : dId (mk d) = dId d. Proof. unfold mk, setCommitType. destruct (dKind d); auto. Qed.
Lemma mk_kind d : dKind (mk d) = dKind d. Proof. unfold mk, setCommitType. destruct (dKind d) eqn:E; auto. Qed.
Lemma mk_flag d f : N.land f CAlias = 0%N -> hasFlag (dCommit (mk d)) f = hasFlag (dCommit d) f.
Proof. intros H. unfold mk, setCommitType. destruct (dKind d); auto; apply ctOf_flag; auto. Qed.
Lemma mk_shown d : hid (dName d) = false -> mk d = d.
Proof. intros H. unfold mk, HideRun.ctOf. rewrite H. unfold setCommitType. destruct d as [n i c [| |]]; auto. Qed.
Lemma ctOf_lor n c f : ctOf n (N.lor c f) = N.lor (ctOf n c) f.
Proof. unfold HideRun.ctOf. destruct (hid n); auto. rewrite <- !N.lor_assoc, (N.lor_comm f). auto. Qed.
Lemma ctOf_ldiff n c f : N.land f CAlias = 0%N -> ctOf n (N.ldiff c f) = N.ldiff (ctOf n c) f.
Proof.
  intros H. unfold HideRun.ctOf. destruct (hid n); auto. apply N.bits_inj. intros k. rewrite N.ldiff_spec, !N.lor_spec, N.ldiff_spec.
  assert (B : N.testbit (N.land f CAlias) k = false) by (rewrite H; apply N.bits_0). rewrite N.land_spec in B. destruct (N.testbit f k), (N.testbit CAlias k), (N.testbit c k); auto; discriminate.
Qed.
Lemma mk_setKind k d : isCharK k = isCharK (dKind d) -> mk (setKind k d) = setKind k (mk d).
Proof. intros H. unfold mk, setCommitType, setKind. simpl. destruct k, (dKind d); simpl in *; auto; discriminate. Qed.
Lemma mk_setID i d : mk (setID i d) = setID i (mk d).
Proof. destruct d as [n j c [| |]]; reflexivity. Qed.
Lemma mk_lor f d : mk (setCommitType (N.lor (dCommit d) f) d) = setCommitType (N.lor (dCommit (mk d)) f) (mk d).
Proof. unfold mk, setCommitType. destruct d as [n i c [| |]]; simpl; auto; rewrite ctOf_lor; auto. Qed.
Lemma mk_ldiff f d : N.land f CAlias = 0%N -> mk (setCommitType (N.ldiff (dCommit d) f) d) = setCommitType (N.ldiff (dCommit (mk d)) f) (mk d).
Proof. intros H. unfold mk, setCommitType. destruct d as [n i c [| |]]; simpl; auto; rewrite ctOf_ldiff; auto. Qed.

Lemma mkh_upd f : forall h a, (forall d, nth_error h a = Some d -> mk (f d) = f (mk d)) -> updNth a f (mkh h) = mkh (updNth a f h).
Proof.
  induction h as [|x h IH]; intros [|a] H; simpl; auto.
  - rewrite (H x eq_refl). auto.
  - rewrite IH; auto.
Qed.
Lemma mkh_upd' f h a : (forall d, mk (f d) = f (mk d)) -> updNth a f (mkh h) = mkh (updNth a f h).
Proof. intros; apply mkh_upd; auto. Qed.
Lemma mkh_nth h a : nth_error (mkh h) a = option_map mk (nth_error h a). Proof. apply nth_error_map. Qed.

(** ** registering *)
Lemma setDefinition_mk h r a : setDefinition (mkh h) r a = (let '(h1, r1, e) := setDefinition h r a in (mkh h1, r1, e)).
Proof.
  unfold setDefinition. rewrite mkh_nth. destruct (nth_error h a) as [d|]; auto. simpl. rewrite mk_name. destruct (lookup _ _); auto.
  rewrite mkh_upd' by apply mk_setID. auto.
Qed.
Lemma applyRoot_mk s a : applyRoot (mks s) a = (mks (fst (applyRoot s a)), snd (applyRoot s a)).
Proof.
  unfold applyRoot, mks, withHeap. cbn [sHeap sExplicitRoot sRoot sRegistry sInitialized sInitFailed sKeywords]. rewrite mkh_nth. destruct (nth_error (sHeap s) a) as [d|]; auto. cbn [option_map]. rewrite mk_flag by reflexivity.
  cbv zeta. destruct (_ && _)%bool; auto.
  assert (A : forall h r, updNth r (fun d => setCommitType (N.ldiff (dCommit d) CRoot) d) (mkh h) = mkh (updNth r (fun d => setCommitType (N.ldiff (dCommit d) CRoot) d) h)) by (intros; apply mkh_upd'; intros; apply mk_ldiff; reflexivity).
  assert (B : forall h r, updNth r (fun d => setCommitType (N.lor (dCommit d) CRoot) d) (mkh h) = mkh (updNth r (fun d => setCommitType (N.lor (dCommit d) CRoot) d) h)) by (intros; apply mkh_upd'; intros; apply mk_lor).
  destruct (sRoot s) as [r|]; destruct (_ || _)%bool; cbn [fst snd sHeap sExplicitRoot sRoot sRegistry sInitialized sInitFailed sKeywords]; rewrite ?A, ?B; auto.
Qed.
Lemma check_iff t d : checkCommitTypeIn t d = None <-> forall ct l f, In (ct, l) t -> In f l -> hasFlag (dCommit d) ct = true -> hasFlag (dCommit d) f = false.
Proof.
  induction t as [|[ct l] t IH]; cbn [checkCommitTypeIn]; [split; auto; intros _ ct l f []|]. split.
  - intros H ct' l' f [E|Hin] Hf Hc.
    + injection E as <- <-. rewrite Hc in H. destruct (find (fun cti : commitType => hasFlag (dCommit d) cti) l) eqn:Ef; [discriminate|]. exact (find_none _ _ Ef _ Hf).
    + refine (proj1 IH _ _ _ _ Hin Hf Hc). destruct (hasFlag (dCommit d) ct); auto. destruct (find (fun cti : commitType => hasFlag (dCommit d) cti) l); auto. discriminate.
  - intros H. assert (T : checkCommitTypeIn t d = None) by (apply IH; intros; eapply H; eauto; right; eauto). destruct (hasFlag (dCommit d) ct) eqn:E; auto.
    destruct (find (fun cti : commitType => hasFlag (dCommit d) cti) l) eqn:Ef; auto. apply find_some in Ef. destruct Ef as [Ef1 Ef2]. rewrite (H _ _ _ (or_introl eq_refl) Ef1 E) in Ef2. discriminate.
Qed.
Lemma mk_alias d : hasFlag (dCommit d) CAlias = true -> hasFlag (dCommit (mk d)) CAlias = true.
Proof. intros X. unfold mk, setCommitType. destruct (dKind d); auto; simpl; rewrite ctOf_alias, X; apply orb_true_r. Qed.
Lemma table_other ct l f : In (ct, l) incompatibleCommitTypes -> In f l -> N.land f CAlias = 0%N /\ (ct = CAlias \/ N.land ct CAlias = 0%N).
Proof. intros [E|[E|[E|[E|[]]]]]; injection E as <- <-; intros Hf; simpl in Hf; repeat (destruct Hf as [<-|Hf]); auto; destruct Hf. Qed.
Lemma check_hid d : checkCommitType (mk d) = None -> checkCommitType d = None.
Proof.
  unfold checkCommitType. rewrite !check_iff. intros H ct l f Hin Hf Hc. destruct (table_other _ _ _ Hin Hf) as [T1 T2]. rewrite <- mk_flag by auto. apply (H ct l f Hin Hf).
  destruct T2 as [->|T2]; [apply mk_alias; auto|rewrite mk_flag; auto].
Qed.
Lemma register_mk s d s1 : register (mks s) (mk d) = (s1, None) -> exists s0, register s d = (s0, None) /\ s1 = mks s0.
Proof.
  unfold register. change (sInitialized (mks s)) with (sInitialized s). destruct (sInitialized s) eqn:Ei; [discriminate|]. cbv zeta.
  set (s2 := mkSyntax (sHeap s ++ [d]) _ _ _ _ _ _).
  change (sHeap (mks s)) with (mkh (sHeap s)). change (sRegistry (mks s)) with (sRegistry s). change (sInitFailed (mks s)) with (sInitFailed s).
  change (sExplicitRoot (mks s)) with (sExplicitRoot s). change (sKeywords (mks s)) with (sKeywords s). change (sRoot (mks s)) with (sRoot s).
  change [mk d] with (mkh [d]). rewrite <- map_app, map_length.
  match goal with |- context [applyRoot ?x (List.length (sHeap s))] => change x with (mks s2) end.
  destruct (checkCommitType (mk d)) eqn:Ec; [discriminate|]. rewrite (check_hid d Ec). rewrite applyRoot_mk. destruct (applyRoot s2 _) as [s3 [err|]]; cbn [fst snd]; [discriminate|].
  change (sHeap (mks s3)) with (mkh (sHeap s3)). rewrite setDefinition_mk. destruct (setDefinition (sHeap s3) _ _) as [[h reg] e]. rewrite mk_flag by reflexivity.
  intros H. assert (e = None) as -> by congruence. eexists. split; [reflexivity|]. injection H as <-. reflexivity.
Qed.
Hypothesis hid_free : forall n, hid n = true -> colonFree n.
Lemma mk_char n i cn ch rs : mk (newChar (childName n i) cn ch rs) = newChar (childName n i) cn ch rs.
Proof. reflexivity. Qed.
Lemma charSeqLoop_mk name chars : forall s i s1, charSeqLoop (mks s) name i chars = (s1, None) -> exists s0, charSeqLoop s name i chars = (s0, None) /\ s1 = mks s0.
Proof.
  induction chars as [|c chars IH]; intros s i s1 H; cbn [charSeqLoop] in *.
  - injection H as <-. eauto.
  - destruct (register (mks s) _) as [s2 [e|]] eqn:E; [discriminate|]. apply (register_mk s (newChar (childName name i) false [c] [])) in E. destruct E as (s0 & -> & ->). auto.
Qed.
Lemma defineRaw_mk s d s1 : defineRaw (mks s) (aliasIf hid d) = (s1, None) -> exists s0, defineRaw s d = (s0, None) /\ s1 = mks s0.
Proof.
  assert (C : forall n ct cn ch rs, class (mks s) n (ctOf n ct) cn ch rs = (s1, None) -> exists s0, class s n ct cn ch rs = (s0, None) /\ s1 = mks s0).
  { intros n ct cn ch rs. unfold class. cbv zeta. destruct (register (mks s) _) as [s2 [e|]] eqn:E; [discriminate|].
    apply (register_mk s (newChar (childName n 0) cn ch rs)) in E. destruct E as (s0 & -> & ->). apply (register_mk s0 (newSequence n ct _)). }
  destruct d as [n ct|n ct cn ch rs|n ct chars|n ct items|n ct options]; cbn [defineRaw aliasIf].
  - apply C.
  - apply C.
  - unfold charSequence. destruct (charSeqLoop (mks s) n 0 chars) as [s2 [e|]] eqn:E; [discriminate|]. apply charSeqLoop_mk in E. destruct E as (s0 & -> & ->).
    change (if hid n then N.lor ct CAlias else ct) with (ctOf n ct). rewrite <- ctOf_lor. apply (register_mk s0 (newSequence n _ _)).
  - apply (register_mk s (newSequence n ct items)).
  - apply (register_mk s (newChoice n ct options)).
Qed.
Lemma user_alias d : withUserDefined (aliasIf hid d) = aliasIf hid (withUserDefined d).
Proof. destruct d; cbn [withUserDefined aliasIf]; f_equal; exact (eq_sym (ctOf_lor name ct CUserDefined)). Qed.
Lemma alias_name d : callName (aliasIf hid d) = callName d. Proof. destruct d; auto. Qed.
Lemma defineAll_mk calls : forall s s1, defineAll (mks s) (map (aliasIf hid) calls) = (s1, None) -> exists s0, defineAll s calls = (s0, None) /\ s1 = mks s0.
Proof.
  induction calls as [|d calls IH]; intros s s1 H; cbn [defineAll map] in *.
  - injection H as <-. eauto.
  - unfold defineCall in *. rewrite alias_name in H. destruct (isValidSymbol (callName d)); [|discriminate]. rewrite user_alias in H.
    destruct (defineRaw (mks s) _) as [s2 [e|]] eqn:E; [discriminate|]. apply defineRaw_mk in E. destruct E as (s0 & -> & ->). auto.
Qed.

(** ** Init *)
Lemma mk_preinit d : mk (preinit d) = preinit (mk d).
Proof. unfold preinit, initRanges. rewrite mk_kind. destruct (dKind d) eqn:E; auto. apply mk_setKind. rewrite E. auto. Qed.
Lemma preinitAll_mk defs : forall h, preinitAll (mkh h) defs = mkh (preinitAll h defs).
Proof. unfold preinitAll. induction defs as [|a l IH]; intros h; simpl; auto. rewrite mkh_upd' by apply mk_preinit. apply IH. Qed.
Lemma flagAt_mk h a f : N.land f CAlias = 0%N -> hasFlag (commitAt (mkh h) a) f = hasFlag (commitAt h a) f.
Proof. intros H. unfold commitAt. rewrite mkh_nth. destruct (nth_error h a) as [d|]; auto. simpl. apply mk_flag; auto. Qed.
Lemma nameAt_mk h a : nameAt (mkh h) a = nameAt h a.
Proof. unfold nameAt. rewrite mkh_nth. destruct (nth_error h a) as [d|]; auto. apply mk_name. Qed.
Lemma hasWhitespace_mk h defs : hasWhitespace (mkh h) defs = hasWhitespace h defs.
Proof. unfold hasWhitespace. induction defs as [|a l IH]; simpl; auto. rewrite flagAt_mk by reflexivity. rewrite IH. auto. Qed.
Lemma splitWs_mk defs : forall h, splitWhitespaceDefs (mkh h) defs = (let '(h1, w, r) := splitWhitespaceDefs h defs in (mkh h1, w, r)).
Proof.
  induction defs as [|a l IH]; intros h; cbn [splitWhitespaceDefs]; auto. rewrite flagAt_mk by reflexivity. destruct (hasFlag _ _).
  - rewrite mkh_upd' by (intros; apply mk_lor). rewrite IH. destruct (splitWhitespaceDefs _ l) as [[h1 w] r]. auto.
  - rewrite IH. destruct (splitWhitespaceDefs _ l) as [[h1 w] r]. auto.
Qed.
Lemma free_hid n : ~ colonFree n -> hid n = false.
Proof. intros H. destruct (hid n) eqn:E; auto. elim H; auto. Qed.
Lemma wsItems_mk n items : forall i, mkh (fst (wsItems n i items)) = fst (wsItems n i items).
Proof.
  induction items as [|it items IH]; intros i; auto. cbn [wsItems]. specialize (IH (S i)). destruct (wsItems n (S i) items) as [defs rest]. cbn [fst] in IH.
  assert (R : forall m its, mk (newSequence (patchName (siName it :: n :: m)) CAlias its) = newSequence (patchName (siName it :: n :: m)) CAlias its).
  { intros m its. apply mk_shown. apply free_hid, patch_not_free. }
  destruct (Z.eqb _ _); auto. cbv zeta. destruct (Z.ltb _ _); cbn [fst map]; rewrite ?IH, ?R; auto.
Qed.
Lemma toSeq_mk n ct items : applyWhitespaceToSeq n (ctOf n ct) items = mkh (applyWhitespaceToSeq n ct items).
Proof. unfold applyWhitespaceToSeq. pose proof (wsItems_mk n items 0) as H. destruct (wsItems n 0 items) as [defs its]. cbn [fst] in H. rewrite map_app, H. auto. Qed.
Lemma toDefs_mk defs : forall h, applyWhitespaceToDefs (mkh h) defs = (let (h1, r) := applyWhitespaceToDefs h defs in (mkh h1, r)).
Proof.
  induction defs as [|a l IH]; intros h; cbn [applyWhitespaceToDefs]; auto. rewrite mkh_nth.
  destruct (nth_error h a) as [[n i ct [cn ch rs|oi items rs ids gs ac v ii|os od gs v ii]]|]; cbn [option_map]; try (rewrite IH; destruct (applyWhitespaceToDefs h l); reflexivity).
  change (mk (mkDef n i ct (KSeq oi items rs ids gs ac v ii))) with (mkDef n i (ctOf n ct) (KSeq oi items rs ids gs ac v ii)). cbn iota. rewrite ctOf_flag by reflexivity. destruct (hasFlag ct CNoWhitespace).
  - rewrite IH; destruct (applyWhitespaceToDefs h l); reflexivity.
  - cbv zeta. rewrite toSeq_mk, <- map_app, !map_length, IH. destruct (applyWhitespaceToDefs (h ++ _) l); reflexivity.
Qed.
Lemma filter_ext' {A} (f g : A -> bool) l : (forall x, f x = g x) -> filter f l = filter g l.
Proof. intros H. induction l as [|x l IH]; simpl; auto. rewrite H, IH. auto. Qed.
Lemma splitRoot_mk h defs : splitRoot (mkh h) defs = splitRoot h defs.
Proof.
  unfold splitRoot. rewrite (filter_ext' _ (fun a => hasFlag (commitAt h a) CRoot)) by (intros; apply flagAt_mk; reflexivity).
  rewrite (filter_ext' (fun a => negb (hasFlag (commitAt (mkh h) a) CRoot)) (fun a => negb (hasFlag (commitAt h a) CRoot))) by (intros; rewrite flagAt_mk by reflexivity; auto). auto.
Qed.
Lemma toRoot_mk h root : hid (nameAt h root) = false -> applyWhitespaceToRoot (mkh h) root = (let (h1, r) := applyWhitespaceToRoot h root in (mkh h1, r)).
Proof.
  intros Hr. unfold applyWhitespaceToRoot. cbv zeta. rewrite nameAt_mk. set (w := patchName [nameAt h root; "wsroot"%string]). assert (Hw : hid w = false) by (apply free_hid, patch_not_free).
  rewrite mkh_upd.
  - rewrite map_app, map_length. cbn [map]. rewrite (mk_shown (newSequence _ _ _)); auto.
  - intros d Hd. unfold nameAt in Hr. rewrite Hd in Hr. rewrite (mk_shown d) by auto. apply mk_shown. unfold setCommitType. simpl. destruct (dKind d); auto.
Qed.
Lemma newRegistryLoop_mk defs : forall h r, newRegistryLoop (mkh h) r defs = (let (h1, r1) := newRegistryLoop h r defs in (mkh h1, r1)).
Proof.
  induction defs as [|a l IH]; intros h r; cbn [newRegistryLoop]; auto. rewrite setDefinition_mk. destruct (setDefinition h r a) as [[h1 r1] e]. apply IH.
Qed.

Lemma validateNames_mk m rec rec' : (forall h a, rec' (mkh h) a = mapR (fun x => (mkh (fst x), snd x)) (rec h a)) ->
  forall names h, validateNames m rec' names (mkh h) = mapR (fun x => (mkh (fst x), snd x)) (validateNames m rec names h).
Proof.
  intros Hr. induction names as [|n names IH]; intros h; cbn [validateNames]; auto. destruct (lookup m n) as [a|]; auto. rewrite Hr. destruct (rec h a) as [[h1 [e|]]|w|]; cbn [mapR bind fst snd]; auto.
Qed.
Lemma validate_mk m n : forall h a, validate m n (mkh h) a = mapR (fun x => (mkh (fst x), snd x)) (validate m n h a).
Proof.
  induction n as [|n IH]; intros h a; cbn [validate]; auto. rewrite mkh_nth. destruct (nth_error h a) as [d|] eqn:Ed; cbn [option_map]; auto. rewrite mk_kind. destruct (dKind d) as [cn ch rs|oi items rs ids gs ac v ii|os od gs v ii] eqn:Ek; auto.
  - destruct v; auto. rewrite mkh_upd; [apply validateNames_mk; auto|]. intros d0 Hd0. apply mk_setKind. rewrite Ed in Hd0. injection Hd0 as <-. rewrite Ek. auto.
  - destruct v; auto. rewrite mkh_upd; [apply validateNames_mk; auto|]. intros d0 Hd0. apply mk_setKind. rewrite Ed in Hd0. injection Hd0 as <-. rewrite Ek. auto.
Qed.
Lemma validateAll_mk m n l : forall h, validateAll m n l (mkh h) = mapR (fun x => (mkh (fst x), snd x)) (validateAll m n l h).
Proof. induction l as [|a l IH]; intros h; cbn [validateAll]; auto. rewrite validate_mk. destruct (validate m n h a) as [[h1 [e|]]|w|]; cbn [mapR bind fst snd]; auto. Qed.
Lemma forAddrs_mk rec rec' : (forall h a, rec' (mkh h) a = mapR mkh (rec h a)) -> forall l h, forAddrs rec' l (mkh h) = mapR mkh (forAddrs rec l h).
Proof. intros Hr. induction l as [|a l IH]; intros h; cbn [forAddrs]; auto. rewrite Hr. destruct (rec h a) as [h1|w|]; cbn [mapR bind]; auto. Qed.
Lemma addGen_mk n g : forall h a, addGeneralization n g (mkh h) a = mapR mkh (addGeneralization n g h a).
Proof.
  induction n as [|n IH]; intros h a; cbn [addGeneralization]; auto. rewrite mkh_nth. destruct (nth_error h a) as [d|] eqn:Ed; cbn [option_map]; auto. rewrite mk_kind. destruct (dKind d) as [cn ch rs|oi items rs ids gs ac v ii|os od gs v ii] eqn:Ek; auto.
  - destruct (intsContain gs g); auto. cbn [mapR]. rewrite mkh_upd; auto. intros d0 Hd0. apply mk_setKind. rewrite Ed in Hd0. injection Hd0 as <-. rewrite Ek. auto.
  - destruct (intsContain gs g); auto. rewrite mkh_upd; [apply forAddrs_mk; auto|]. intros d0 Hd0. apply mk_setKind. rewrite Ed in Hd0. injection Hd0 as <-. rewrite Ek. auto.
Qed.
Lemma mk_addItem x d : mk (addItemDef x d) = addItemDef x (mk d).
Proof. unfold addItemDef. rewrite mk_kind. destruct (dKind d) eqn:E; auto; apply mk_setKind; rewrite E; auto. Qed.
Lemma mk_allChars b d : mk (setAllChars b d) = setAllChars b (mk d).
Proof. unfold setAllChars. rewrite mk_kind. destruct (dKind d) eqn:E; auto; apply mk_setKind; rewrite E; auto. Qed.
Lemma mk_initialized d : mk (setInitialized d) = setInitialized (mk d).
Proof. unfold setInitialized. rewrite mk_kind. destruct (dKind d) eqn:E; auto; apply mk_setKind; rewrite E; auto. Qed.
Lemma isCharAt_mk h a : isCharAt (mkh h) a = isCharAt h a.
Proof. unfold isCharAt. rewrite mkh_nth. destruct (nth_error h a) as [[n i ct [| |]]|]; auto. Qed.
Lemma initItems_mk m rec d : (forall h a, rec (mkh h) a = mapR mkh (rec h a)) ->
  forall names b h, initItemsLoop m rec d names b (mkh h) = mapR (fun x => (mkh (fst x), snd x)) (initItemsLoop m rec d names b h).
Proof.
  intros Hr. induction names as [|n names IH]; intros b h; cbn [initItemsLoop]; auto. destruct (lookup m n) as [x|]; auto. cbv zeta. rewrite mkh_upd' by (intros; apply mk_addItem). rewrite Hr.
  destruct (rec (updNth d (addItemDef x) h) x) as [h1|w|]; cbn [mapR bind]; auto. rewrite isCharAt_mk. auto.
Qed.
Lemma initOptions_mk m rec gf d id : (forall h a, rec (mkh h) a = mapR mkh (rec h a)) ->
  forall names h, initOptionsLoop m rec gf d id names (mkh h) = mapR mkh (initOptionsLoop m rec gf d id names h).
Proof.
  intros Hr. induction names as [|n names IH]; intros h; cbn [initOptionsLoop]; auto. destruct (lookup m n) as [x|]; auto. cbv zeta. rewrite mkh_upd' by (intros; apply mk_addItem). rewrite Hr.
  destruct (rec (updNth d (addItemDef x) h) x) as [h1|w|]; cbn [mapR bind]; auto. rewrite addGen_mk. destruct (addGeneralization gf id h1 x) as [h2|w|]; cbn [mapR bind]; auto.
Qed.
Lemma initDef_mk m gf n : forall h a, initDef m n gf (mkh h) a = mapR mkh (initDef m n gf h a).
Proof.
  induction n as [|n IH]; intros h a; cbn [initDef]; auto. rewrite mkh_nth. destruct (nth_error h a) as [d|] eqn:Ed; cbn [option_map]; auto. rewrite mk_kind, mk_id. destruct (dKind d) as [cn ch rs|oi items rs ids gs ac v ii|os od gs v ii] eqn:Ek; auto.
  - destruct ii; auto. cbv zeta. rewrite mkh_upd' by (intros; rewrite <- mk_initialized; apply mk_preinit). rewrite (initItems_mk m (initDef m n gf)) by auto.
    destruct (initItemsLoop m (initDef m n gf) a (map siName items) true _) as [[h1 b]|w|]; cbn [mapR bind fst snd]; auto. rewrite mkh_upd' by (intros; apply mk_allChars). auto.
  - destruct ii; auto. rewrite mkh_upd' by apply mk_initialized. apply initOptions_mk; auto.
Qed.

(** every definition with the root flag is shown *)
Definition rootsShown (h : dheap) : Prop := forall d, In d h -> hasFlag (dCommit d) CRoot = true -> hid (dName d) = false.
Lemma in_updNth {A} (f : A -> A) l : forall i x, In x (updNth i f l) -> In x l \/ exists y, In y l /\ x = f y.
Proof.
  induction l as [|y l IH]; intros [|i] x H; simpl in *; auto.
  - destruct H as [<-|H]; eauto.
  - destruct H as [<-|H]; auto. apply IH in H. destruct H as [H|(z & H & ->)]; eauto.
Qed.
Lemma rs_upd f h a : (forall d, dName (f d) = dName d) -> (forall d, hasFlag (dCommit (f d)) CRoot = true -> hasFlag (dCommit d) CRoot = true) -> rootsShown h -> rootsShown (updNth a f h).
Proof. intros A B H d Hd Hf. apply in_updNth in Hd. destruct Hd as [Hd|(y & Hy & ->)]; auto. rewrite A. auto. Qed.
Lemma preinit_name d : dName (preinit d) = dName d /\ dCommit (preinit d) = dCommit d.
Proof. unfold preinit, initRanges. destruct (dKind d); auto. Qed.
Lemma rs_preinit defs : forall h, rootsShown h -> rootsShown (preinitAll h defs).
Proof.
  unfold preinitAll. induction defs as [|a l IH]; intros h H; simpl; auto. apply IH. apply rs_upd; auto; intros d; destruct (preinit_name d) as [P1 P2]; rewrite ?P1, ?P2; auto.
Qed.
Lemma setCommit_name c d : dName (setCommitType c d) = dName d. Proof. unfold setCommitType. destruct (dKind d); auto. Qed.
Lemma rs_split defs : forall h h1 w r, splitWhitespaceDefs h defs = (h1, w, r) -> rootsShown h -> rootsShown h1.
Proof.
  induction defs as [|a l IH]; intros h h1 w r H Hs; cbn [splitWhitespaceDefs] in H; [injection H as <- _ _; auto|]. destruct (hasFlag _ _).
  - destruct (splitWhitespaceDefs (updNth _ _ _) l) as [[h2 w2] r2] eqn:E. injection H as <- _ _. apply IH in E; auto. apply rs_upd; auto; [intros; apply setCommit_name|].
    intros d. unfold setCommitType. destruct (dKind d); auto; simpl; rewrite flag_alias by reflexivity; auto.
  - destruct (splitWhitespaceDefs h l) as [[h2 w2] r2] eqn:E. injection H as <- _ _. apply IH in E; auto.
Qed.
Lemma rs_app h l : rootsShown h -> rootsShown l -> rootsShown (h ++ l).
Proof. intros A B d Hd. apply in_app_or in Hd. destruct Hd; auto. Qed.
Lemma rs_wsItems n items : forall i, rootsShown (fst (wsItems n i items)).
Proof.
  induction items as [|it items IH]; intros i; [intros d []|]. cbn [wsItems]. specialize (IH (S i)). destruct (wsItems n (S i) items) as [defs rest]. cbn [fst] in IH.
  destruct (Z.eqb _ _); auto. cbv zeta. destruct (Z.ltb _ _); cbn [fst]; intros d Hd; simpl in Hd; [destruct Hd as [<-|Hd]|destruct Hd as [<-|[<-|Hd]]]; auto; discriminate.
Qed.
Lemma rs_toDefs defs : forall h h1 r, applyWhitespaceToDefs h defs = (h1, r) -> rootsShown h -> rootsShown h1.
Proof.
  induction defs as [|a l IH]; intros h h1 r H Hs; cbn [applyWhitespaceToDefs] in H; [injection H as <- _; auto|].
  destruct (nth_error h a) as [[n i ct [cn ch rs|oi items rs ids gs ac v ii|os od gs v ii]]|] eqn:Ea; try (destruct (applyWhitespaceToDefs h l) as [h2 r2] eqn:E; injection H as <- _; eauto).
  destruct (hasFlag ct CNoWhitespace); [destruct (applyWhitespaceToDefs h l) as [h2 r2] eqn:E; injection H as <- _; eauto|]. cbv zeta in H.
  destruct (applyWhitespaceToDefs (h ++ _) l) as [h2 r2] eqn:E. injection H as <- _. apply IH in E; auto. apply rs_app; auto.
  unfold applyWhitespaceToSeq. pose proof (rs_wsItems n items 0) as W. destruct (wsItems n 0 items) as [defs its]. cbn [fst] in W. apply rs_app; auto.
  intros d [<-|[]] Hf. apply nth_error_In in Ea. apply (Hs _ Ea). exact Hf.
Qed.
Lemma prepare_mk s reg root : rootsShown (sHeap s) ->
  prepare (mks s) reg root = mapR (fun x => (mkh (fst (fst x)), snd (fst x), snd x)) (prepare s reg root).
Proof.
  intros Hs. unfold prepare. change (sHeap (mks s)) with (mkh (sHeap s)). rewrite preinitAll_mk. apply (rs_preinit (gDefinitions reg)) in Hs. set (h := preinitAll _ _) in *. cbv zeta. rewrite hasWhitespace_mk. destruct (hasWhitespace _ _); auto.
  unfold applyWhitespace. rewrite splitWs_mk. destruct (splitWhitespaceDefs h _) as [[h1 ws] rest] eqn:E1. apply rs_split in E1; auto. cbv zeta. rewrite map_length.
  replace (mkh h1 ++ [newChoice whitespaceName CAlias (map (nameAt (mkh h1)) ws)]) with (mkh (h1 ++ [newChoice whitespaceName CAlias (map (nameAt h1) ws)])).
  2:{ rewrite map_app. rewrite (map_ext (nameAt (mkh h1)) (nameAt h1)) by (intros; apply nameAt_mk). cbn [map]. rewrite (mk_shown (newChoice _ _ _)); auto. cbn [dName newChoice]. apply free_hid. intros X. apply X. left. reflexivity. }
  rewrite toDefs_mk. assert (R2 : rootsShown (h1 ++ [newChoice whitespaceName CAlias (map (nameAt h1) ws)])) by (apply rs_app; auto; intros d [<-|[]]; discriminate).
  set (h2 := h1 ++ _) in *. destruct (applyWhitespaceToDefs h2 rest) as [h3 defs] eqn:E3. apply rs_toDefs in E3; auto.
  rewrite splitRoot_mk. destruct (splitRoot h3 defs) as [[r|] rest2] eqn:Er; auto.
  rewrite toRoot_mk.
  2:{ unfold splitRoot in Er. injection Er as Er _. assert (Hin : In r (filter (fun a => hasFlag (commitAt h3 a) CRoot) defs)).
      { clear -Er. induction (filter _ defs) as [|x l IH] using rev_ind; [discriminate|]. rewrite map_app in Er. cbn [map] in Er. rewrite last_app_one in Er. injection Er as ->. apply in_or_app; right; left; auto. }
      apply filter_In in Hin. destruct Hin as [_ Hf]. unfold commitAt in Hf. unfold nameAt. destruct (nth_error h3 r) as [d|] eqn:Ed; [|discriminate]. apply nth_error_In in Ed. auto. }
  destruct (applyWhitespaceToRoot h3 r) as [h4 r4]. cbn [bind]. unfold newRegistry. rewrite newRegistryLoop_mk. destruct (newRegistryLoop h4 emptyRegistry _) as [h5 reg5]. auto.
Qed.
End HIDE.
