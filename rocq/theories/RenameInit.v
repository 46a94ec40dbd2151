(** The definitions with other names give the same syntax with the other names. *)
From Verif Require Import Base Utf8 IdSet Results Parser Build Syntax Define ListFacts SyntaxFacts ParseFacts DefineFacts InitWalk InitRun InitCore InitSpec Grammar Lang Rep Api WsNames WsRefs WsApi RefApi ApiSpec HideRun HideInit RenameSpec RenameRun RenameNames.

Section RENAME.
Variable f : string -> string.
Hypothesis f_inj : forall n m, f n = f m -> n = m.
Hypothesis f_free : forall n, colonFree n -> colonFree (f n).
Hypothesis f_empty : f ""%string = ""%string.
Notation rn := (rn f).
Notation rni := (renameItem rn).
Definition rnk (k : dkind) : dkind :=
  match k with
  | KChar cn ch rs => KChar cn ch rs
  | KSeq oi items rs ids gs ac v i => KSeq (map rni oi) (map rni items) rs ids gs ac v i
  | KChoice os od gs v i => KChoice (map rn os) od gs v i
  end.
Definition rnd (d : defobj) : defobj := mkDef (rn (dName d)) (dId d) (dCommit d) (rnk (dKind d)).
Definition rnm (m : list (string * addr)) : list (string * addr) := map (fun p => (rn (fst p), snd p)) m.
Definition rng (r : registry) : registry := mkRegistry (gIdSeed r) (rnm (gDefinition r)) (gDefinitions r).
Notation rnh := (map rnd).
Definition rns (s : syntax) : syntax := mkSyntax (rnh (sHeap s)) (option_map rng (sRegistry s)) (sInitialized s) (sInitFailed s) (sExplicitRoot s) (sKeywords s) (sRoot s).
Notation rne := (option_map (renameErr rn)).

Lemma rnd_setKind k d : rnd (setKind k d) = setKind (rnk k) (rnd d). Proof. reflexivity. Qed.
Lemma rnd_setCommit c d : rnd (setCommitType c d) = setCommitType c (rnd d). Proof. destruct d as [n i ct [| |]]; reflexivity. Qed.
Lemma rnh_upd g g' : forall h a, (forall d, nth_error h a = Some d -> rnd (g d) = g' (rnd d)) -> updNth a g' (rnh h) = rnh (updNth a g h).
Proof.
  induction h as [|x h IH]; intros [|a] H; simpl; auto.
  - rewrite (H x eq_refl). auto.
  - rewrite IH; auto.
Qed.
Lemma rnh_upd' g g' h a : (forall d, rnd (g d) = g' (rnd d)) -> updNth a g' (rnh h) = rnh (updNth a g h).
Proof. intros; apply rnh_upd; auto. Qed.
Lemma rnh_nth h a : nth_error (rnh h) a = option_map rnd (nth_error h a). Proof. apply nth_error_map. Qed.
Lemma lookup_rn m n : lookup (rnm m) (rn n) = lookup m n.
Proof.
  induction m as [|[k a] m IH]; auto. cbn [rnm map lookup fst snd]. fold (rnm m). rewrite IH. destruct (String.eqb_spec k n) as [->|N]; [rewrite String.eqb_refl; auto|].
  destruct (String.eqb_spec (rn k) (rn n)) as [E|]; auto. apply (rn_inj f f_inj f_free) in E. congruence.
Qed.

(** ** registering *)
Lemma setDefinition_rn h r a : setDefinition (rnh h) (rng r) a = (let '(h1, r1, e) := setDefinition h r a in (rnh h1, rng r1, rne e)).
Proof.
  unfold setDefinition. rewrite rnh_nth. destruct (nth_error h a) as [d|]; auto. cbn [option_map]. change (gDefinition (rng r)) with (rnm (gDefinition r)). change (dName (rnd d)) with (rn (dName d)). rewrite lookup_rn. destruct (lookup _ _); auto.
  cbv zeta. rewrite (rnh_upd' (setID (S (gIdSeed r)))) by reflexivity. auto.
Qed.
Lemma applyRoot_rn s a : applyRoot (rns s) a = (rns (fst (applyRoot s a)), rne (snd (applyRoot s a))).
Proof.
  unfold applyRoot. change (sHeap (rns s)) with (rnh (sHeap s)). rewrite rnh_nth. destruct (nth_error (sHeap s) a) as [d|]; auto. cbn [option_map]. change (dCommit (rnd d)) with (dCommit d). change (sExplicitRoot (rns s)) with (sExplicitRoot s). change (sRoot (rns s)) with (sRoot s).
  cbv zeta. destruct (_ && _)%bool; auto.
  assert (A : forall h r, updNth r (fun d => setCommitType (N.ldiff (dCommit d) CRoot) d) (rnh h) = rnh (updNth r (fun d => setCommitType (N.ldiff (dCommit d) CRoot) d) h)) by (intros; apply rnh_upd'; intros; apply rnd_setCommit).
  assert (B : forall h r, updNth r (fun d => setCommitType (N.lor (dCommit d) CRoot) d) (rnh h) = rnh (updNth r (fun d => setCommitType (N.lor (dCommit d) CRoot) d) h)) by (intros; apply rnh_upd'; intros; apply rnd_setCommit).
  destruct (sRoot s) as [r|]; destruct (_ || _)%bool; rewrite ?A, ?B; auto.
Qed.
Lemma check_rn d : checkCommitType (rnd d) = rne (checkCommitType d).
Proof.
  unfold checkCommitType. induction incompatibleCommitTypes as [|[ct l] t IH]; auto. cbn [checkCommitTypeIn]. change (dCommit (rnd d)) with (dCommit d). rewrite IH. destruct (hasFlag _ _); auto. destruct (find _ _); auto.
Qed.
Lemma register_rn s d : register (rns s) (rnd d) = (rns (fst (register s d)), rne (snd (register s d))).
Proof.
  unfold register. change (sInitialized (rns s)) with (sInitialized s). destruct (sInitialized s) eqn:Ei; [auto|]. cbv zeta.
  change (sHeap (rns s)) with (rnh (sHeap s)). change (sRegistry (rns s)) with (option_map rng (sRegistry s)). change (sInitFailed (rns s)) with (sInitFailed s).
  change (sExplicitRoot (rns s)) with (sExplicitRoot s). change (sKeywords (rns s)) with (sKeywords s). change (sRoot (rns s)) with (sRoot s).
  change [rnd d] with (rnh [d]). rewrite <- map_app, map_length.
  replace (match option_map rng (sRegistry s) with Some r => r | None => emptyRegistry end) with (rng (match sRegistry s with Some r => r | None => emptyRegistry end)) by (destruct (sRegistry s); reflexivity).
  set (reg := match sRegistry s with Some r => r | None => emptyRegistry end). set (s2 := mkSyntax (sHeap s ++ [d]) _ _ _ _ _ _).
  match goal with |- context [applyRoot ?x (List.length (sHeap s))] => change x with (rns s2) end.
  rewrite check_rn. destruct (checkCommitType d); auto. cbn [option_map]. rewrite applyRoot_rn. destruct (applyRoot s2 _) as [s3 [err|]]; cbn [fst snd option_map]; auto.
  change (sHeap (rns s3)) with (rnh (sHeap s3)). rewrite setDefinition_rn. destruct (setDefinition (sHeap s3) reg _) as [[h reg1] e]. auto.
Qed.
Lemma register_ok s d s1 : register s d = (s1, None) -> register (rns s) (rnd d) = (rns s1, None).
Proof. intros H. rewrite register_rn, H. auto. Qed.
Lemma charSeqLoop_rn name chars : colonFree name -> forall s i s1, charSeqLoop s name i chars = (s1, None) -> charSeqLoop (rns s) (rn name) i chars = (rns s1, None).
Proof.
  intros Hf. induction chars as [|c chars IH]; intros s i s1 H; cbn [charSeqLoop] in *.
  - injection H as <-. auto.
  - destruct (register s _) as [s2 [e|]] eqn:E; [discriminate|]. apply register_ok in E. unfold rnd in E. cbn [newChar dName dId dCommit dKind rnk] in E. rewrite rn_child in E by auto.
    change (mkDef (childName (rn name) i) 0 CAlias (KChar false [c] [])) with (newChar (childName (rn name) i) false [c] []) in E. rewrite E. auto.
Qed.
Lemma rnd_seq n ct items : rnd (newSequence n ct items) = newSequence (rn n) ct (map rni items). Proof. reflexivity. Qed.
Lemma rnd_choice n ct os : rnd (newChoice n ct os) = newChoice (rn n) ct (map rn os). Proof. reflexivity. Qed.
Lemma defineRaw_rn s d s1 : colonFree (callName d) -> defineRaw s d = (s1, None) -> defineRaw (rns s) (renameCall rn d) = (rns s1, None).
Proof.
  assert (C : forall n ct cn ch rs, colonFree n -> class s n ct cn ch rs = (s1, None) -> class (rns s) (rn n) ct cn ch rs = (rns s1, None)).
  { intros n ct cn ch rs Hf. unfold class. cbv zeta. destruct (register s _) as [s2 [e|]] eqn:E; [discriminate|]. apply register_ok in E. unfold rnd in E. cbn [newChar dName dId dCommit dKind rnk] in E. rewrite rn_child in E by auto.
    change (mkDef (childName (rn n) 0) 0 CAlias (KChar cn ch rs)) with (newChar (childName (rn n) 0) cn ch rs) in E. rewrite E. intros H. apply register_ok in H. rewrite rnd_seq in H. cbn [map] in H. unfold renameItem in H. cbn [siName siMin siMax] in H. rewrite rn_child in H by auto. exact H. }
  destruct d as [n ct|n ct cn ch rs|n ct chars|n ct items|n ct options]; cbn [defineRaw renameCall callName]; intros Hf H.
  - apply C; auto.
  - apply C; auto.
  - unfold charSequence in *. destruct (charSeqLoop s n 0 chars) as [s2 [e|]] eqn:E; [discriminate|]. apply charSeqLoop_rn in E; auto. rewrite E. apply register_ok in H. rewrite rnd_seq in H.
    unfold sequence. replace (namesToSequenceItems (map (childName (rn n)) (seq 0 (List.length chars)))) with (map rni (namesToSequenceItems (map (childName n) (seq 0 (List.length chars))))); auto.
    unfold namesToSequenceItems. rewrite !map_map. apply map_ext. intros i. unfold renameItem. cbn [siName siMin siMax]. rewrite rn_child by auto. auto.
  - apply (register_ok s (newSequence n ct items)). auto.
  - apply (register_ok s (newChoice n ct options)). auto.
Qed.
Lemma user_rename d : withUserDefined (renameCall rn d) = renameCall rn (withUserDefined d). Proof. destruct d; auto. Qed.
Lemma rename_name d : callName (renameCall rn d) = rn (callName d). Proof. destruct d; auto. Qed.
Lemma defineAll_rn calls : (forall d, In d calls -> isValidSymbol (rn (callName d)) = true) ->
  forall s s1, defineAll s calls = (s1, None) -> defineAll (rns s) (map (renameCall rn) calls) = (rns s1, None).
Proof.
  induction calls as [|d calls IH]; intros Hv s s1 H; cbn [defineAll map] in *.
  - injection H as <-. auto.
  - unfold defineCall in *. rewrite rename_name, Hv by (left; auto). destruct (isValidSymbol (callName d)) eqn:Ev; [|discriminate]. rewrite user_rename.
    destruct (defineRaw s _) as [s2 [e|]] eqn:E; [discriminate|]. apply defineRaw_rn in E; [|replace (callName (withUserDefined d)) with (callName d) by (destruct d; auto); apply valid_colonFree; auto].
    rewrite E. apply IH; auto. intros; apply Hv; right; auto.
Qed.

(** ** Init *)
Lemma norm_rn it : normalizeItemRange (rni it) = rni (normalizeItemRange it).
Proof. unfold normalizeItemRange, renameItem. cbn [siName siMin siMax]. destruct (_ && _)%bool; auto. Qed.
Lemma rnd_preinit d : rnd (preinit d) = preinit (rnd d).
Proof.
  unfold preinit, initRanges. destruct d as [n i c [| oi items rs ids gs ac v ii|]]; auto. unfold rnd, setKind. cbn [dName dId dCommit dKind rnk]. f_equal. rewrite !map_map.
  rewrite (map_ext (fun x => rni (normalizeItemRange x)) (fun x => normalizeItemRange (rni x))) by (intros; rewrite norm_rn; auto). f_equal. f_equal. apply map_ext. intros it. rewrite norm_rn. auto.
Qed.
Lemma preinitAll_rn defs : forall h, preinitAll (rnh h) defs = rnh (preinitAll h defs).
Proof. unfold preinitAll. induction defs as [|a l IH]; intros h; simpl; auto. rewrite (rnh_upd' preinit preinit) by apply rnd_preinit. apply IH. Qed.
Lemma commitAt_rn h a : commitAt (rnh h) a = commitAt h a.
Proof. unfold commitAt. rewrite rnh_nth. destruct (nth_error h a) as [d|]; auto. Qed.
Lemma nameAt_rn h a : nameAt (rnh h) a = rn (nameAt h a).
Proof. unfold nameAt. rewrite rnh_nth. destruct (nth_error h a) as [d|]; auto. Qed.
Lemma hasWhitespace_rn h defs : hasWhitespace (rnh h) defs = hasWhitespace h defs.
Proof. unfold hasWhitespace. induction defs as [|a l IH]; simpl; auto. rewrite commitAt_rn, IH. auto. Qed.
Lemma splitWs_rn defs : forall h, splitWhitespaceDefs (rnh h) defs = (let '(h1, w, r) := splitWhitespaceDefs h defs in (rnh h1, w, r)).
Proof.
  induction defs as [|a l IH]; intros h; cbn [splitWhitespaceDefs]; auto. rewrite commitAt_rn. destruct (hasFlag _ _).
  - rewrite (rnh_upd' (fun d => setCommitType (N.lor (dCommit d) CAlias) d)) by (intros; apply rnd_setCommit). rewrite IH. destruct (splitWhitespaceDefs _ l) as [[h1 w] r]. auto.
  - rewrite IH. destruct (splitWhitespaceDefs _ l) as [[h1 w] r]. auto.
Qed.
(** items that a sequence can repeat are named by symbols *)
Definition itemsOk (items : list seqItem) : Prop := Forall (fun it => Z.eqb (siMax it) 1 = true \/ colonFree (siName it)) items.
Lemma rni_ws : rni whitespaceItem = whitespaceItem.
Proof. unfold renameItem, whitespaceItem. cbn [siName siMin siMax]. rewrite rn_ws; auto. Qed.
Lemma wsItems_rn n items : colonFree n -> itemsOk items -> forall i, wsItems (rn n) i (map rni items) = (rnh (fst (wsItems n i items)), map rni (snd (wsItems n i items))).
Proof.
  intros Hn. induction 1 as [|it items Hit _ IH]; intros i; auto. cbn [wsItems map]. rewrite IH. destruct (wsItems n (S i) items) as [defs rest]. cbn [fst snd]. cbv zeta.
  change (siMax (rni it)) with (siMax it). change (siMin (rni it)) with (siMin it). change (siName (rni it)) with (rn (siName it)).
  assert (W : (if Nat.ltb 0 i then [whitespaceItem] else []) = map rni (if Nat.ltb 0 i then [whitespaceItem] else [])) by (destruct (Nat.ltb 0 i); cbn [map]; rewrite ?rni_ws; auto).
  destruct (Z.eqb (siMax it) 1) eqn:E1; cbn [fst snd].
  - rewrite map_app. cbn [map]. rewrite <- W. auto.
  - destruct Hit as [Hit|Hit]; [congruence|]. rewrite <- !rn_patch by auto. destruct (Z.ltb 0 (siMin it)); cbn [fst snd map]; rewrite ?map_app; cbn [map].
    + rewrite rnd_seq. cbn [map]. rewrite rni_ws, <- W. auto.
    + rewrite !rnd_seq, !map_app. cbn [map]. rewrite rni_ws, <- W. auto.
Qed.
Lemma toSeq_rn n ct items : colonFree n -> itemsOk items -> applyWhitespaceToSeq (rn n) ct (map rni items) = rnh (applyWhitespaceToSeq n ct items).
Proof. intros Hn Hi. unfold applyWhitespaceToSeq. rewrite wsItems_rn by auto. destruct (wsItems n 0 items) as [defs its]. cbn [fst snd]. rewrite map_app. auto. Qed.
Definition okAt (h : dheap) (a : addr) : Prop :=
  exists d, nth_error h a = Some d /\ match dKind d with KSeq _ items _ _ _ _ _ _ => colonFree (dName d) /\ itemsOk items | _ => True end.
Lemma okAt_app h l a : okAt h a -> okAt (h ++ l) a.
Proof. intros (d & H & Hk). exists d. split; auto. rewrite nth_error_app1; auto. apply nth_error_Some. congruence. Qed.
Lemma toDefs_rn defs : forall h, Forall (okAt h) defs -> applyWhitespaceToDefs (rnh h) defs = (let (h1, r) := applyWhitespaceToDefs h defs in (rnh h1, r)).
Proof.
  induction defs as [|a l IH]; intros h Hok; cbn [applyWhitespaceToDefs]; auto. inversion Hok as [|? ? (d & Hd & Hk) Hok']; subst. rewrite rnh_nth, Hd. cbn [option_map].
  destruct d as [n i ct [cn ch rs|oi items rs ids gs ac v ii|os od gs v ii]]; unfold rnd; cbn [dName dId dCommit dKind rnk] in *; try (rewrite IH by auto; destruct (applyWhitespaceToDefs h l); reflexivity).
  destruct (hasFlag ct CNoWhitespace).
  - rewrite IH by auto; destruct (applyWhitespaceToDefs h l); reflexivity.
  - destruct Hk as [K1 K2]. cbv zeta. rewrite toSeq_rn by auto. rewrite <- map_app, !map_length, IH. 2:{ eapply Forall_impl; [|exact Hok']. intros; apply okAt_app; auto. }
    destruct (applyWhitespaceToDefs (h ++ _) l); reflexivity.
Qed.
Lemma splitRoot_rn h defs : splitRoot (rnh h) defs = splitRoot h defs.
Proof.
  unfold splitRoot. rewrite (filter_ext' (fun a => hasFlag (commitAt (rnh h) a) CRoot) (fun a => hasFlag (commitAt h a) CRoot)) by (intros; rewrite commitAt_rn; auto).
  rewrite (filter_ext' (fun a => negb (hasFlag (commitAt (rnh h) a) CRoot)) (fun a => negb (hasFlag (commitAt h a) CRoot))) by (intros; rewrite commitAt_rn; auto). auto.
Qed.
Lemma toRoot_rn h root : colonFree (nameAt h root) -> applyWhitespaceToRoot (rnh h) root = (let (h1, r) := applyWhitespaceToRoot h root in (rnh h1, r)).
Proof.
  intros Hr. unfold applyWhitespaceToRoot. cbv zeta. rewrite nameAt_rn, <- rn_wsroot by auto. set (w := patchName [nameAt h root; "wsroot"%string]).
  rewrite (rnh_upd' (fun d => setCommitType (N.lor (N.ldiff (dCommit d) CRoot) CAlias) (setName w d))).
  - rewrite map_app, map_length. cbn [map]. rewrite rnd_seq. cbn [map]. rewrite rni_ws. auto.
  - intros d. rewrite rnd_setCommit. auto.
Qed.
Lemma newRegistryLoop_rn defs : forall h r, newRegistryLoop (rnh h) (rng r) defs = (let (h1, r1) := newRegistryLoop h r defs in (rnh h1, rng r1)).
Proof. induction defs as [|a l IH]; intros h r; cbn [newRegistryLoop]; auto. rewrite setDefinition_rn. destruct (setDefinition h r a) as [[h1 r1] e]. apply IH. Qed.

Notation mapE := (mapR (fun x : dheap * option gerr => (rnh (fst x), rne (snd x)))).
Lemma validateNames_rn m rec rec' : (forall h a, rec' (rnh h) a = mapE (rec h a)) ->
  forall names h, validateNames (rnm m) rec' (map rn names) (rnh h) = mapE (validateNames m rec names h).
Proof.
  intros Hr. induction names as [|n names IH]; intros h; cbn [validateNames map]; auto. rewrite lookup_rn. destruct (lookup m n) as [a|]; auto. rewrite Hr. destruct (rec h a) as [[h1 [e|]]|w|]; cbn [mapR bind fst snd option_map]; auto.
Qed.
Lemma names_rn items : map siName (map rni items) = map rn (map siName items).
Proof. rewrite !map_map. apply map_ext. auto. Qed.
Lemma validate_rn m n : forall h a, validate (rnm m) n (rnh h) a = mapE (validate m n h a).
Proof.
  induction n as [|n IH]; intros h a; cbn [validate]; auto. rewrite rnh_nth. destruct (nth_error h a) as [d|] eqn:Ed; cbn [option_map]; auto. change (dKind (rnd d)) with (rnk (dKind d)). destruct (dKind d) as [cn ch rs|oi items rs ids gs ac v ii|os od gs v ii] eqn:Ek; auto; cbn [rnk].
  - destruct v; auto. rewrite (rnh_upd' (setKind (KSeq oi items rs ids gs ac true ii))) by reflexivity. rewrite names_rn. apply validateNames_rn; auto.
  - destruct v; auto. rewrite (rnh_upd' (setKind (KChoice os od gs true ii))) by reflexivity. apply validateNames_rn; auto.
Qed.
Lemma validateAll_rn m n l : forall h, validateAll (rnm m) n l (rnh h) = mapE (validateAll m n l h).
Proof. induction l as [|a l IH]; intros h; cbn [validateAll]; auto. rewrite validate_rn. destruct (validate m n h a) as [[h1 [e|]]|w|]; cbn [mapR bind fst snd option_map]; auto. Qed.
Lemma forAddrs_rn rec rec' : (forall h a, rec' (rnh h) a = mapR rnh (rec h a)) -> forall l h, forAddrs rec' l (rnh h) = mapR rnh (forAddrs rec l h).
Proof. intros Hr. induction l as [|a l IH]; intros h; cbn [forAddrs]; auto. rewrite Hr. destruct (rec h a) as [h1|w|]; cbn [mapR bind]; auto. Qed.
Lemma addGen_rn n g : forall h a, addGeneralization n g (rnh h) a = mapR rnh (addGeneralization n g h a).
Proof.
  induction n as [|n IH]; intros h a; cbn [addGeneralization]; auto. rewrite rnh_nth. destruct (nth_error h a) as [d|] eqn:Ed; cbn [option_map]; auto. change (dKind (rnd d)) with (rnk (dKind d)). destruct (dKind d) as [cn ch rs|oi items rs ids gs ac v ii|os od gs v ii] eqn:Ek; auto; cbn [rnk].
  - destruct (intsContain gs g); auto. cbn [mapR]. rewrite (rnh_upd' (setKind (KSeq oi items rs ids (gs ++ [g]) ac v ii))) by reflexivity. auto.
  - destruct (intsContain gs g); auto. rewrite (rnh_upd' (setKind (KChoice os od (gs ++ [g]) v ii))) by reflexivity. apply forAddrs_rn; auto.
Qed.
Lemma rnd_addItem x d : rnd (addItemDef x d) = addItemDef x (rnd d). Proof. destruct d as [n i c [| |]]; auto. Qed.
Lemma rnd_allChars b d : rnd (setAllChars b d) = setAllChars b (rnd d). Proof. destruct d as [n i c [| |]]; auto. Qed.
Lemma rnd_initialized d : rnd (setInitialized d) = setInitialized (rnd d). Proof. destruct d as [n i c [| |]]; auto. Qed.
Lemma isCharAt_rn h a : isCharAt (rnh h) a = isCharAt h a.
Proof. unfold isCharAt. rewrite rnh_nth. destruct (nth_error h a) as [[n i ct [| |]]|]; auto. Qed.
Lemma initItems_rn m rec rec' d : (forall h a, rec' (rnh h) a = mapR rnh (rec h a)) ->
  forall names b h, initItemsLoop (rnm m) rec' d (map rn names) b (rnh h) = mapR (fun x => (rnh (fst x), snd x)) (initItemsLoop m rec d names b h).
Proof.
  intros Hr. induction names as [|n names IH]; intros b h; cbn [initItemsLoop map]; auto. rewrite lookup_rn. destruct (lookup m n) as [x|]; auto. cbv zeta. rewrite (rnh_upd' (addItemDef x)) by (intros; apply rnd_addItem). rewrite Hr.
  destruct (rec (updNth d (addItemDef x) h) x) as [h1|w|]; cbn [mapR bind]; auto. rewrite isCharAt_rn. auto.
Qed.
Lemma initOptions_rn m rec rec' gf d id : (forall h a, rec' (rnh h) a = mapR rnh (rec h a)) ->
  forall names h, initOptionsLoop (rnm m) rec' gf d id (map rn names) (rnh h) = mapR rnh (initOptionsLoop m rec gf d id names h).
Proof.
  intros Hr. induction names as [|n names IH]; intros h; cbn [initOptionsLoop map]; auto. rewrite lookup_rn. destruct (lookup m n) as [x|]; auto. cbv zeta. rewrite (rnh_upd' (addItemDef x)) by (intros; apply rnd_addItem). rewrite Hr.
  destruct (rec (updNth d (addItemDef x) h) x) as [h1|w|]; cbn [mapR bind]; auto. rewrite addGen_rn. destruct (addGeneralization gf id h1 x) as [h2|w|]; cbn [mapR bind]; auto.
Qed.
Lemma initDef_rn m gf n : forall h a, initDef (rnm m) n gf (rnh h) a = mapR rnh (initDef m n gf h a).
Proof.
  induction n as [|n IH]; intros h a; cbn [initDef]; auto. rewrite rnh_nth. destruct (nth_error h a) as [d|] eqn:Ed; cbn [option_map]; auto. change (dKind (rnd d)) with (rnk (dKind d)). change (dId (rnd d)) with (dId d). destruct (dKind d) as [cn ch rs|oi items rs ids gs ac v ii|os od gs v ii] eqn:Ek; auto; cbn [rnk].
  - destruct ii; auto. cbv zeta. rewrite (rnh_upd' (fun d => initRanges (setInitialized d))) by (intros; rewrite <- rnd_initialized; apply rnd_preinit). rewrite names_rn, (initItems_rn m (initDef m n gf)) by auto.
    destruct (initItemsLoop m (initDef m n gf) a (map siName items) true _) as [[h1 b]|w|]; cbn [mapR bind fst snd]; auto. rewrite (rnh_upd' (setAllChars b)) by (intros; apply rnd_allChars). auto.
  - destruct ii; auto. rewrite (rnh_upd' setInitialized) by apply rnd_initialized. apply initOptions_rn; auto.
Qed.
Lemma initCore_rn m n l h : initCore (rnm m) n l (rnh h) = mapE (initCore m n l h).
Proof.
  unfold initCore. rewrite validateAll_rn. destruct (validateAll m n l h) as [[h1 [e|]]|w|]; cbn [mapR bind fst snd option_map]; auto.
  rewrite (forAddrs_rn (initDef m n n)) by (intros; apply initDef_rn). destruct (forAddrs _ l h1) as [h2|w|]; auto.
Qed.

(** what the names before Init have to be *)
Definition symbolHeap (h : dheap) : Prop := forall d, In d h ->
  (hasFlag (dCommit d) CRoot = true -> colonFree (dName d)) /\
  match dKind d with KSeq _ items _ _ _ _ _ _ => colonFree (dName d) /\ Forall (fun it => siMax (normalizeItemRange it) = 1%Z \/ colonFree (siName it)) items | _ => True end.
Definition hasColon (n : string) : bool := existsb (Ascii.eqb ":") (list_ascii_of_string n).
Lemma hasColon_free n : hasColon n = false <-> colonFree n.
Proof.
  unfold hasColon, colonFree. split.
  - intros H Hin. assert (X : existsb (Ascii.eqb ":") (list_ascii_of_string n) = true) by (apply existsb_exists; exists ":"%char; split; auto; apply Ascii.eqb_refl). congruence.
  - intros H. destruct (existsb _ _) eqn:E; auto. apply existsb_exists in E. destruct E as (c & Hc & E). apply Ascii.eqb_eq in E. subst c. contradiction.
Qed.
Lemma norm_max it : siMax (normalizeItemRange (normalizeItemRange it)) = siMax (normalizeItemRange it) /\ siName (normalizeItemRange it) = siName it.
Proof. split; [rewrite (normalize_idem it); auto|unfold normalizeItemRange; destruct (_ && _)%bool; auto]. Qed.
Lemma symbol_preinit h a : symbolHeap h -> symbolHeap (updNth a preinit h).
Proof.
  intros H d Hd. apply in_updNth in Hd. destruct Hd as [Hd|(y & Hy & ->)]; auto. destruct (H y Hy) as [A B]. destruct (preinit_name y) as [-> ->]. split; auto.
  unfold preinit, initRanges. destruct (dKind y) eqn:E; rewrite ?E; auto. simpl. destruct B as [B1 B2]. split; auto. apply Forall_map. eapply Forall_impl; [|exact B2]. intros it [X|X].
  - left. destruct (norm_max it) as [-> _]. auto.
  - right. destruct (norm_max it) as [_ ->]. auto.
Qed.
Lemma preinit_normal defs a : In a defs -> forall h d, nth_error (preinitAll h defs) a = Some d -> exists d0, d = preinit d0.
Proof.
  unfold preinitAll. induction defs as [|b defs IH] using rev_ind; [intros []|]. intros Hin h d Hd. rewrite fold_left_app in Hd. cbn [fold_left] in Hd. rewrite nth_error_updNth in Hd. destruct (Nat.eqb_spec b a) as [->|N].
  - destruct (nth_error _ a) as [d0|]; [|discriminate]. injection Hd as <-. eauto.
  - apply in_app_or in Hin. destruct Hin as [Hin|[E|[]]]; [eauto|congruence].
Qed.
Lemma symbol_all defs : forall h, symbolHeap h -> symbolHeap (preinitAll h defs).
Proof. unfold preinitAll. induction defs as [|a l IH]; intros h H; simpl; auto. apply IH. apply symbol_preinit; auto. Qed.
Lemma symbol_ok h defs : symbolHeap h -> (forall a, In a defs -> a < List.length h) -> Forall (okAt (preinitAll h defs)) defs.
Proof.
  intros H Hl. apply Forall_forall. intros a Ha. assert (L : List.length (preinitAll h defs) = List.length h).
  { unfold preinitAll. clear. revert h. induction defs as [|b l IH]; intros h; simpl; auto. rewrite IH, updNth_length. auto. }
  assert (La : a < List.length (preinitAll h defs)) by (rewrite L; auto). apply nth_error_Some in La. destruct (nth_error (preinitAll h defs) a) as [d|] eqn:E; [|congruence]. exists d. split; [exact E|].
  destruct (preinit_normal defs a Ha _ _ E) as (d0 & ->). apply nth_error_In in E. destruct (symbol_all defs h H _ E) as [_ B]. destruct (dKind (preinit d0)) eqn:Ek; auto. destruct B as [B1 B2]. split; auto.
  unfold preinit, initRanges in Ek. destruct (dKind d0) eqn:E0; simpl in Ek; try congruence. injection Ek as -> <- _ _ _ _ _ _.
  unfold itemsOk. apply Forall_map. rewrite Forall_map in B2. eapply Forall_impl; [|exact B2]. intros it [X|X]; auto. left. apply Z.eqb_eq. destruct (norm_max it) as [<- _]. auto.
Qed.
Lemma okAt_commit h b g defs : (forall d, dName (g d) = dName d /\ dKind (g d) = dKind d) -> Forall (okAt h) defs -> Forall (okAt (updNth b g h)) defs.
Proof.
  intros G. apply Forall_impl. intros a (d & Hd & Hk). unfold okAt. rewrite nth_error_updNth, Hd. destruct (Nat.eqb b a); simpl; [exists (g d)|exists d]; split; auto. destruct (G d) as [-> ->]. auto.
Qed.
Lemma split_ok defs : forall h h1 w r l, splitWhitespaceDefs h defs = (h1, w, r) -> Forall (okAt h) l -> Forall (okAt h1) l.
Proof.
  induction defs as [|a defs IH]; intros h h1 w r l H Hl; cbn [splitWhitespaceDefs] in H; [injection H as <- _ _; auto|]. destruct (hasFlag _ _).
  - destruct (splitWhitespaceDefs (updNth _ _ _) defs) as [[h2 w2] r2] eqn:E. injection H as <- _ _. eapply IH; [exact E|]. apply okAt_commit; auto. intros d. unfold setCommitType. destruct (dKind d) eqn:K; auto.
  - destruct (splitWhitespaceDefs h defs) as [[h2 w2] r2] eqn:E. injection H as <- _ _. eapply IH; eauto.
Qed.
Lemma split_incl defs : forall h h1 w r, splitWhitespaceDefs h defs = (h1, w, r) -> incl r defs.
Proof.
  induction defs as [|a defs IH]; intros h h1 w r H; cbn [splitWhitespaceDefs] in H; [injection H as _ _ <-; intros x []|]. destruct (hasFlag _ _).
  - destruct (splitWhitespaceDefs (updNth _ _ _) defs) as [[h2 w2] r2] eqn:E. injection H as _ _ <-. apply IH in E. intros x Hx. right; auto.
  - destruct (splitWhitespaceDefs h defs) as [[h2 w2] r2] eqn:E. injection H as _ _ <-. apply IH in E. intros x [<-|Hx]; [left; auto|right; auto].
Qed.
Lemma prepare_rn s reg root : symbolHeap (sHeap s) -> (forall a, In a (gDefinitions reg) -> a < List.length (sHeap s)) ->
  prepare (rns s) (rng reg) root = mapR (fun x => (rnh (fst (fst x)), rng (snd (fst x)), snd x)) (prepare s reg root).
Proof.
  intros Hs Hl. unfold prepare. change (sHeap (rns s)) with (rnh (sHeap s)). change (gDefinitions (rng reg)) with (gDefinitions reg). rewrite preinitAll_rn. pose proof (symbol_ok _ _ Hs Hl) as Hok.
  assert (Hroot : rootsShown hasColon (preinitAll (sHeap s) (gDefinitions reg))) by (intros d Hd Hf; apply hasColon_free; apply (symbol_all _ _ Hs d Hd); auto).
  set (h := preinitAll _ _) in *. cbv zeta. rewrite hasWhitespace_rn. destruct (hasWhitespace _ _); auto.
  unfold applyWhitespace. rewrite splitWs_rn. destruct (splitWhitespaceDefs h _) as [[h1 ws] rest] eqn:E1. pose proof (split_incl _ _ _ _ _ E1) as Hincl. pose proof (split_ok _ _ _ _ _ _ E1 Hok) as Hok1. apply (rs_split hasColon) in E1; auto. cbv zeta. rewrite map_length.
  replace (rnh h1 ++ [newChoice whitespaceName CAlias (map (nameAt (rnh h1)) ws)]) with (rnh (h1 ++ [newChoice whitespaceName CAlias (map (nameAt h1) ws)])).
  2:{ rewrite map_app. cbn [map]. rewrite rnd_choice, map_map, rn_ws by auto. rewrite (map_ext (nameAt (rnh h1)) (fun a => rn (nameAt h1 a))) by (intros; apply nameAt_rn). auto. }
  assert (R2 : rootsShown hasColon (h1 ++ [newChoice whitespaceName CAlias (map (nameAt h1) ws)])) by (apply rs_app; auto; intros d [<-|[]]; discriminate).
  assert (K2 : Forall (okAt (h1 ++ [newChoice whitespaceName CAlias (map (nameAt h1) ws)])) rest).
  { apply Forall_forall. intros a Ha. apply okAt_app. rewrite Forall_forall in Hok1. apply Hok1. auto. }
  rewrite toDefs_rn by auto. set (h2 := h1 ++ _) in *. destruct (applyWhitespaceToDefs h2 rest) as [h3 defs] eqn:E3. apply (rs_toDefs hasColon) in E3; auto.
  rewrite splitRoot_rn. destruct (splitRoot h3 defs) as [[r|] rest2] eqn:Er; auto.
  rewrite toRoot_rn.
  2:{ unfold splitRoot in Er. injection Er as Er _. assert (Hin : In r (filter (fun a => hasFlag (commitAt h3 a) CRoot) defs)).
      { clear -Er. induction (filter _ defs) as [|x l IH] using rev_ind; [discriminate|]. rewrite map_app in Er. cbn [map] in Er. rewrite last_app_one in Er. injection Er as ->. apply in_or_app; right; left; auto. }
      apply filter_In in Hin. destruct Hin as [_ Hf]. unfold commitAt in Hf. unfold nameAt. destruct (nth_error h3 r) as [d|] eqn:Ed; [|discriminate]. apply nth_error_In in Ed. apply hasColon_free. auto. }
  destruct (applyWhitespaceToRoot h3 r) as [h4 r4]. cbn [bind]. unfold newRegistry. change emptyRegistry with (rng emptyRegistry) at 1. rewrite newRegistryLoop_rn. destruct (newRegistryLoop h4 emptyRegistry _) as [h5 reg5]. auto.
Qed.
Lemma Init_rn n s : symbolHeap (sHeap s) -> (forall a, In a (gDefinitions (regOf s)) -> a < List.length (sHeap s)) ->
  Init n (rns s) = mapR (fun x => (rns (fst x), rne (snd x))) (Init n s).
Proof.
  intros Hs Hl. rewrite !Init_split. change (sInitFailed (rns s)) with (sInitFailed s). change (sInitialized (rns s)) with (sInitialized s). destruct (sInitFailed s); auto. destruct (sInitialized s); auto.
  change (sRoot (rns s)) with (sRoot s). destruct (sRoot s) as [root|] eqn:Er; auto. change (sHeap (rns s)) with (rnh (sHeap s)) at 1. rewrite rnh_nth. destruct (nth_error (sHeap s) root) as [rd|] eqn:Ed; auto.
  cbn [option_map]. change (sRegistry (rns s)) with (option_map rng (sRegistry s)). unfold regOf in Hl. destruct (sRegistry s) as [reg|] eqn:Eg; auto. cbn [option_map]. rewrite check_rn. destruct (checkCommitType rd); auto. cbn [option_map].
  rewrite prepare_rn by auto. destruct (prepare s reg root) as [[[h reg1] root1]|w|]; auto. cbn [mapR bind fst snd]. change (sKeywords (rns s)) with (sKeywords s). change (gDefinition (rng reg1)) with (rnm (gDefinition reg1)). rewrite initCore_rn.
  destruct (initCore _ _ _ h) as [[h1 [e|]]|w|]; auto.
Qed.
Lemma parsers_rn s : parsers (rns s) = map (rnp rn) (parsers s).
Proof. unfold parsers. change (sHeap (rns s)) with (rnh (sHeap s)). rewrite !map_map. apply map_ext. intros [n i c [| |]]; reflexivity. Qed.
Theorem Parse_rn n s input e : symbolHeap (sHeap s) -> (forall a, In a (gDefinitions (regOf s)) -> a < List.length (sHeap s)) ->
  Parse n (rns s) input e = mapR (fun x => (rns (fst x), renOut rn (snd x))) (Parse n s input e).
Proof.
  intros Hs Hl. unfold Parse. rewrite Init_rn by auto. destruct (Init n s) as [[s1 [err|]]|w|]; cbn [mapR bind fst snd option_map]; auto.
  change (sRoot (rns s1)) with (sRoot s1). destruct (sRoot s1) as [root|]; auto. rewrite parsers_rn. change (sKeywords (rns s1)) with (sKeywords s1).
  rewrite (parseInput_rename rn (rn_def f f_inj f_free f_empty)). destruct (parseInput _ _ _ _ _ _) as [x|w|]; auto.
Qed.
End RENAME.
