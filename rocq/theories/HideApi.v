(** Defining, Init and Parse with more alias flags. *)
From Verif Require Import Base Utf8 IdSet Results Parser Build Syntax ListFacts SyntaxFacts ParseFacts InitWalk InitRun InitCore InitSpec Grammar Lang Rep Api WsNames WsRefs WsApi RefApi ApiSpec HideSpec HideRun HideInit.

(** names and flags stay *)
Definition cEv (h h' : dheap) : Prop := forall a d, nth_error h a = Some d -> exists d', nth_error h' a = Some d' /\ dName d' = dName d /\ dCommit d' = dCommit d.
Lemma cEv_refl h : cEv h h. Proof. intros a d H; eauto. Qed.
Lemma cEv_trans a b c : cEv a b -> cEv b c -> cEv a c.
Proof. intros A B x d H. destruct (A x d H) as (d1 & H1 & E1 & E2). destruct (B x d1 H1) as (d2 & H2 & E3 & E4). exists d2. split; auto. split; congruence. Qed.
Lemma cEv_upd h a f : (forall d, dName (f d) = dName d /\ dCommit (f d) = dCommit d) -> cEv h (updNth a f h).
Proof. intros F x d H. rewrite nth_error_updNth. destruct (Nat.eqb_spec a x) as [->|]; rewrite H; [exists (f d)|exists d]; split; auto; apply F. Qed.
Lemma cEv_preinit defs : forall h, cEv h (preinitAll h defs).
Proof. unfold preinitAll. induction defs as [|a l IH]; intros h; simpl; [apply cEv_refl|]. eapply cEv_trans; [apply cEv_upd, preinit_name|apply IH]. Qed.
Lemma cEv_reg defs : forall h r h' r', newRegistryLoop h r defs = (h', r') -> cEv h h'.
Proof.
  induction defs as [|a l IH]; intros h r h' r' H; cbn [newRegistryLoop] in H; [injection H as <- _; apply cEv_refl|]. destruct (setDefinition h r a) as [[h1 r1] e] eqn:E. eapply cEv_trans; [|eapply IH; eauto].
  unfold setDefinition in E. destruct (nth_error h a) as [d|]; [destruct (lookup _ _)|]; injection E as <- _ _; try apply cEv_refl. apply cEv_upd. auto.
Qed.
Lemma cEv_core m n l h h' e : initCore m n l h = Ok (h', e) -> cEv h h'.
Proof.
  assert (V : forall h h', vEvolved h h' -> cEv h h').
  { intros x y V a d H. specialize (V a). rewrite H in V. destruct V as (d' & H' & [-> | ->]); eexists; split; eauto. }
  assert (I : forall h h', iEvolved m h h' -> cEv h h').
  { intros x y I a d H. specialize (I a). unfold evAt in I. rewrite H in I. destruct I as (d' & H' & [E|(_ & E & _)]); exists d'; split; auto; unfold eraseG, setKind in E; injection E; auto. }
  unfold initCore. intros H. binv H. destruct x as [h1 [e1|]].
  - inversion H; subst. apply validateAll_spec in E. apply V, E.
  - binv H. inversion H; subst. apply validateAll_spec in E. apply initAll_spec in E0. eapply cEv_trans; [apply V, E|apply I, E0].
Qed.

Section HIDE.
Variable hid : string -> bool.
Notation mk := (mk hid). Notation mks := (mks hid). Notation mkh := (map mk).

(** ** definitions are accepted as before, if the root flag is on none of them *)
Lemma check_fwd d : (hid (dName d) = true -> hasFlag (dCommit d) CRoot = false) -> checkCommitType d = None -> checkCommitType (mk d) = None.
Proof.
  intros Hr. unfold checkCommitType. rewrite !check_iff. intros H ct l f Hin Hf Hc. destruct (table_other _ _ _ Hin Hf) as [T1 T2]. rewrite mk_flag by auto.
  destruct T2 as [->|T2]; [|rewrite mk_flag in Hc by auto; eapply H; eauto].
  assert (f = CRoot) as ->. { destruct Hin as [E|[E|[E|[E|[]]]]]; injection E; try discriminate; intros <-; destruct Hf as [<-|[]]; auto. }
  destruct (hid (dName d)) eqn:Eh; auto. rewrite mk_shown in Hc by auto. eapply H; eauto.
Qed.
Lemma register_fwd s d s0 : (hid (dName d) = true -> hasFlag (dCommit d) CRoot = false) -> register s d = (s0, None) -> register (mks s) (mk d) = (mks s0, None).
Proof.
  intros Hr. unfold register. change (sInitialized (mks s)) with (sInitialized s). destruct (sInitialized s) eqn:Ei; [discriminate|]. cbv zeta.
  set (s2 := mkSyntax (sHeap s ++ [d]) _ _ _ _ _ _).
  change (sHeap (mks s)) with (mkh (sHeap s)). change (sRegistry (mks s)) with (sRegistry s). change (sInitFailed (mks s)) with (sInitFailed s).
  change (sExplicitRoot (mks s)) with (sExplicitRoot s). change (sKeywords (mks s)) with (sKeywords s). change (sRoot (mks s)) with (sRoot s).
  change [mk d] with (mkh [d]). rewrite <- map_app, map_length.
  match goal with |- context [applyRoot ?x (List.length (sHeap s))] => change x with (mks s2) end.
  destruct (checkCommitType d) eqn:Ec; [discriminate|]. rewrite (check_fwd d Hr Ec), applyRoot_mk. destruct (applyRoot s2 _) as [s3 [err|]]; cbn [fst snd]; [discriminate|].
  change (sHeap (mks s3)) with (mkh (sHeap s3)). rewrite setDefinition_mk. destruct (setDefinition (sHeap s3) _ _) as [[h reg] e]. rewrite mk_flag by reflexivity.
  intros H. assert (e = None) as -> by congruence. injection H as <-. reflexivity.
Qed.
Lemma charSeqLoop_fwd name chars : forall s i s0, charSeqLoop s name i chars = (s0, None) -> charSeqLoop (mks s) name i chars = (mks s0, None).
Proof.
  induction chars as [|c chars IH]; intros s i s1 H; cbn [charSeqLoop] in *.
  - injection H as <-. auto.
  - destruct (register s _) as [s2 [e|]] eqn:E; [discriminate|]. apply register_fwd in E; [|reflexivity]. change (mk (newChar (childName name i) false [c] [])) with (newChar (childName name i) false [c] []) in E. rewrite E. auto.
Qed.
Lemma defineRaw_fwd s d s0 : (hid (callName d) = true -> hasFlag (callFlags d) CRoot = false) -> defineRaw s d = (s0, None) -> defineRaw (mks s) (aliasIf hid d) = (mks s0, None).
Proof.
  assert (C : forall n ct cn ch rs, (hid n = true -> hasFlag ct CRoot = false) -> class s n ct cn ch rs = (s0, None) -> class (mks s) n (ctOf hid n ct) cn ch rs = (mks s0, None)).
  { intros n ct cn ch rs Hr. unfold class. cbv zeta. destruct (register s _) as [s2 [e|]] eqn:E; [discriminate|]. apply register_fwd in E; [|reflexivity].
    change (mk (newChar (childName n 0) cn ch rs)) with (newChar (childName n 0) cn ch rs) in E. rewrite E. apply (register_fwd s2 (newSequence n ct _)). auto. }
  destruct d as [n ct|n ct cn ch rs|n ct chars|n ct items|n ct options]; cbn [defineRaw aliasIf callName callFlags]; intros Hr.
  - apply C; auto.
  - apply C; auto.
  - unfold charSequence. destruct (charSeqLoop s n 0 chars) as [s2 [e|]] eqn:E; [discriminate|]. apply charSeqLoop_fwd in E. rewrite E.
    change (if hid n then N.lor ct CAlias else ct) with (ctOf hid n ct). rewrite <- ctOf_lor. apply (register_fwd s2 (newSequence n _ _)). cbn [newSequence dName dCommit]. intros X. specialize (Hr X).
    change CRoot with (2 ^ 7)%N in *. rewrite hasFlag_bit in *. rewrite N.lor_spec, Hr. reflexivity.
  - apply (register_fwd s (newSequence n ct items)). auto.
  - apply (register_fwd s (newChoice n ct options)). auto.
Qed.
Lemma userDefined_rootFlag d : hasFlag (callFlags (withUserDefined d)) CRoot = hasFlag (callFlags d) CRoot.
Proof. change CRoot with (2 ^ 7)%N. rewrite !hasFlag_bit. destruct d; cbn [withUserDefined callFlags]; rewrite N.lor_spec; apply orb_false_r. Qed.
Lemma defineAll_fwd calls : (forall d, In d calls -> hid (callName d) = true -> hasFlag (callFlags d) CRoot = false) ->
  forall s s0, defineAll s calls = (s0, None) -> defineAll (mks s) (map (aliasIf hid) calls) = (mks s0, None).
Proof.
  induction calls as [|d calls IH]; intros Hr s s1 H; cbn [defineAll map] in *.
  - injection H as <-. auto.
  - unfold defineCall in *. rewrite alias_name. destruct (isValidSymbol (callName d)); [|discriminate]. rewrite user_alias.
    destruct (defineRaw s _) as [s2 [e|]] eqn:E; [discriminate|]. apply defineRaw_fwd in E; [rewrite E; apply IH; auto; intros; apply Hr; auto; right; auto|].
    intros X. rewrite userDefined_rootFlag. apply Hr; [left; auto|]. destruct d; exact X.
Qed.

(** ** Init *)
Lemma initCore_mk m n l h : initCore m n l (mkh h) = mapR (fun x => (mkh (fst x), snd x)) (initCore m n l h).
Proof.
  unfold initCore. rewrite validateAll_mk. destruct (validateAll m n l h) as [[h1 [e|]]|w|]; cbn [mapR bind fst snd]; auto.
  rewrite (forAddrs_mk hid (initDef m n n)) by (intros; apply initDef_mk). destruct (forAddrs _ l h1) as [h2|w|]; auto.
Qed.
Hypothesis hid_free : forall n, hid n = true -> colonFree n.
Lemma Init_mk n s : rootsShown hid (sHeap s) -> (forall r d, sRoot s = Some r -> nth_error (sHeap s) r = Some d -> hid (dName d) = false) ->
  Init n (mks s) = mapR (fun x => (mks (fst x), snd x)) (Init n s).
Proof.
  intros Hs Hr. rewrite !Init_split. change (sInitFailed (mks s)) with (sInitFailed s). change (sInitialized (mks s)) with (sInitialized s). destruct (sInitFailed s); auto. destruct (sInitialized s); auto.
  change (sRoot (mks s)) with (sRoot s). destruct (sRoot s) as [root|] eqn:Er; auto. change (nth_error (sHeap (mks s)) root) with (nth_error (mkh (sHeap s)) root). rewrite mkh_nth. destruct (nth_error (sHeap s) root) as [rd|] eqn:Ed; auto.
  cbn [option_map]. change (sRegistry (mks s)) with (sRegistry s). destruct (sRegistry s) as [reg|]; auto. rewrite mk_shown by eauto. destruct (checkCommitType rd); auto.
  rewrite prepare_mk by auto. destruct (prepare s reg root) as [[[h reg1] root1]|w|]; auto. cbn [mapR bind fst snd]. change (sKeywords (mks s)) with (sKeywords s). rewrite initCore_mk.
  destruct (initCore _ _ _ h) as [[h1 [e|]]|w|]; auto.
Qed.

(** the root after Init makes a node *)
Lemma Init_top n s s1 root : sInitialized s = false -> sInitFailed s = false -> rootsShown hid (sHeap s) ->
  (forall r d, sRoot s = Some r -> nth_error (sHeap s) r = Some d -> hasFlag (dCommit d) CRoot = true) ->
  Init n s = Ok (s1, None) -> sRoot s1 = Some root -> exists o, nth_error (parsers s1) root = Some o /\ topObj hid o.
Proof.
  intros I1 I2 Hs Hf H Hr. rewrite Init_split, I1, I2 in H. destruct (sRoot s) as [r|] eqn:Er; [|discriminate]. destruct (nth_error (sHeap s) r) as [rd|] eqn:Ed; [|discriminate]. destruct (sRegistry s) as [reg|]; [|discriminate].
  destruct (checkCommitType rd) eqn:Ec; [discriminate|]. binv H. destruct x as [[h reg1] root1]. binv H. destruct x as [h1 [e1|]]; [discriminate|]. injection H as <-. cbn [sRoot] in Hr. injection Hr as ->.
  assert (Q : exists d, nth_error h root = Some d /\ hid (dName d) = false /\ hasFlag (dCommit d) CAlias = false).
  { unfold prepare in E. pose proof (cEv_preinit (gDefinitions reg) (sHeap s) r rd Ed) as (d & Hd & D1 & D2). pose proof (rs_preinit hid (gDefinitions reg) _ Hs) as Hs'. set (h0 := preinitAll _ _) in *. cbv zeta in E. destruct (hasWhitespace _ _).
    - unfold applyWhitespace in E. destruct (splitWhitespaceDefs h0 _) as [[h2 ws] rest] eqn:X1. apply rs_split with (hid := hid) in X1; auto. set (h3 := h2 ++ _) in *.
      assert (R3 : rootsShown hid h3) by (apply rs_app; auto; intros d0 [<-|[]]; discriminate). destruct (applyWhitespaceToDefs h3 rest) as [h4 defs] eqn:X2. apply rs_toDefs with (hid := hid) in X2; auto.
      destruct (splitRoot h4 defs) as [[r4|] rest2] eqn:Es; [|discriminate]. unfold applyWhitespaceToRoot in E. cbn [bind] in E. unfold newRegistry in E.
      match type of E with (let (_, _) := newRegistryLoop ?x ?y ?z in _) = _ => destruct (newRegistryLoop x y z) as [h5 reg5] eqn:X3 end. injection E as <- _ <-.
      apply cEv_reg in X3. destruct (X3 _ _ (nth_app_last _ _)) as (d5 & Hd5 & N5 & C5). exists d5. split; auto. rewrite N5, C5. split; auto. cbn [newSequence dName].
      unfold splitRoot in Es. injection Es as Es _. assert (Hin : In r4 (filter (fun a => hasFlag (commitAt h4 a) CRoot) defs)).
      { clear -Es. induction (filter _ defs) as [|x l IH] using rev_ind; [discriminate|]. rewrite map_app in Es. cbn [map] in Es. rewrite last_app_one in Es. injection Es as ->. apply in_or_app; right; left; auto. }
      apply filter_In in Hin. destruct Hin as [_ Hfl]. unfold commitAt in Hfl. unfold nameAt. destruct (nth_error h4 r4) as [d6|] eqn:E6; [|discriminate]. apply nth_error_In in E6. auto.
    - injection E as <- _ <-. exists d. split; auto. rewrite D1, D2. pose proof (Hf r rd eq_refl Ed) as Hc. split; [apply Hs; auto; eapply nth_error_In; eauto|].
      destruct (hasFlag (dCommit rd) CAlias) eqn:Ea; auto. unfold checkCommitType in Ec. rewrite check_iff in Ec. rewrite (Ec CAlias [CRoot] CRoot) in Hc; simpl; auto. }
  destruct Q as (d & Hd & Q1 & Q2). destruct (cEv_core _ _ _ _ _ _ E0 _ _ Hd) as (d' & Hd' & N' & C'). exists (toParser d'). split.
  - unfold parsers. cbn [sHeap]. rewrite nth_error_map, Hd'. auto.
  - unfold toParser. destruct (dKind d'); simpl; auto; rewrite N', C'; auto.
Qed.
Lemma toParser_mk d : toParser (mk d) = mkp hid (toParser d).
Proof. destruct d as [n i c [| |]]; reflexivity. Qed.
Lemma parsers_mk s : parsers (mks s) = map (mkp hid) (parsers s).
Proof. unfold parsers. change (sHeap (mks s)) with (mkh (sHeap s)). rewrite !map_map. apply map_ext. apply toParser_mk. Qed.
Lemma Parse_mk n s input e : sInitialized s = false -> sInitFailed s = false -> rootsShown hid (sHeap s) ->
  (forall r d, sRoot s = Some r -> nth_error (sHeap s) r = Some d -> hasFlag (dCommit d) CRoot = true) ->
  match Parse n s input e, Parse n (mks s) input e with
  | Ok (s1, x), Ok (s1', x') => s1' = mks s1 /\ hideOut hid x x'
  | Panic w, Panic w' => w' = w
  | NoFuel, NoFuel => True
  | _, _ => False
  end.
Proof.
  intros I1 I2 Hs Hf. unfold Parse. rewrite Init_mk; auto. 2:{ intros r d Hr Hd. apply Hs; [eapply nth_error_In; eauto|eauto]. }
  destruct (Init n s) as [[s1 [err|]]|w|] eqn:Ei; cbn [mapR bind fst snd]; auto; [split; reflexivity|].
  change (sRoot (mks s1)) with (sRoot s1). destruct (sRoot s1) as [root|] eqn:Er; auto. destruct (Init_top n s s1 root I1 I2 Hs Hf Ei Er) as (o & Ho & Ht).
  rewrite parsers_mk. change (sKeywords (mks s1)) with (sKeywords s1). pose proof (parseInput_hide hid (parsers s1) (sKeywords s1) root o n input e Ho Ht) as H.
  destruct (parseInput (parsers s1) (sKeywords s1) root n input e) as [x|w|], (parseInput (map (mkp hid) (parsers s1)) (sKeywords s1) root n input e) as [x'|w'|]; cbn [bind]; auto.
Qed.
End HIDE.

(** ** for the calls of a user *)
Section CALLS.
Variables (hidden : string -> bool) (calls : list defcall) (s s' : syntax).
Hypothesis Hd : Defined calls s.
Hypothesis Hd' : Defined (map (aliasIf hidden) calls) s'.
Hypothesis Hh : forall n, hidden n = true -> In n (map callName calls) /\ rootName calls <> Some n.
Lemma hidden_free n : hidden n = true -> colonFree n.
Proof. intros H. apply Hh in H. destruct H as [H _]. apply in_map_iff in H. destruct H as (d & <- & Hin). destruct (defineAll_raw _ _ _ Hd) as [_ Hv]. apply valid_colonFree. auto. Qed.
Lemma defined_mk : s' = mks hidden s.
Proof. destruct (defineAll_mk hidden calls emptySyntax s' Hd') as (s0 & H & E). unfold Defined in Hd. congruence. Qed.
Lemma fresh_state : sInitialized s = false /\ sInitFailed s = false.
Proof. apply rep_defineAll in Hd. destruct Hd; auto. Qed.
Lemma rooted r d : sRoot s = Some r -> nth_error (sHeap s) r = Some d -> hasFlag (dCommit d) CRoot = true /\ rootName calls = Some (dName d).
Proof.
  intros Hr Hn. pose proof (rep_defineAll _ _ Hd) as R. pose proof Hr as Hi. rewrite (rp_root _ _ R) in Hi. destruct (root_name _ _ Hi) as (o & Ho & En & Ek). rewrite userDefined_root in En.
  destruct (rp_obj _ _ R _ _ Ho) as (d0 & Hd0 & N & _ & _ & _ & F). rewrite Hn in Hd0. injection Hd0 as <-. rewrite N. split; auto. apply F; auto.
Qed.
Lemma shown : rootsShown hidden (sHeap s).
Proof.
  intros d Hin Hf. pose proof (rep_defineAll _ _ Hd) as R. apply In_nth_error in Hin. destruct Hin as (a & Ha).
  assert (La : a < List.length (flat_map callObjs (map withUserDefined calls))) by (rewrite <- (rp_len _ _ R); apply nth_error_Some; congruence).
  apply nth_error_Some in La. destruct (nth_error (flat_map callObjs (map withUserDefined calls)) a) as [o|] eqn:Eo; [|congruence].
  destruct (rp_obj _ _ R _ _ Eo) as (d0 & Hd0 & N & _ & _ & F1 & F2). rewrite Ha in Hd0. injection Hd0 as <-. destruct (isCharK (dKind o)) eqn:Ek.
  - rewrite F1 in Hf by auto. destruct (rp_fresh _ _ R o (nth_error_In _ _ Eo)) as (_ & _ & C). rewrite C in Hf by auto. discriminate.
  - destruct (F2 eq_refl) as [_ F]. apply F in Hf. destruct (rooted a d Hf Ha) as [_ Hn]. destruct (hidden (dName d)) eqn:Eh; auto. apply Hh in Eh. destruct Eh as [_ Eh]. congruence.
Qed.
Lemma hides_init err : (exists s1, Inits s s1 err) <-> (exists s1, Inits s' s1 err).
Proof.
  rewrite defined_mk. assert (K : forall n, Init n (mks hidden s) = mapR (fun x => (mks hidden (fst x), snd x)) (Init n s)).
  { intros n. apply Init_mk; [apply hidden_free|apply shown|]. intros r d Hr Hn. apply shown; [eapply nth_error_In; eauto|]. eapply rooted; eauto. }
  split; intros (s1 & n & H).
  - exists (mks hidden s1), n. rewrite K, H. auto.
  - rewrite K in H. destruct (Init n s) as [[s2 e2]|w|] eqn:E; try discriminate. injection H as <- <-. exists s2, n. auto.
Qed.
Lemma hides_run n input e : match Parse n s input e, Parse n s' input e with
  | Ok (_, x), Ok (_, x') => hideOut hidden x x'
  | Panic w, Panic w' => w' = w
  | NoFuel, NoFuel => True
  | _, _ => False
  end.
Proof.
  rewrite defined_mk. destruct fresh_state as [F1 F2]. pose proof (Parse_mk hidden hidden_free n s input e F1 F2 shown (fun r d A B => proj1 (rooted r d A B))) as H.
  destruct (Parse n s input e) as [[s1 x]|w|], (Parse n (mks hidden s) input e) as [[s1' x']|w'|]; auto. destruct H; auto.
Qed.
Theorem hides_tree input e t' toks : (exists s1, Parses s' input e s1 (Tree t' toks)) <-> (exists s1 t, Parses s input e s1 (Tree t toks) /\ hide hidden t = [t']).
Proof.
  split.
  - intros (s1 & n & H). pose proof (hides_run n input e) as R. rewrite H in R. destruct (Parse n s input e) as [[s2 [t toks'|er]]|w|] eqn:E; try destruct R. exists s2, t. subst toks'. split; auto. exists n; auto.
  - intros (s1 & t & (n & H) & Ht). pose proof (hides_run n input e) as R. rewrite H in R. destruct (Parse n s' input e) as [[s2 [t2 toks2|er]]|w|] eqn:E; try destruct R. subst toks2. rewrite Ht in H1. injection H1 as <-. exists s2, n. auto.
Qed.
Theorem hides_error input e err : (exists s1, Parses s input e s1 (Failed err)) <-> (exists s1, Parses s' input e s1 (Failed err)).
Proof.
  split; intros (s1 & n & H); pose proof (hides_run n input e) as R; rewrite H in R.
  - destruct (Parse n s' input e) as [[s2 [t2 toks2|er]]|w|] eqn:E; try destruct R. exists s2, n; auto.
  - destruct (Parse n s input e) as [[s2 [t2 toks2|er]]|w|] eqn:E; try destruct R. exists s2, n; auto.
Qed.
Theorem hides_panic input e : ParsePanics s input e <-> ParsePanics s' input e.
Proof.
  split; intros (n & w & H); pose proof (hides_run n input e) as R; rewrite H in R.
  - destruct (Parse n s' input e) as [[s2 x]|w2|] eqn:E; try contradiction. exists n; eexists; exact E.
  - destruct (Parse n s input e) as [[s2 x]|w2|] eqn:E; try contradiction. exists n; eexists; exact E.
Qed.
End CALLS.
Theorem hides_defined hidden calls s : Defined calls s -> (forall d, In d calls -> hidden (callName d) = true -> hasFlag (callFlags d) CRoot = false) ->
  exists s', Defined (map (aliasIf hidden) calls) s'.
Proof. intros H Hr. exists (mks hidden s). exact (defineAll_fwd hidden calls Hr emptySyntax s H). Qed.
