(** Facts about runs of Parse on defined syntaxes, in the vocabulary of ApiSpec.v. *)
From Verif Require Import TextSpec Base Utf8 IdSet Results Parser Build Syntax ListFacts ResultsFacts ReaderFacts ParseFacts FuelFacts TermFacts BuildFacts NoPanic Lang Sound RunFacts ErrFacts Restrict Grammar WsLang ApiSpec InitWalk InitRun InitOk SyntaxFacts InitCore InitSpec InitFuel Rep Live LangGen Api WsApi.

Theorem Parses_unique s input e s1 o1 s2 o2 : Parses s input e s1 o1 -> Parses s input e s2 o2 -> s1 = s2 /\ o1 = o2.
Proof.
  intros [n1 H1] [n2 H2]. pose proof (Parse_deterministic s input e n1 n2) as H. rewrite H1, H2 in H.
  assert (X : Ok (s1, o1) = Ok (s2, o2)) by (apply H; discriminate). inversion X; auto.
Qed.
Theorem Parses_noPanic s input e s1 o1 : Parses s input e s1 o1 -> ~ ParsePanics s input e.
Proof.
  intros [n1 H1] (n2 & w & H2). pose proof (Parse_deterministic s input e n1 n2) as H. rewrite H1, H2 in H.
  assert (X : Ok (s1, o1) = Panic w) by (apply H; discriminate). discriminate.
Qed.
Theorem Parse_stops s input e : reachable s -> (exists s' out, Parses s input e s' out) \/ ParsePanics s input e.
Proof.
  intros Hr. destruct (Parse_terminates s input e Hr) as [n Hn]. specialize (Hn n (Nat.le_refl _)).
  destruct (Parse n s input e) as [[s' out]|w|] eqn:E; [left; exists s', out; exists n; auto|right; exists n, w; auto|contradiction].
Qed.

Lemma Parses_run s input e s' out : Parses s input e s' out ->
  exists fuel r, Init fuel s = Ok (s', r) /\
  match r with
  | Some err => out = Failed err
  | None => exists root, sRoot s' = Some root /\ parseInput (parsers s') (sKeywords s') root fuel input e = Ok out
  end.
Proof.
  intros [fuel H]. unfold Parse in H. binv H. destruct x as [s1 [err|]].
  - inversion H; subst. exists fuel, (Some err). auto.
  - destruct (sRoot s1) as [root|] eqn:Er; [|discriminate]. binv H. inversion H; subst. exists fuel, None. split; auto. exists root. auto.
Qed.
(** ** distinct names *)
Lemma rep_nodup objs s : rep objs s -> NoDup (map dName objs).
Proof.
  intros Hr. apply NoDup_nth_error. intros i j Hi Hij. rewrite map_length in Hi.
  rewrite !nth_error_map' in Hij. destruct (nth_error objs i) as [o|] eqn:Ei; [|apply nth_error_None in Ei; lia].
  destruct (nth_error objs j) as [o'|] eqn:Ej; simpl in Hij; [|discriminate]. inversion Hij.
  pose proof (rep_lookup objs s Hr i o Ei). pose proof (rep_lookup objs s Hr j o' Ej). congruence.
Qed.
Lemma samePair_names l l' : Forall2 samePair l l' -> map fst l = map fst l'.
Proof. induction 1 as [|[a b] [c d] l l' [H _] _ IH]; simpl in *; auto. congruence. Qed.
Lemma defined_names calls s : Defined calls s -> NoDup (map fst (flat_map callRules calls)).
Proof.
  intros Hd. apply defineAll_raw in Hd. destruct Hd as [Hd _]. apply (rep_rawAll _ [] _ _ rep_empty), rep_nodup in Hd. simpl in Hd.
  rewrite <- (samePair_names _ _ (userDefined_rules calls)). rewrite <- (samePair_names _ _ (callsRules_same _)).
  replace (map fst (map objPair (flat_map callObjs (map withUserDefined calls)))) with (map dName (flat_map callObjs (map withUserDefined calls))) by (rewrite map_map; auto). auto.
Qed.
Lemma ruleIn_unique l n r : NoDup (map fst l) -> In (n, r) l -> ruleIn l n = Some r.
Proof.
  induction l as [|[k q] l IH]; simpl; [intros _ []|]. intros Hn [E|H]; inversion Hn as [|? ? N1 N2]; subst.
  - inversion E; subst. rewrite String.eqb_refl. auto.
  - destruct (String.eqb_spec k n); [|auto]. subst. exfalso. apply N1. apply (in_map fst) in H. exact H.
Qed.
Lemma grammar_rule calls s n r : Defined calls s -> In (n, r) (flat_map callRules calls) -> grammarOf calls n = Some r.
Proof. intros Hd. apply ruleIn_unique. eapply defined_names; eauto. Qed.

(** ** syntaxes whose parsers are known: those of definition calls, here, and those of ReadSyntax,
    in ReadFacts.v *)
Definition usable (calls : list defcall) (s : syntax) : Prop :=
  NoDup (map fst (flat_map callRules calls)) /\
  forall fuel s', Init fuel s = Ok (s', None) -> exists PL root name R1, setup calls s' PL root name R1.
Lemma defined_usable calls s : Defined calls s -> wsReady calls -> usable calls s.
Proof. intros Hd Hw. split; [eapply defined_names; eauto|]. intros fuel s' HI. eapply setup_init; eauto. Qed.
Lemma usable_rule calls s n r : usable calls s -> In (n, r) (flat_map callRules calls) -> grammarOf calls n = Some r.
Proof. intros [Hn _]. apply ruleIn_unique. auto. Qed.


Lemma Parses_tree calls s input e s' t toks : usable calls s -> Parses s input e s' (Tree t toks) ->
  exists fuel PL root name R1, setup calls s' PL root name R1 /\ parseInput PL (sKeywords s') root fuel input e = Ok (Tree t toks).
Proof.
  intros Hd HP. apply Parses_run in HP. destruct HP as (fuel & [err|] & HI & H); [discriminate|]. destruct H as (root & Er & H).
  destruct (proj2 Hd _ _ HI) as (PL & root1 & name & R1 & Su). pose proof (su_root _ _ _ _ _ _ Su) as E. rewrite Er in E. inversion E; subst root1.
  exists fuel, PL, root, name, R1. split; auto. rewrite <- (live_run _ _ _ _ (su_live _ _ _ _ _ _ Su)). auto.
Qed.

(** the head of a built list, for a definition that is not an alias *)
Lemma build_head B n b c ob n0 rest ok c2 : nth_error B b = Some ob -> nonChar ob -> hasFlag (commitTypeOf ob) CAlias = false ->
  build B n b c = Ok (n0 :: rest, ok, c2) ->
  exists to nodes, n0 = Node (nodeName ob) (cOffset c) to nodes /\ longestMatch (cResults c) (cOffset c) (nodeID ob) = Some to /\ rest = [].
Proof.
  intros Hb Hn Ha H. destruct n as [|n]; [discriminate|]. cbn [build] in H. rewrite Hb in H.
  destruct ob as [|name id commit items ranges gs ac|name id commit options gs]; [destruct Hn| |]; simpl in Ha |- *.
  - unfold seqBuild in H. destruct (longestMatch _ _ _) as [to|]; [|discriminate]. destruct ac.
    + rewrite Ha in H. inversion H; subst. eauto 10.
    + binv H. destruct x as [c1|]; [|discriminate]. binv H. destruct x as [nodes c3]. binv H. rewrite Ha in H. inversion H; subst. eauto 10.
  - unfold choiceBuild in H. destruct (longestMatch _ _ _) as [to|]; [|discriminate].
    binv H. destruct x as [c1|]; [|discriminate]. binv H. destruct x as [op|]; [|discriminate]. binv H. destruct x as [[nodes ok1] c3]. binv H. rewrite Ha in H. inversion H; subst. eauto 10.
Qed.

Lemma nodeOk_inTree B r0 n t : inTree n t -> nodeOk B r0 t -> nodeOk B r0 n.
Proof.
  induction 1; intros Hn; auto. apply IHinTree. inversion Hn as [b ob f1 t1 ns Hb Hc Ha Hs Hf]; subst. rewrite Forall_forall in Hf. auto.
Qed.

Section TREES.
Variables (calls : list defcall) (s s' : syntax) (input : list rune) (e : rend) (t : node) (toks : list rune).
Hypothesis Hdef : usable calls s.
Hypothesis HP : Parses s input e s' (Tree t toks).

Theorem u_tree_root : exists name, rootName calls = Some name /\ nName t = name /\ nFrom t = 0 /\ nTo t = List.length input.
Proof.
  destruct (Parses_tree _ _ _ _ _ _ _ Hdef HP) as (fuel & PL & root & name & R1 & Su & Hr).
  exists name. split; [apply (su_name _ _ _ _ _ _ Su)|]. destruct (su_ok _ _ _ _ _ _ Su) as [A1 A2 A3 (o & Ho & No & Eo) A5 A6 A7 A8 _].
  unfold parseInput in Hr. apply run_tree in Hr. destruct Hr as (-> & -> & _ & c & ob & c1 & rest & ok & c2 & _ & _ & Hob & Hst & Ho1 & _ & Hres & Hb & Hbi).
  rewrite Ho in Hob. inversion Hob; subst ob.
  destruct (build_head _ _ _ _ _ _ _ _ _ Ho No (A7 _ Ho) Hb) as (to & nodes & -> & Hl & _). rewrite Ho1. simpl. split; auto. split; auto.
  apply longestMatch_some in Hl. destruct Hl as [L1 L2]. rewrite Ho1, Hres in *.
  assert (Hst' : stored (resetPending (cResults c)) 0 (nodeID o) (List.length input)) by exact Hst.
  apply L2 in Hst'. destruct Hbi as [_ Bs]. rewrite Hres in Bs. apply Bs in L1. lia.
Qed.

Theorem u_tree_eof : e = REof /\ toks = input.
Proof.
  destruct (Parses_tree _ _ _ _ _ _ _ Hdef HP) as (fuel & PL & root & name & R1 & Su & Hr). unfold parseInput in Hr. apply run_tree in Hr. tauto.
Qed.

Theorem u_tree_nodes n : sensibleRanges calls -> inTree n t ->
  nFrom n <= nTo n /\ nTo n <= List.length input /\ visible calls (nName n) /\
  exists name, rootName calls = Some name /\ texts calls name (nName n) (nodeRunes toks n).
Proof.
  intros Hs Hin. destruct (Parses_tree _ _ _ _ _ _ _ Hdef HP) as (fuel & PL & root & name & R1 & Su & Hr).
  destruct (su_ok _ _ _ _ _ _ Su) as [A1 A2 A3 (o & Ho & No & Eo) A5 A6 A7 A8 _].
  unfold parseInput in Hr. apply run_tree in Hr. destruct Hr as (-> & -> & _ & c & ob & c1 & rest & ok & c2 & Hp & _ & Hob & Hst & Ho1 & _ & Hres & Hb & Hbi).
  pose proof (build_spec PL (List.length input) (cResults c) _ _ _ _ Hbi Hb) as [_ Hok].
  assert (Hno : nodeOk PL (cResults c) n).
  { assert (X : Forall (nodeOk PL (cResults c)) (t :: rest)) by (apply Hok; intros o0 i t0 Hst0; rewrite Hres in Hst0; exact Hst0).
    inversion X; subst. eapply nodeOk_inTree; eauto. }
  inversion Hno as [b ob' from to nodes Hb' Hc' Ha' Hst' _]; subst. simpl.
  assert (Nob : nonChar ob') by (destruct ob'; simpl in *; auto).
  assert (Hft : from <= to /\ to <= List.length input) by (destruct Hbi as [_ Bs]; apply (Bs from (nodeID ob') to); rewrite Hres; exact Hst').
  split; [tauto|]. split; [tauto|].
  destruct (A8 b ob' Hb' Nob) as [Hrule _].
  assert (Hrl : exists r, R1 (nodeName ob') = Some r /\ ruleAlias r = false).
  { unfold ruleOk in Hrule. rewrite Hb' in Hrule. destruct ob' as [|nm i ct items ranges gs ac|nm i ct options gs]; [destruct Nob| |]; simpl in *.
    - destruct Hrule as (ct' & its & rs & H1 & (_ & _ & H2) & _). eexists. split; [exact H1|]. simpl. congruence.
    - destruct Hrule as (ct' & os & H1 & (_ & _ & H2) & _). eexists. split; [exact H1|]. simpl. congruence. }
  destruct Hrl as (r & Hr1 & Hr2). pose proof (su_alias _ _ _ _ _ _ Su _ _ Hr1 Hr2) as Hv. split; auto.
  eexists. split; [apply (su_name _ _ _ _ _ _ Su)|].
  apply (parse_sound PL (sKeywords s') (keywordTexts calls) input A1 A2 (su_ranges _ _ _ _ _ _ Su Hs) (proj1 (su_kws _ _ _ _ _ _ Su))) in Hp.
  apply (ci_G _ _ _ _ Hp) in Hst'. pose proof (Hst' b ob' Hb' Nob eq_refl) as Hl. apply (A5 b ob' _ _ Hb' Nob) in Hl.
  apply (su_gen _ _ _ _ _ _ Su) in Hl; [exact Hl|].
  destruct Hv as (d & Hd & <- & _). apply grammar_names.
  destruct (callObjs_split d) as (chs & o2 & Ec & _ & En & _). rewrite <- En. apply in_map, in_flat_map. exists d. split; auto. rewrite Ec. apply in_or_app; right; left; auto.
Qed.

Theorem u_tree_text : sensibleRanges calls -> exists name, rootName calls = Some name /\ texts calls name name input.
Proof.
  intros Hs. destruct u_tree_root as (name & H1 & H2 & H3 & H4). destruct (u_tree_nodes t Hs (inTree_here _)) as (_ & _ & _ & name' & H5 & H6).
  rewrite H1 in H5. inversion H5; subst name'. exists name. split; auto. rewrite H2 in H6. destruct u_tree_eof as [_ Et].
  unfold nodeRunes in H6. rewrite H3, H4, Et in H6. fold (slice input 0 (List.length input)) in H6. rewrite slice_full in H6. exact H6.
Qed.
End TREES.
Definition tree_root calls s s' input e t toks (Hd : Defined calls s) (Hw : wsReady calls) := u_tree_root calls s s' input e t toks (defined_usable calls s Hd Hw).
Definition tree_eof calls s s' input e t toks (Hd : Defined calls s) (Hw : wsReady calls) := u_tree_eof calls s s' input e t toks (defined_usable calls s Hd Hw).
Definition tree_nodes calls s s' input e t toks (Hd : Defined calls s) (Hw : wsReady calls) := u_tree_nodes calls s s' input e t toks (defined_usable calls s Hd Hw).
Definition tree_text calls s s' input e t toks (Hd : Defined calls s) (Hw : wsReady calls) := u_tree_text calls s s' input e t toks (defined_usable calls s Hd Hw).

(** the text of a nokw sequence is not a keyword *)
Lemma texts_nokw calls root n ct items w : grammarOf calls n = Some (RSeq ct items) -> hasFlag ct CNoKeyword = true ->
  (n <> root \/ noWhitespaceDefs calls) -> texts calls root n w -> ~ In w (keywordTexts calls).
Proof.
  intros Hg Hf Hn H. unfold texts in H.
  assert (Hb : forall u, wbody (grammarOf calls) (keywordTexts calls) (whitespaceNames calls) root n u -> ~ In u (keywordTexts calls)).
  { intros u Hu. inversion Hu; subst; try congruence.
    - rewrite Hg in H0. inversion H0; subst. auto.
    - rewrite Hg in H0. inversion H0; subst. auto. }
  inversion H as [u v x Hu Hv Hx|n' w' Hne Hw]; subst; [|auto].
  destruct Hn as [Hn|Hn]; [congruence|].
  assert (Hsp : forall y, wspace (grammarOf calls) (keywordTexts calls) (whitespaceNames calls) n y -> y = []).
  { intros y Hy. rewrite (noWs_names calls Hn) in Hy. inversion Hy as [|m ? ? Hin]; subst; auto. destruct Hin. }
  rewrite (Hsp _ Hu), (Hsp _ Hx), app_nil_r. simpl. auto.
Qed.

(** ** errors *)
Definition initErr (err : gerr) : Prop :=
  match err with ErrInvalidUnicodeCharacter | ErrReader _ | ErrParse _ _ _ _ => False | _ => True end.
Lemma checkCommitType_err d err : checkCommitType d = Some err -> initErr err.
Proof.
  unfold checkCommitType. generalize incompatibleCommitTypes. intros l. induction l as [|[a bs] l IH]; simpl; [discriminate|].
  destruct (hasFlag (dCommit d) a); [|exact IH].
  destruct (find _ bs); [|exact IH]. intros H; inversion H. exact I.
Qed.
Lemma validateNames_err m rec names : (forall h a h' err, rec h a = Ok (h', Some err) -> initErr err) ->
  forall h h' err, validateNames m rec names h = Ok (h', Some err) -> initErr err.
Proof.
  intros Hrec. induction names as [|n names IH]; intros h h' err H; simpl in H; [discriminate|].
  destruct (lookup m n); [|inversion H; exact I]. binv H. destruct x as [h1 [e1|]]; [inversion H; subst; eauto|eauto].
Qed.
Lemma validate_err m n : forall h a h' err, validate m n h a = Ok (h', Some err) -> initErr err.
Proof.
  induction n as [|n IH]; intros h a h' err H; [discriminate|]. cbn [validate] in H. destruct (nth_error h a) as [d|]; [|discriminate].
  destruct (dKind d) as [|oi items ranges ids gs ac v i|options od gs v i]; [discriminate| |].
  - destruct v; [discriminate|]. eapply validateNames_err; eauto.
  - destruct v; [discriminate|]. eapply validateNames_err; eauto.
Qed.
Lemma validateAll_err m n l : forall h h' err, validateAll m n l h = Ok (h', Some err) -> initErr err.
Proof.
  induction l as [|a l IH]; intros h h' err H; simpl in H; [discriminate|]. binv H. destruct x as [h1 [e1|]]; [|eauto].
  inversion H; subst. eapply validate_err; eauto.
Qed.
Lemma Init_err n s s' err : Init n s = Ok (s', Some err) -> initErr err.
Proof.
  unfold Init. destruct (sInitFailed s); [intros H; inversion H; exact I|]. destruct (sInitialized s); [discriminate|].
  destruct (sRoot s) as [root|]; [|intros H; inversion H; exact I]. destruct (nth_error (sHeap s) root) as [rd|]; [|discriminate].
  destruct (sRegistry s) as [reg|]; [|discriminate]. destruct (checkCommitType rd) eqn:E; [intros H; inversion H; subst; eapply checkCommitType_err; eauto|].
  intros H. binv H. destruct x as [[h r] rt]. binv H. destruct x as [h1 [e1|]].
  - inversion H; subst. eapply validateAll_err; eauto.
  - binv H. discriminate.
Qed.
Lemma Parses_error s input e s' err : Parses s input e s' (Failed err) -> ~ initErr err ->
  exists fuel root, sRoot s' = Some root /\ parseInput (parsers s') (sKeywords s') root fuel input e = Ok (Failed err).
Proof.
  intros H Hn. apply Parses_run in H. destruct H as (fuel & [err'|] & HI & H).
  - inversion H; subst. apply Init_err in HI. contradiction.
  - destruct H as (root & Er & H). eauto.
Qed.
Theorem error_position s input e s' off line col def : Parses s input e s' (Failed (ErrParse off line col def)) ->
  off <= List.length input /\ line = newlines (firstn off input) /\ columnOf (firstn off input) col.
Proof.
  intros H. apply Parses_error in H; [|intros X; exact X]. destruct H as (fuel & root & _ & H). apply run_error in H.
  destruct H as [[H _]|[(k & H & _)|(o & l & c & a & ob & H & _ & H1 & H2 & H3)]]; try discriminate. inversion H; subst. auto.
Qed.
Theorem reader_error s input k s' out : Parses s input (RFail k) s' out ->
  match out with
  | Tree _ _ => False
  | Failed (ErrParse off line col def) => forall more e', exists s2, Parses s (input ++ more) e' s2 (Failed (ErrParse off line col def))
  | Failed err => err = ErrReader k \/ err = ErrInvalidUnicodeCharacter /\ In runeError input \/ Inits s s' (Some err)
  end.
Proof.
  intros H. pose proof H as H0. apply Parses_run in H. destruct H as (fuel & r & HI & H). destruct r as [err|].
  - subst out. pose proof (Init_err _ _ _ _ HI) as Hi. destruct err; try (right; right; exists fuel; exact HI); destruct Hi.
  - destruct H as (root & Er & H). unfold parseInput in H. destruct out as [t toks|err].
    + apply run_tree in H. destruct H as (H & _). discriminate.
    + destruct err eqn:Ee; try (right; right; exists fuel; exfalso; apply run_error in H;
        destruct H as [[H _]|[(q & H & _)|(o9 & l9 & c9 & a9 & ob9 & H & _)]]; discriminate).
      * right. left. split; auto. apply run_error in H. destruct H as [[_ H]|[(q & H & _)|(o9 & l9 & c9 & a9 & ob9 & H & _)]]; try discriminate. auto.
      * left. apply run_error in H. destruct H as [[H _]|[(q & H & H')|(o9 & l9 & c9 & a9 & ob9 & H & _)]]; try discriminate. congruence.
      * intros more e'. exists s', fuel. unfold Parse. rewrite HI. cbn [bind]. rewrite Er. unfold parseInput. rewrite (run_local _ _ _ _ _ _ _ _ _ _ _ _ more e' H). auto.
Qed.

(** ** the language of the initialized parsers *)
Lemma lang_restrict P live kws K : closedLive P live kws ->
  (forall a w, lang P K a w -> live a = true -> lang (restrict P live) K a w) /\
  (forall items ranges w, langItems P K items ranges w -> (forall x, In x items -> live x = true) -> langItems (restrict P live) K items ranges w) /\
  (forall a k w, langRep P K a k w -> live a = true -> langRep (restrict P live) K a k w).
Proof.
  intros (C1 & C2 & C3). apply lang_mutind.
  - intros a name id cnot chars ranges r H1 H2 Hl. eapply lang_char; eauto. rewrite (restrict_live P live a Hl). eauto.
  - intros a name id commit items ranges gs ac w H1 H2 H3 IH Hl. eapply lang_seq; eauto. rewrite (restrict_live P live a Hl); eauto.
  - intros a name id commit options gs op w H1 H2 H3 IH Hl. eapply lang_choice; eauto. rewrite (restrict_live P live a Hl); eauto.
  - constructor.
  - intros item items mn mx ranges k u v L1 L2 L3 IH1 L4 IH2 Hl. econstructor; eauto; [apply IH1; apply Hl; left; auto|apply IH2; intros x Hx; apply Hl; right; auto].
  - constructor.
  - intros. constructor; auto.
Qed.
Lemma lang_unrestrict P live kws K : closedLive P live kws ->
  (forall a w, lang (restrict P live) K a w -> live a = true -> lang P K a w) /\
  (forall items ranges w, langItems (restrict P live) K items ranges w -> (forall x, In x items -> live x = true) -> langItems P K items ranges w) /\
  (forall a k w, langRep (restrict P live) K a k w -> live a = true -> langRep P K a k w).
Proof.
  intros (C1 & C2 & C3). apply lang_mutind.
  - intros a name id cnot chars ranges r H1 H2 Hl. rewrite (restrict_live P live a Hl) in H1. eapply lang_char; eauto.
  - intros a name id commit items ranges gs ac w H1 H2 H3 IH Hl. rewrite (restrict_live P live a Hl) in H1. eapply lang_seq; eauto.
  - intros a name id commit options gs op w H1 H2 H3 IH Hl. rewrite (restrict_live P live a Hl) in H1. eapply lang_choice; eauto.
  - constructor.
  - intros item items mn mx ranges k u v L1 L2 L3 IH1 L4 IH2 Hl. econstructor; eauto; [apply IH1; apply Hl; left; auto|apply IH2; intros x Hx; apply Hl; right; auto].
  - constructor.
  - intros. constructor; auto.
Qed.
Lemma lang_live P kws root PL K a w : liveParsers P kws root PL -> nth_error PL a <> None ->
  (exists o, nth_error PL a = Some o /\ nonChar o) \/ a = root -> (lang P K a w <-> lang PL K a w).
Proof.
  intros (live & -> & H1 & H2) _ H.
  assert (Hl : live a = true).
  { destruct H as [(o & Ho & No)| ->]; auto. destruct o; [destruct No| |]; [apply restrict_seq in Ho|apply restrict_choice in Ho]; tauto. }
  split; intros X; [eapply lang_restrict; eauto|eapply lang_unrestrict; eauto].
Qed.

Lemma takesPart_live calls s PL root name R1 live : setup calls s PL root name R1 -> PL = restrict (parsers s) live -> closedLive (parsers s) live (sKeywords s) ->
  live root = true -> forall a, takesPart s a -> live a = true.
Proof.
  intros Su -> (C1 & C2 & C3) Hr a H. induction H as [a Ha|a Ha|a o x Ht IH Ho Hx].
  - rewrite (su_root _ _ _ _ _ _ Su) in Ha. inversion Ha; subst; auto.
  - auto.
  - destruct o; simpl in Hx; [destruct Hx| |]; eauto.
Qed.
Theorem u_languages calls s s' : usable calls s -> Inits s s' None ->
  exists root name, sRoot s' = Some root /\ rootName calls = Some name /\
  (exists o, nth_error (parsers s') root = Some o /\ nodeName o = name) /\
  forall a o, takesPart s' a -> nth_error (parsers s') a = Some o -> nonChar o -> grammarOf calls (nodeName o) <> None ->
  forall K w, lang (parsers s') K a w <-> wgen (grammarOf calls) K (whitespaceNames calls) name (nodeName o) w.
Proof.
  intros Hd [fuel HI]. destruct (proj2 Hd _ _ HI) as (PL & root & name & R1 & Su).
  exists root, name. split; [apply (su_root _ _ _ _ _ _ Su)|]. split; [apply (su_name _ _ _ _ _ _ Su)|].
  destruct (su_live _ _ _ _ _ _ Su) as (live & E & C & Hr). destruct (su_ok _ _ _ _ _ _ Su) as [A1 A2 A3 (o & Ho & No & Eo) A5 A6 A7 A8 _].
  assert (Hsame : forall a, live a = true -> nth_error PL a = nth_error (parsers s') a) by (intros a Ha; rewrite E; apply restrict_live; auto).
  split; [exists o; rewrite <- Hsame; auto|].
  intros a o1 Ht Ho1 No1 Hg K w. rewrite <- (su_gen _ _ _ _ _ _ Su) by auto.
  pose proof (takesPart_live _ _ _ _ _ _ live Su E C Hr a Ht) as Hlive.
  assert (El : lang (parsers s') K a w <-> lang PL K a w).
  { rewrite E. split; intros X; [eapply lang_restrict|eapply lang_unrestrict]; eauto. }
  rewrite El. apply A5; auto. rewrite Hsame; auto.
Qed.

Definition languages calls s s' (Hd : Defined calls s) (Hw : wsReady calls) := u_languages calls s s' (defined_usable calls s Hd Hw).

Theorem u_nokw_nodes calls s s' input e t toks n ct items :
  usable calls s -> sensibleRanges calls ->
  Parses s input e s' (Tree t toks) -> inTree n t ->
  In (DSequence (nName n) ct items) calls -> hasFlag ct CNoKeyword = true ->
  (rootName calls <> Some (nName n) \/ noWhitespaceDefs calls) ->
  ~ In (nodeRunes toks n) (keywordTexts calls).
Proof.
  intros Hd Hs HP Ht Hc Hf Hr. destruct (u_tree_nodes _ _ _ _ _ _ _ Hd HP n Hs Ht) as (_ & _ & _ & name & Hn & Htx).
  eapply texts_nokw; [|exact Hf| |exact Htx].
  - eapply usable_rule; eauto. apply in_flat_map. eexists. split; [exact Hc|]. left. reflexivity.
  - destruct Hr; [left; congruence|right; auto].
Qed.
Definition nokw_nodes calls s s' input e t toks n ct items (Hd : Defined calls s) (Hw : wsReady calls) := u_nokw_nodes calls s s' input e t toks n ct items (defined_usable calls s Hd Hw).
Lemma defineAll_reachable calls : forall s s' r, reachable s -> defineAll s calls = (s', r) -> reachable s'.
Proof.
  induction calls as [|d calls IH]; intros s s' r Hr H; simpl in H; [inversion H; subst; auto|].
  destruct (defineCall s d) as [s1 [e|]] eqn:E; [inversion H; subst|eapply IH; [|exact H]];
  unfold defineCall in E; destruct (isValidSymbol _); try (inversion E; subst; auto; fail); eapply re_define; eauto.
Qed.
