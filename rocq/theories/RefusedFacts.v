(** Guarded choices never take a keyword; refused definitions. *)
From Verif Require Import TextSpec Base Utf8 Parser Build Syntax SyntaxFacts Lang Sound Grammar WsLang ApiSpec DefSpec InitSpec WsApi ApiFacts DefineFacts Define ListFacts RefusedSpec GenSim RefusedSim.

Lemma choice_texts calls root n ct options w : grammarOf calls n = Some (RChoice ct options) -> n <> root \/ noWhitespaceDefs calls ->
  texts calls root n w -> exists o, In o options /\ texts calls root o w.
Proof.
  intros Hg Hn H. unfold texts in *.
  assert (Hb : forall u, wbody (grammarOf calls) (keywordTexts calls) (whitespaceNames calls) root n u -> exists o, In o options /\ wgen (grammarOf calls) (keywordTexts calls) (whitespaceNames calls) root o u).
  { intros u Hu. inversion Hu; subst; try congruence. rewrite Hg in H0. inversion H0; subst. eauto. }
  inversion H as [u v x Hu Hv Hx|n' w' Hne Hw]; subst; [|auto].
  destruct Hn as [Hn|Hn]; [congruence|].
  assert (Hsp : forall y, wspace (grammarOf calls) (keywordTexts calls) (whitespaceNames calls) n y -> y = []).
  { intros y Hy. rewrite (noWs_names calls Hn) in Hy. inversion Hy as [|m ? ? Hin]; subst; auto. destruct Hin. }
  rewrite (Hsp _ Hu), (Hsp _ Hx), app_nil_r. simpl. auto.
Qed.
Lemma flat_rule d : isChoice d = false -> exists ct items, In (callName d, RSeq ct items) (callRules d) /\ (hasFlag (callFlags d) CNoKeyword = true -> hasFlag ct CNoKeyword = true).
Proof.
  destruct d as [n ct|n ct cn ch rs|n ct chars|n ct items|n ct opts]; intros H; try discriminate; cbn [callRules callName callFlags].
  1,2: do 2 eexists; split; [right; left; reflexivity|auto].
  - do 2 eexists. split; [apply in_or_app; right; left; reflexivity|]. change CNoKeyword with (2 ^ 5)%N. rewrite !hasFlag_bit, N.lor_spec. intros ->. reflexivity.
  - do 2 eexists. split; [left; reflexivity|auto].
Qed.
Theorem guarded_texts calls s root n : usable calls s -> rootName calls = Some root -> guarded calls n ->
  forall w, texts calls root n w -> ~ In w (keywordTexts calls).
Proof.
  intros Hu Hroot. assert (Ha : forall m, apart calls m -> m <> root \/ noWhitespaceDefs calls) by (intros m [H|H]; [left; congruence|auto]).
  induction 1 as [d Hd Hc Hf Hap|n ct options Hd Hap Hall IH]; intros w Hw.
  - destruct (flat_rule d Hc) as (ct & items & Hin & Hk). eapply texts_nokw; [|apply Hk; exact Hf|apply Ha; exact Hap|exact Hw]. eapply usable_rule; eauto. apply in_flat_map. eauto.
  - destruct (choice_texts calls root n ct options w) as (o & Ho & Hwo); auto; [|eapply IH; eauto]. eapply usable_rule; eauto. apply in_flat_map. eexists. split; [exact Hd|]. left. reflexivity.
Qed.
Theorem guarded_nodes calls s s' input e t toks n : Defined calls s -> wsReady calls -> sensibleRanges calls ->
  Parses s input e s' (Tree t toks) -> inTree n t -> guarded calls (nName n) -> ~ In (nodeRunes toks n) (keywordTexts calls).
Proof.
  intros Hd Hw Hs HP Ht Hg. pose proof (defined_usable _ _ Hd Hw) as Hu. destruct (u_tree_nodes _ _ _ _ _ _ _ Hu HP n Hs Ht) as (_ & _ & _ & name & Hn & Htx).
  eapply guarded_texts; eauto.
Qed.

(** ** refused definitions *)
Definition withGarbage (s : syntax) (g : defobj) : syntax :=
  mkSyntax (sHeap s ++ [g]) (Some (regOf s)) (sInitialized s) (sInitFailed s) (sExplicitRoot s) (sKeywords s) (sRoot s).
Lemma register_refused s d s' err : register s d = (s', Some err) ->
  (forall n, err <> ErrDuplicateDefinition n) \/ (sExplicitRoot s = true /\ hasFlag (dCommit d) CKeyword = false) -> s' = s \/ s' = withGarbage s d.
Proof.
  intros H Hn. unfold register in H. destruct (sInitialized s) eqn:Ei; [inversion H; auto|]. fold (regOf s) in H. right. unfold withGarbage. rewrite Ei.
  destruct (checkCommitType d) eqn:Ec; [inversion H; subst; auto|].
  destruct (applyRoot _ _) as [s2 [e2|]] eqn:Ea.
  - inversion H; subst. revert Ea. unfold applyRoot. cbn [sHeap sExplicitRoot]. rewrite nth_error_app2, Nat.sub_diag by lia. cbn [nth_error].
    destruct (hasFlag (dCommit d) CRoot && sExplicitRoot s)%bool; [|destruct (_ || _)%bool; intros X; inversion X]. intros X; inversion X; subst. auto.
  - destruct (setDefinition _ _ _) as [[h reg] e3] eqn:Es. inversion H; subst. unfold setDefinition in Es. destruct (nth_error (sHeap s2) _); [|inversion Es]. destruct (lookup _ _); inversion Es; subst.
    destruct Hn as [Hn|[Hx Hk]]; [exfalso; eapply Hn; reflexivity|]. rewrite Hk. revert Ea. unfold applyRoot. cbn [sHeap sExplicitRoot sRoot]. rewrite nth_error_app2, Nat.sub_diag by lia. cbn [nth_error]. rewrite Hx.
    destruct (hasFlag (dCommit d) CRoot); [intros X; inversion X|]. cbn [andb orb negb]. intros X; inversion X; subst. cbn [sHeap sRoot sExplicitRoot sInitialized sInitFailed sKeywords]. destruct (sRoot s); auto.
Qed.
Lemma str_len a b : String.length (a ++ b)%string = String.length a + String.length b.
Proof. induction a; simpl; auto. Qed.
Lemma own_child n i : n <> childName n i.
Proof. unfold childName. intros H. apply (f_equal String.length) in H. rewrite str_len in H. simpl in H. lia. Qed.
Lemma register_name s d s' n : register s d = (s', Some (ErrDuplicateDefinition n)) -> n = dName d.
Proof.
  unfold register. destruct (sInitialized s); [discriminate|]. destruct (checkCommitType d) eqn:Ec.
  { intros H; inversion H; subst. exfalso. revert Ec. unfold checkCommitType. generalize incompatibleCommitTypes. intros l. induction l as [|[c l'] l IH]; cbn [checkCommitTypeIn]; [discriminate|]. destruct (hasFlag _ c); auto. destruct (find _ _); [discriminate|auto]. }
  destruct (applyRoot _ _) as [s2 [e2|]] eqn:Ea.
  { intros H; inversion H; subst. exfalso. revert Ea. unfold applyRoot. destruct (nth_error _ _); [|discriminate]. destruct (_ && _)%bool; [discriminate|]. destruct (_ || _)%bool; discriminate. }
  unfold setDefinition. destruct (nth_error (sHeap s2) _) as [d2|] eqn:Ed; [|discriminate]. destruct (lookup _ _); [|discriminate]. intros H; inversion H; subst.
  assert (E : forall x y, applyRoot x y = (s2, None) -> forall d0, nth_error (sHeap s2) y = Some d0 -> exists d1, nth_error (sHeap x) y = Some d1 /\ dName d0 = dName d1).
  { intros x y. unfold applyRoot. destruct (nth_error (sHeap x) y) as [d1|] eqn:E1; [|intros X; inversion X; subst; intros d0 Hd0; exists d0; split; congruence].
    destruct (_ && _)%bool; [discriminate|]. intros X d0 Hd0. exists d1. split; auto. assert (K : forall ff (h : dheap), nth_error (updNth y (fun d => setCommitType (ff d) d) h) y = Some d0 -> exists dd, nth_error h y = Some dd /\ dName d0 = dName dd).
    { intros ff h. rewrite nth_error_updNth, Nat.eqb_refl. destruct (nth_error h y) as [dd|]; simpl; [|discriminate]. intros Y; inversion Y; subst. exists dd. split; auto. unfold setCommitType. destruct (dKind dd); auto. }
    assert (K2 : forall r ff dd, nth_error (updNth r (fun d => setCommitType (ff d) d) (sHeap x)) y = Some dd -> dName dd = dName d1).
    { intros r ff dd. rewrite nth_error_updNth, E1. destruct (r =? y); simpl; intros Y; inversion Y; subst; auto. unfold setCommitType. destruct (dKind d1); auto. }
    destruct (sRoot x) as [r|]; destruct (_ || _)%bool; inversion X; subst; cbn [sHeap] in Hd0.
    - destruct (K (fun d => N.lor (dCommit d) CRoot) _ Hd0) as (dd & Hdd & ->). eapply K2; exact Hdd.
    - congruence.
    - destruct (K (fun d => N.lor (dCommit d) CRoot) _ Hd0) as (dd & Hdd & ->). congruence.
    - congruence. }
  destruct (E _ _ Ea _ Ed) as (d1 & X1 & X2). cbn [sHeap] in X1. rewrite nth_error_app2, Nat.sub_diag in X1 by lia. inversion X1; subst. auto.
Qed.
Theorem refused_shape s d s' err : defineCall s d = (s', Some err) -> refusedCleanly s d err -> s' = s \/ exists g, dkids g = [] /\ s' = withGarbage s g.
Proof.
  unfold defineCall. destruct (isValidSymbol (callName d)); [|intros H _; inversion H; auto]. intros H Hc.
  assert (R : forall o u, register s o = (u, Some err) -> (forall n, err <> ErrDuplicateDefinition n) \/ (sExplicitRoot s = true /\ hasFlag (dCommit o) CKeyword = false) -> dkids o = [] -> u = s \/ exists g, dkids g = [] /\ u = withGarbage s g).
  { intros o u Ho Hq Hk. destruct (register_refused _ _ _ _ Ho Hq); eauto. }
  assert (I0 : forall o u, register s o = (u, Some ErrSyntaxInitialized) -> u = s).
  { intros o u. unfold register. destruct (sInitialized s); [intros X; inversion X; auto|]. destruct (checkCommitType o) eqn:Ec.
    { intros X; inversion X; subst. exfalso. revert Ec. unfold checkCommitType. generalize incompatibleCommitTypes. intros l. induction l as [|[c l'] l IH]; cbn [checkCommitTypeIn]; [discriminate|]. destruct (hasFlag _ c); auto. destruct (find _ _); [discriminate|auto]. }
    destruct (applyRoot _ _) as [s2 [e2|]] eqn:Ea.
    { intros X; inversion X; subst. exfalso. revert Ea. unfold applyRoot. destruct (nth_error _ _); [|discriminate]. destruct (_ && _)%bool; [discriminate|]. destruct (_ || _)%bool; discriminate. }
    unfold setDefinition. destruct (nth_error (sHeap s2) _); [|discriminate]. destruct (lookup _ _); discriminate. }
  assert (I1 : forall o u, register s o = (u, None) -> sInitialized u = false).
  { intros o u Ho. assert (Hi : sInitialized s = false) by (unfold register in Ho; destruct (sInitialized s); auto; discriminate). revert Ho. unfold register. rewrite Hi. destruct (checkCommitType o); [discriminate|].
    destruct (applyRoot _ _) as [s2 [e2|]] eqn:Ea; [discriminate|]. destruct (setDefinition _ _ _) as [[h reg] e3]. intros X; inversion X; subst. cbn [sInitialized]. revert Ea. unfold applyRoot.
    destruct (nth_error _ _); [|intros Y; inversion Y; auto]. destruct (_ && _)%bool; [discriminate|]. destruct (_ || _)%bool; intros Y; inversion Y; auto. }
  assert (I2 : forall o u, sInitialized u = false -> snd (register u o) <> Some ErrSyntaxInitialized).
  { intros o u Hi. unfold register. rewrite Hi. destruct (checkCommitType o) eqn:Ec.
    { cbn [snd]. intros X; inversion X; subst. revert Ec. unfold checkCommitType. generalize incompatibleCommitTypes. intros l. induction l as [|[c l'] l IH]; cbn [checkCommitTypeIn]; [discriminate|]. destruct (hasFlag _ c); auto. destruct (find _ _); [discriminate|auto]. }
    destruct (applyRoot _ _) as [s2 [e2|]] eqn:Ea.
    { cbn [snd]. intros X; inversion X; subst. revert Ea. unfold applyRoot. destruct (nth_error _ _); [|discriminate]. destruct (_ && _)%bool; [discriminate|]. destruct (_ || _)%bool; discriminate. }
    unfold setDefinition. destruct (nth_error (sHeap s2) _); [|discriminate]. destruct (lookup _ _); discriminate. }
  assert (I4 : forall o u, snd (register u o) <> Some ErrInvalidSymbolName).
  { intros o u. unfold register. destruct (sInitialized u); [discriminate|]. destruct (checkCommitType o) eqn:Ec.
    { cbn [snd]. intros X; inversion X; subst. revert Ec. unfold checkCommitType. generalize incompatibleCommitTypes. intros l. induction l as [|[c l'] l IH]; cbn [checkCommitTypeIn]; [discriminate|]. destruct (hasFlag _ c); auto. destruct (find _ _); [discriminate|auto]. }
    destruct (applyRoot _ _) as [s2 [e2|]] eqn:Ea.
    { cbn [snd]. intros X; inversion X; subst. revert Ea. unfold applyRoot. destruct (nth_error _ _); [|discriminate]. destruct (_ && _)%bool; [discriminate|]. destruct (_ || _)%bool; discriminate. }
    unfold setDefinition. destruct (nth_error (sHeap s2) _); [|discriminate]. destruct (lookup _ _); discriminate. }
  assert (CL : forall n ct b cs rs, isPlain d = false -> callName d = n -> class s n ct b cs rs = (s', Some err) -> s' = s \/ exists g, dkids g = [] /\ s' = withGarbage s g).
  { intros n ct b cs rs Hp Hnm. unfold class. destruct (register s (newChar (childName n 0) b cs rs)) as [u [e|]] eqn:Er.
    - intros X; inversion X; subst. destruct Hc as [->|[->|[[Hq _]|(_ & Hx & Hq)]]]; [exfalso; apply (I4 _ _ (f_equal snd Er))|left; eapply I0; eauto|congruence|].
      eapply R; eauto.
    - unfold sequence. intros X. exfalso. destruct Hc as [->|[->|[[Hq _]|(_ & Hx & ->)]]]; [apply (I4 _ _ (f_equal snd X))|eapply I2; [eapply I1; eauto|exact (f_equal snd X)]|congruence|].
      apply register_name in X. simpl in X. rewrite Hnm in X. symmetry in X. eapply own_child; eauto. }
  destruct d as [n ct|n ct b cs rs|n ct l|n ct items|n ct os]; cbn [withUserDefined defineRaw] in H.
  - eapply CL; eauto.
  - eapply CL; eauto.
  - assert (W : forall l0 i u, (forall j, i <= j -> j <> 0) -> sInitialized u = false -> forall v, charSeqLoop u n i l0 = (v, Some err) -> False).
    { clear -Hc I4 I2. induction l0 as [|c l0 IH]; intros i u Hi Hu v; cbn [charSeqLoop]; [discriminate|]. destruct (register u (newChar (childName n i) false [c] [])) as [w [e|]] eqn:Er.
      - intros X; inversion X; subst. destruct Hc as [->|[->|[[Hq _]|(_ & Hx & ->)]]]; [apply (I4 _ _ (f_equal snd Er))|eapply I2; [|exact (f_equal snd Er)]; auto|discriminate|].
        apply register_name in Er. simpl in Er. apply childName_inj in Er. apply (Hi i); auto.
      - apply IH; [intros; lia|]. revert Er. unfold register. rewrite Hu. destruct (checkCommitType _); [discriminate|]. destruct (applyRoot _ _) as [s2 [e2|]] eqn:Ea; [discriminate|]. destruct (setDefinition _ _ _) as [[h reg] e3]. intros X; inversion X; subst. cbn [sInitialized]. revert Ea. unfold applyRoot.
        destruct (nth_error _ _); [|intros Y; inversion Y; auto]. destruct (_ && _)%bool; [discriminate|]. destruct (_ || _)%bool; intros Y; inversion Y; auto. }
    assert (W2 : forall l i u, sInitialized u = false -> forall v, charSeqLoop u n i l = (v, None) -> sInitialized v = false).
    { clear. induction l as [|c l IH]; intros i u Hu v; cbn [charSeqLoop]; [intros X; inversion X; subst; auto|]. destruct (register u (newChar (childName n i) false [c] [])) as [w [e|]] eqn:Er; [discriminate|].
      apply IH. revert Er. unfold register. rewrite Hu. destruct (checkCommitType _); [discriminate|]. destruct (applyRoot _ _) as [s2 [e2|]] eqn:Ea; [discriminate|]. destruct (setDefinition _ _ _) as [[h reg] e3]. intros X; inversion X; subst. cbn [sInitialized]. revert Ea. unfold applyRoot.
      destruct (nth_error _ _); [|intros Y; inversion Y; auto]. destruct (_ && _)%bool; [discriminate|]. destruct (_ || _)%bool; intros Y; inversion Y; auto. }
    assert (W3 : forall u ct items, sInitialized u = false -> sequence u n ct items = (s', Some err) -> False).
    { intros u ct' items Hu X. unfold sequence in X. destruct Hc as [->|[->|[[Hq _]|(_ & Hx & ->)]]]; [apply (I4 _ _ (f_equal snd X))|eapply I2; [|exact (f_equal snd X)]; auto|discriminate|].
      apply register_name in X. simpl in X. symmetry in X. eapply own_child; eauto. }
    unfold charSequence in H. destruct l as [|c l]; cbn [charSeqLoop] in H.
    + unfold sequence in H. destruct Hc as [->|[->|[[Hq _]|(_ & Hx & ->)]]]; [exfalso; apply (I4 _ _ (f_equal snd H))|left; eapply I0; eauto|discriminate|].
      apply register_name in H. simpl in H. exfalso. symmetry in H. eapply own_child; eauto.
    + destruct (register s (newChar (childName n 0) false [c] [])) as [u [e|]] eqn:Er.
      * inversion H; subst. destruct Hc as [->|[->|[[Hq _]|(_ & Hx & Hq)]]]; [exfalso; apply (I4 _ _ (f_equal snd Er))|left; eapply I0; eauto|discriminate|].
        eapply R; eauto.
      * exfalso. pose proof (I1 _ _ Er) as Hi. destruct (charSeqLoop u n 1 l) as [v [e|]] eqn:El.
        -- inversion H; subst. eapply W; eauto. intros; lia.
        -- eapply W3; [|exact H]. eauto.
  - unfold sequence in H. destruct Hc as [->|[->|[[_ Hq]|(Hq & _)]]]; [exfalso; apply (I4 _ _ (f_equal snd H))|left; eapply I0; eauto| |discriminate].
    eapply R; eauto. destruct Hq as [Hq|[Hx Hk]]; auto. right. split; auto. simpl in *. change CKeyword with (2 ^ 4)%N in *. rewrite hasFlag_bit in *. change CUserDefined with (2 ^ 8)%N. rewrite N.lor_spec, Hk. reflexivity.
  - unfold choice in H. destruct Hc as [->|[->|[[_ Hq]|(Hq & _)]]]; [exfalso; apply (I4 _ _ (f_equal snd H))|left; eapply I0; eauto| |discriminate].
    eapply R; eauto. destruct Hq as [Hq|[Hx Hk]]; auto. right. split; auto. simpl in *. change CKeyword with (2 ^ 4)%N in *. rewrite hasFlag_bit in *. change CUserDefined with (2 ^ 8)%N. rewrite N.lor_spec, Hk. reflexivity.
Qed.

(** ** histories *)
Lemma step_same a0 k fuel o s s' : sameS a0 k s s' -> rel (fun x y => sameS a0 k (fst x) (fst y) /\ snd x = snd y) (step fuel o s) (step fuel o s').
Proof.
  intros H. destruct o as [d|text e| |input e]; cbn [step].
  - pose proof (defineCall_same a0 k s s' d H) as [R1 R2]. destruct (defineCall s d) as [u e], (defineCall s' d) as [u' e']. cbn [fst snd] in *. subst e'. constructor. auto.
  - eapply rel_bind; [apply readSyntax_same; eauto|]. intros x y [R1 R2]. constructor. cbn [fst snd]. rewrite R2. auto.
  - eapply rel_bind; [apply init_same; eauto|]. intros x y [R1 R2]. constructor. cbn [fst snd]. rewrite R2. auto.
  - eapply rel_bind; [apply parse_same; eauto|]. intros x y [R1 R2]. constructor. cbn [fst snd]. rewrite R2. auto.
Qed.
Lemma play_same a0 k fuel ops : forall s s', sameS a0 k s s' -> rel (fun x y => sameS a0 k (fst x) (fst y) /\ snd x = snd y) (play fuel ops s) (play fuel ops s').
Proof.
  induction ops as [|o ops IH]; intros s s' H; cbn [play]; [constructor; auto|]. eapply rel_bind; [apply step_same; eauto|]. intros x y [R1 R2].
  eapply rel_bind; [apply IH; eauto|]. intros u v [Q1 Q2]. constructor. cbn [fst snd]. rewrite R2, Q2. auto.
Qed.
Lemma nth_nil {A} i : nth_error (@nil A) i = None.
Proof. destruct i; auto. Qed.
Lemma empty_same : sameS 0 0 emptySyntax emptySyntax.
Proof.
  split; simpl; auto; try discriminate; try congruence.
  - split; simpl; auto.
    + intros x. rewrite nth_nil. destruct x; auto.
    + intros x d. rewrite nth_nil. discriminate.
  - split; constructor.
Qed.
Lemma reached_same fuel ops s out : play fuel ops emptySyntax = Ok (s, out) -> sameS 0 0 s s.
Proof. intros H. pose proof (play_same 0 0 fuel ops _ _ empty_same) as R. rewrite H in R. inversion R as [x y [R1 _]| |]; subst. exact R1. Qed.
Lemma garbage_same s g : sameS 0 0 s s -> dkids g = [] -> sameS (List.length (sHeap s)) 1 s (withGarbage s g).
Proof.
  intros H Hg. pose proof (ss_heap _ _ _ _ H) as Hh. set (n := List.length (sHeap s)) in *.
  assert (Hlt : forall x, x < n -> shift n 1 x = x) by (intros x Hx; unfold shift; destruct (Nat.ltb_spec x n); auto; lia).
  assert (HM : forall m, below n m -> shiftM n 1 m = m).
  { intros m. induction 1 as [|[q x] m Hx Hm IH]; simpl; auto. simpl in Hx. rewrite Hlt by auto. f_equal. exact IH. }
  assert (HL : forall l, Forall (fun x => x < n) l -> map (shift n 1) l = l).
  { intros l. induction 1 as [|x l Hx Hl IH]; simpl; auto. rewrite Hlt by auto. f_equal. exact IH. }
  assert (HD : forall d, Forall (fun y => y < n) (dkids d) -> shiftD n 1 d = d).
  { intros [nm i ct [c1 c2 c3|oi it rs ds gs ac v i'|os ds gs v i']]; unfold dkids, shiftD; simpl; intros X; try rewrite HL; auto. }
  assert (Hdefs : Forall (fun x => x < n) (gDefinitions (regOf s)) -> regOf (withGarbage s g) = shiftR n 1 (regOf s)).
  { intros X. unfold shiftR. rewrite HM by apply (proj1 (ss_below _ _ _ _ H)). rewrite HL by auto. change (regOf (withGarbage s g)) with (regOf s). destruct (regOf s); reflexivity. }
  split; unfold withGarbage; cbn [regOf sHeap sRegistry sInitialized sInitFailed sExplicitRoot sKeywords sRoot]; auto.
  - split; auto.
    + rewrite app_length. auto.
    + intros x. destruct (Nat.lt_ge_cases x n) as [Hx|Hx].
      * rewrite Hlt by auto. rewrite nth_error_app1 by auto. destruct (nth_error (sHeap s) x) as [d|] eqn:Ed; simpl; auto. rewrite HD; auto. eapply (sh_kids _ _ _ _ _ Hh); eauto.
      * unfold shift. destruct (Nat.ltb_spec x n); [lia|]. rewrite nth_error_app2 by (fold n; lia). rewrite (proj2 (nth_error_None (sHeap s) x)) by auto. destruct (x + 1 - List.length (sHeap s)) eqn:E; [fold n in E; lia|]. simpl. rewrite nth_nil. auto.
    + apply (sh_kids _ _ _ _ _ Hh).
  - apply Hdefs. apply (ss_below _ _ _ _ H).
  - apply (ss_below _ _ _ _ H).
  - rewrite HL; auto. apply (ss_kwsL _ _ _ _ H).
  - apply (ss_kwsL _ _ _ _ H).
  - destruct (sRoot s) as [r|] eqn:Er; simpl; auto. rewrite Hlt; auto. apply (ss_rootL _ _ _ _ H); auto.
  - apply (ss_rootL _ _ _ _ H).
  - intros X. split; [apply (ss_some _ _ _ _ H X)|discriminate].
Qed.
Theorem refused_alike fuel before s out d s1 err : play fuel before emptySyntax = Ok (s, out) -> defineCall s d = (s1, Some err) -> refusedCleanly s d err ->
  forall fuel' later, observed (play fuel' later s1) = observed (play fuel' later s).
Proof.
  intros H Hd Hc fuel' later. destruct (refused_shape _ _ _ _ Hd Hc) as [->|(g & Hg & ->)]; auto.
  pose proof (play_same _ _ fuel' later _ _ (garbage_same s g (reached_same _ _ _ _ H) Hg)) as R. unfold observed. inversion R as [x y [_ R2] E1 E2| |]; simpl; auto. rewrite R2; auto.
Qed.
