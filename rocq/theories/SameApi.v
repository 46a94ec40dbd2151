(** Definition calls that agree on everything that is needed make syntaxes that parse alike. *)
From Verif Require Import TextSpec Base Utf8 Escape IdSet Results Parser Build Syntax Define ListFacts Lang Sound Grammar WsLang ApiSpec DefSpec InitWalk InitRun InitOk SyntaxFacts InitCore InitSpec InitFuel Rep ParseFacts Restrict Live LangGen Api Utf8Facts WsObjs WsGen WsShape WsNames WsDistinct WsApi ApiFacts DefineFacts RefFacts Alias AliasFacts WsRefs GenSim SameStore SameSim SameInit SameRun SameWs OrderSpec.

Definition withRoot (b : bool) (c : commitType) : commitType := if b then N.lor c CRoot else N.ldiff c CRoot.
Lemma withRoot_eq c d b : sameBut [7%N] c d -> hasFlag d CRoot = b -> d = withRoot b c.
Proof.
  intros Hs Hf. apply N.bits_inj. intros k. change CRoot with (2 ^ 7)%N in *. rewrite hasFlag_bit in Hf. unfold withRoot. change CRoot with (2 ^ 7)%N.
  destruct (N.eq_dec k 7) as [->|n].
  - rewrite Hf. destruct b; [rewrite N.lor_spec, N.pow2_bits_true, orb_true_r; auto|rewrite N.ldiff_spec, N.pow2_bits_true, andb_false_r; auto].
  - rewrite Hs by (intros [X|[]]; congruence). destruct b; [rewrite N.lor_spec, N.pow2_bits_false, orb_false_r by auto; auto|rewrite N.ldiff_spec, N.pow2_bits_false, andb_true_r by auto; auto].
Qed.
(** the object of a rule, after preinit *)
Definition ruleObj (c : commitType -> commitType) (n : string) (r : rule) : defobj :=
  match r with
  | RChar a b rs => mkDef n 0 CAlias (KChar a b rs)
  | RSeq ct items => mkDef n 0 (c ct) (KSeq [] (map normalizeItemRange items) (map (fun it => (siMin it, siMax it)) (map normalizeItemRange items)) [] [] false false false)
  | RChoice ct os => mkDef n 0 (c ct) (KChoice os [] [] false false)
  end.
Definition exactPair (o : defobj) (p : string * rule) : Prop := nf (preinit o) = ruleObj (fun c => c) (fst p) (snd p).
Lemma exact_rules d : Forall2 exactPair (callObjs d) (callRules d).
Proof.
  destruct d as [nm ct|nm ct cn ch rs|nm ct chars|nm ct items|nm ct opts]; simpl; unfold exactPair.
  - repeat constructor.
  - repeat constructor.
  - apply Forall2_app.
    + generalize 0. induction chars as [|c chars IH]; intros i; simpl; constructor; auto.
    + constructor; [|constructor]. unfold nf, preinit, initRanges, ruleObj, newSequence, namesToSequenceItems. simpl. rewrite !map_map. simpl. f_equal.
  - repeat constructor.
  - repeat constructor.
Qed.
Lemma exact_all calls : Forall2 exactPair (flat_map callObjs calls) (flat_map callRules calls).
Proof. induction calls as [|d l IH]; simpl; [constructor|]. apply Forall2_app; auto using exact_rules. Qed.
Lemma F2_in {X Y} (R : X -> Y -> Prop) l l' y : Forall2 R l l' -> In y l' -> exists i x, nth_error l i = Some x /\ R x y.
Proof. induction 1 as [|x z l l' Hx _ IH]; intros Hy; [destruct Hy|]. destruct Hy as [<-|Hy]; [exists 0, x; auto|]. destruct (IH Hy) as (i & w & H1 & H2). exists (S i), w. auto. Qed.
Lemma ruleObj_refs c n r : refsOf (ruleObj c n r) = ruleRefs r.
Proof. destruct r; simpl; auto. unfold refsOf. simpl. rewrite map_map. apply map_ext. intros; apply siName_norm. Qed.
Lemma nf_preinit_commit d o : dName d = dName o -> dKind d = dKind o -> nf (preinit d) = mkDef (dName (nf (preinit o))) 0 (dCommit d) (dKind (nf (preinit o))).
Proof. intros H1 H2. unfold nf, preinit, initRanges. rewrite H2. destruct (dKind o) eqn:E; simpl; rewrite ?H1, ?H2, ?E; auto. Qed.

Definition isRootName' (calls : list defcall) (n : string) : bool := match rootName calls with Some m => String.eqb m n | None => false end.
Section RAW.
Variables (calls : list defcall) (s : syntax).
Hypothesis Hdef : rawAll emptySyntax calls = (s, None).
Let l := map preinit (sHeap s).
Let objs := flat_map callObjs calls.
Lemma raw_rep : rep objs s.
Proof. exact (rep_rawAll calls [] _ _ rep_empty Hdef). Qed.
Lemma raw_nameslist : map dName l = map dName objs.
Proof.
  pose proof raw_rep as [R1 R2 R3 R4 R5 R6 R7 R8 R9 R10 R11]. unfold l. rewrite map_map. apply nth_error_ext'. intros i. rewrite !nth_error_map'.
  destruct (nth_error objs i) as [o|] eqn:E; [destruct (R4 i o E) as (d & Hd & N & _); rewrite Hd; simpl; rewrite (proj1 (preinit_same d)), N; auto|].
  destruct (nth_error (sHeap s) i) as [d|] eqn:Ed; auto. exfalso. apply nth_error_None in E. assert (i < List.length (sHeap s)) by (apply nth_error_Some; congruence). lia.
Qed.
Lemma raw_nodup : NoDup (map dName l).
Proof. rewrite raw_nameslist. eapply rep_nodup. apply raw_rep. Qed.
Lemma raw_some n r : grammarOf calls n = Some r -> exists a d o, nth_error objs a = Some o /\ nth_error (sHeap s) a = Some d /\ In (preinit d) l /\ dName (preinit d) = n /\ dName d = n /\
  nf (preinit d) = ruleObj (withRoot (isRootName' calls n)) n r /\ refsOf (preinit d) = ruleRefs r.
Proof.
  intros H. pose proof raw_rep as [R1 R2 R3 R4 R5 R6 R7 R8 R9 R10 R11]. apply ruleIn_pair in H. destruct (F2_in _ _ _ _ (exact_all calls) H) as (a & o & Ho & E). unfold exactPair in E. simpl in E. fold objs in Ho.
  destruct (R4 a o Ho) as (d & Hd & N1 & N2 & N3 & N4 & N5). exists a, d, o. split; auto. split; auto. split; [unfold l; apply in_map; eapply nth_error_In; eauto|].
  assert (En : dName o = n). { pose proof (f_equal dName E) as X. destruct r; simpl in X; rewrite (proj1 (preinit_same o)) in X; exact X. }
  split; [rewrite (proj1 (preinit_same d)); congruence|]. split; [congruence|].
  assert (G : nf (preinit d) = ruleObj (withRoot (isRootName' calls n)) n r).
  { rewrite (nf_preinit_commit d o N1 N2), E.
    assert (Hroot : isCharK (dKind o) = false -> hasFlag (dCommit d) CRoot = isRootName' calls n).
    { intros Hc. destruct (N5 Hc) as [_ N6]. unfold isRootName'. apply Bool.eq_iff_eq_true. rewrite N6. rewrite R9. split.
      - intros Er. destruct (root_name calls a Er) as (o1 & Ho1 & -> & _). fold objs in Ho1. rewrite Ho in Ho1. inversion Ho1; subst o1. rewrite En. apply String.eqb_refl.
      - destruct (rootName calls) as [m|] eqn:Em; [|discriminate]. intros X. apply String.eqb_eq in X. subst m.
        destruct (rootIdx objs) as [b|] eqn:Eb.
        + destruct (root_name calls b Eb) as (o1 & Ho1 & Em1 & _). fold objs in Ho1. rewrite Em in Em1. inversion Em1 as [En1]. rewrite <- En in En1. pose proof (rep_lookup _ _ raw_rep _ _ Ho) as L1. pose proof (rep_lookup _ _ raw_rep _ _ Ho1) as L2. congruence.
        + exfalso. unfold rootIdx in Eb. destruct (findIdx 0 objs); [discriminate|]. destruct objs; [destruct a; discriminate|discriminate]. }
    assert (Hcm : forall ct, isCharK (dKind o) = false -> dCommit (nf (preinit o)) = ct -> dCommit d = withRoot (isRootName' calls n) ct).
    { intros ct Hc Ect. destruct (N5 Hc) as [N7 _]. apply withRoot_eq; auto. unfold nf in Ect. simpl in Ect. rewrite preinit_commit in Ect. rewrite <- Ect. auto. }
    assert (Hk : isCharK (dKind o) = match r with RChar _ _ _ => true | _ => false end).
    { pose proof (f_equal dKind E) as X. unfold nf, preinit, initRanges in X. simpl in X. destruct (dKind o) eqn:K, r; simpl in X; try rewrite K in X; try discriminate; auto. }
    rewrite E in Hcm. destruct r as [x y z|ct items|ct os]; simpl in *.
    - f_equal. rewrite N4 by auto. apply R5; auto. eapply nth_error_In; eauto.
    - rewrite (Hcm ct); auto.
    - rewrite (Hcm ct); auto. }
  split; auto. rewrite <- (ruleObj_refs (withRoot (isRootName' calls n)) n r), <- G. unfold refsOf, nf. simpl. destruct (dKind (preinit d)); auto.
Qed.
Lemma raw_none n : grammarOf calls n = None -> ~ In n (map dName l).
Proof.
  intros H Hin. rewrite raw_nameslist in Hin. assert (E : map dName objs = map fst (flat_map callRules calls)).
  { unfold objs. generalize (exact_all calls). generalize (flat_map callObjs calls) (flat_map callRules calls). induction 1 as [|o p L L' Hp _ IH]; simpl; auto. rewrite IH. f_equal. unfold exactPair in Hp.
    pose proof (f_equal dName Hp) as X. destruct (snd p); simpl in X; rewrite (proj1 (preinit_same o)) in X; exact X. }
  rewrite E in Hin. apply in_map_iff in Hin. destruct Hin as ([k r] & E1 & Hin). simpl in E1. subst k. unfold grammarOf in H. revert H Hin. generalize (flat_map callRules calls).
  induction l0 as [|[k q] l0 IH]; simpl; auto. destruct (String.eqb_spec k n); [discriminate|]. intros Hr [X|X]; [inversion X; congruence|auto].
Qed.
(** the addresses of the keywords, by name *)
Lemma kw_names L : forall i pre, List.length pre = i -> map (nameAt (pre ++ L)) (kwIdx i L) = map dName (filter (fun o => hasFlag (dCommit o) CKeyword) L).
Proof.
  induction L as [|o L IH]; intros i pre Hp; simpl; auto. specialize (IH (S i) (pre ++ [o])). rewrite <- app_assoc in IH. simpl in IH. rewrite app_length in IH. simpl in IH. specialize (IH ltac:(lia)).
  destruct (hasFlag (dCommit o) CKeyword); simpl; auto. rewrite IH. f_equal. unfold nameAt. rewrite nth_error_app2, Hp, Nat.sub_diag by lia. auto.
Qed.
Lemma kw_calls : map (nameAt objs) (sKeywords s) = keywordNames calls.
Proof.
  pose proof raw_rep as [R1 R2 R3 R4 R5 R6 R7 R8 R9 R10 R11]. rewrite R10. pose proof (kw_names objs 0 [] eq_refl) as HK. simpl in HK. rewrite HK. clear HK. unfold objs, keywordNames. clear. induction calls as [|d L IH]; simpl; auto.
  rewrite filter_app, map_app, IH. destruct (callObjs_split d) as (chs & o & -> & Hc & En & _ & _ & _ & Ek). rewrite filter_app. rewrite (filter_none (fun o => hasFlag (dCommit o) CKeyword) chs) by (intros x Hx; apply Hc; auto).
  simpl. rewrite Ek. destruct (hasFlag (callFlags d) CKeyword); simpl; auto. rewrite En. auto.
Qed.

(** ** the preparation *)
Variables (root : addr) (rd : defobj) (reg : registry).
Hypothesis Er : sRoot s = Some root.
Hypothesis Ed : nth_error (sHeap s) root = Some rd.
Hypothesis Eg : sRegistry s = Some reg.
Hypothesis Ecc : checkCommitType rd = None.
Lemma root_rule : rootName calls = Some (dName rd).
Proof.
  pose proof raw_rep as [R1 R2 R3 R4 R5 R6 R7 R8 R9 R10 R11]. rewrite Er in R9. destruct (root_name calls root (eq_sym R9)) as (o & Ho & -> & _). destruct (R4 root o Ho) as (d & Hd & N & _). rewrite Ed in Hd. inversion Hd; subst d. congruence.
Qed.
Lemma prepared_plain : noWhitespaceDefs calls -> exists h reg1 root1, prepare s reg root = Ok (h, reg1, root1) /\ holds l h reg1 /\ unwalked h /\
  lookup (gDefinition reg1) (dName rd) = Some root1 /\ forall a, In a (sKeywords s) -> lookup (gDefinition reg1) (nameAt objs a) = Some a.
Proof.
  intros Hno. destruct (prepare_total calls s root rd reg Hdef Er Ed Eg Ecc) as ([[h reg1] root1] & E). exists h, reg1, root1. split; auto.
  pose proof raw_rep as Hr. pose proof Hr as [R1 R2 R3 R4 R5 R6 R7 R8 R9 R10 R11].
  assert (Ereg : regOf s = reg) by (unfold regOf; rewrite Eg; auto).
  assert (Hrlt : root < List.length (sHeap s)) by (apply nth_error_Some; congruence).
  destruct (prepare_spec _ _ _ _ _ _ (rawAll_dinv _ _ _ _ dinv_empty Hdef) Eg Hrlt E) as (Pun & Pmap & Proot & Pkw).
  unfold prepare in E. rewrite Ereg in *. rewrite R6, <- R3, preinitAll_map in E. fold l in E.
  assert (Hw : hasWhitespace l (seq 0 (List.length (sHeap s))) = false).
  { unfold hasWhitespace. apply existsb_false. intros a Ha. unfold commitAt, l. rewrite nth_error_map'. destruct (nth_error (sHeap s) a) as [d|] eqn:Hd; [|reflexivity]. simpl. rewrite preinit_commit.
    destruct (nth_error objs a) as [o|] eqn:Eo; [|apply nth_error_None in Eo; assert (a < List.length (sHeap s)) by (apply nth_error_Some; congruence); lia].
    destruct (R4 a o Eo) as (d1 & Hd1 & N1 & N2 & N3 & N4 & N5). rewrite Hd in Hd1. inversion Hd1; subst d1.
    assert (Hs : sameBut [7%N] (dCommit o) (dCommit d)) by (destruct (isCharK (dKind o)); [rewrite N4 by auto; apply sameBut_refl|apply N5; auto]).
    assert (X : hasFlag (dCommit d) CWhitespace = hasFlag (dCommit o) CWhitespace) by (apply (sameBut_flag [7%N] (dCommit o) (dCommit d) 2); auto; intros [Y|[]]; discriminate). rewrite X.
    apply nth_error_In in Eo. apply in_flat_map in Eo. destruct Eo as (c & Hc & Ho). destruct (callObjs_split c) as (chs & o1 & Ec & Hch & _ & _ & _ & Ew & _). rewrite Ec in Ho. apply in_app_or in Ho. destruct Ho as [Ho|[<-|[]]].
    + apply Hch in Ho. tauto.
    + rewrite Ew. apply Hno; auto. }
  rewrite Hw in E. injection E as <- <- <-.
  assert (Hreg0 : regInv l reg).
  { destruct R7 as [I1 I2 I3 I4]. constructor; auto.
    - intros i a Hi. destruct (I3 i a Hi) as (d & Hd & Ei & El). exists (preinit d). unfold l. rewrite nth_error_map', Hd. simpl.
      destruct (preinit_same d) as (-> & -> & _). auto.
    - intros n0 a Hl. destruct (I4 n0 a Hl) as (H1 & d & Hd & En0). split; auto. exists (preinit d). unfold l. rewrite nth_error_map', Hd. simpl.
      destruct (preinit_same d) as (-> & _). auto. }
  assert (Hlk : forall a d, nth_error (sHeap s) a = Some d -> lookup (gDefinition reg) (dName d) = Some a).
  { intros a d Hd. destruct (nth_error objs a) as [o|] eqn:Eo; [|apply nth_error_None in Eo; assert (a < List.length (sHeap s)) by (apply nth_error_Some; congruence); lia].
    destruct (R4 a o Eo) as (d1 & Hd1 & N1 & _). rewrite Hd in Hd1. inversion Hd1; subst d1. rewrite N1, <- Ereg. eapply rep_lookup; eauto. }
  split; [constructor; auto|].
  - intros o Ho. unfold l in Ho. apply in_map_iff in Ho. destruct Ho as (d & <- & Hd). apply In_nth_error in Hd. destruct Hd as [a Hd]. exists a, (preinit d). rewrite (proj1 (preinit_same d)). split; auto. split; auto.
    unfold l. rewrite nth_error_map', Hd. auto.
  - intros n a Ha. destruct (ri_map _ _ Hreg0 n a Ha) as (_ & d & Hd & <-). apply in_map. eapply nth_error_In; eauto.
  - split; auto. split; auto. intros a Ha. rewrite R10 in Ha. apply kwIdx_In in Ha. destruct Ha as (j & o & -> & Ho & _). simpl. unfold nameAt. rewrite Ho. rewrite <- Ereg. eapply rep_lookup; eauto.
Qed.
Lemma prepared_ws : hasWhitespaceDef calls -> properNames calls -> properRefs calls -> keywordsPlain calls -> exists h reg1 root1, prepare s reg root = Ok (h, reg1, root1) /\
  holds (rewritten l (main (preinit rd))) h reg1 /\ unwalked h /\
  lookup (gDefinition reg1) (dName rd) = Some root1 /\ forall a, In a (sKeywords s) -> lookup (gDefinition reg1) (nameAt objs a) = Some a.
Proof.
  intros Hws [Hnm Htl] Hpr Hplain. destruct (prepare_total calls s root rd reg Hdef Er Ed Eg Ecc) as ([[h0 reg1] root1] & E). exists h0, reg1, root1. split; auto.
  pose proof raw_rep as Hr. pose proof Hr as [R1 R2 R3 R4 R5 R6 R7 R8 R9 R10 R11].
  assert (Ereg : regOf s = reg) by (unfold regOf; rewrite Eg; auto). rewrite Ereg in *.
  assert (Hrlt : root < List.length (sHeap s)) by (apply nth_error_Some; congruence).
  destruct (prepare_spec _ _ _ _ _ _ (rawAll_dinv _ _ _ _ dinv_empty Hdef) Eg Hrlt E) as (Pun & Pmap & Proot & Pkw).
  destruct (ws_first calls s root rd Hdef Hws Er Ed Ecc) as (Hrt & Hhw & Hndl & Hat & HobjN & Ews & En1 & Hrtn & Hsame). fold l in Hrt, Hhw, Hndl, HobjN, Ews, En1, Hsame. fold objs in Hat, HobjN, En1.
  set (rt := main (preinit rd)) in *. set (R0 := ruleIn (map objPair l)) in *.
  assert (Hlen : List.length (sHeap s) = List.length l) by (unfold l; rewrite map_length; auto).
  unfold prepare in E. rewrite R6, <- R3, preinitAll_map in E. fold l in E. rewrite Hhw in E. binv E. destruct x as [[h1 D1] root2]. destruct (newRegistry h1 D1) as [h2 reg2] eqn:En. injection E as -> -> ->.
  rewrite Hlen in E0. destruct (applyWhitespace_spec _ _ _ _ _ E0 Hrt) as (A1 & A2 & A3 & A4 & A5).
  assert (HR0 : forall n, R0 n = None <-> grammarOf calls n = None) by (intros n; specialize (Hsame n); fold R0 in Hsame; destruct (R0 n), (grammarOf calls n); simpl in Hsame; split; intros; auto; try discriminate; destruct Hsame).
  assert (HR0s : forall n r, R0 n = Some r -> exists r', grammarOf calls n = Some r' /\ ruleRefs r = ruleRefs r').
  { intros n r H. pose proof (Hsame n) as S. fold R0 in S. rewrite H in S. destruct (grammarOf calls n) as [r'|] eqn:Eg'; [|destruct S]. exists r'. split; auto. apply sameRule_refs. exact S. }
  assert (Hproper : forall n r x, R0 n = Some r -> In x (ruleRefs r) -> R0 x <> None \/ colonFree x).
  { intros n r x H Hx. destruct (HR0s n r H) as (r' & G1 & G2). rewrite G2 in Hx. destruct (Hpr n r' x G1 Hx) as [G|]; auto. left. intros X. apply G, HR0. exact X. }
  assert (Hcomps : forall o, In o l -> exists c, comps (dName o) c).
  { intros o Ho. destruct (HobjN o Ho) as (o' & d0 & Ho' & _ & -> & _ & _). apply in_flat_map in Ho'. destruct Ho' as (d & Hd & Ho'). destruct (Hnm d Hd) as (c & Hcc).
    destruct (callObjs_names d o' Ho') as [->|(_ & i & ->)]; [eauto|]. eexists. apply comps_child; eauto. }
  assert (Hrefc : forall o x, In o l -> In x (refsOf o) -> exists c, comps x c).
  { intros o x Ho Hx. pose proof (ruleIn_In l o Hndl Ho) as G. fold R0 in G. destruct (Hproper _ _ x G) as [P|P].
    - rewrite objRule_refs. rewrite refsOf_refs in Hx. exact Hx.
    - destruct (R0 x) as [r|] eqn:Ex; [|congruence]. apply ruleIn_inv in Ex. destruct Ex as (o' & Ho' & <- & _). auto.
    - exists [x], x, []. repeat split; auto. }
  assert (Htell : tellable (spacedSeq l)).
  { eapply tellable_sub; [|exact Htl]. intros n (o & Ho & Hk & <-). destruct (HobjN o Ho) as (o' & d0 & Ho' & -> & -> & Hkk & _). apply in_flat_map in Ho'. destruct Ho' as (d & Hd & Ho').
    exists d. split; auto. destruct (callObjs_names d o' Ho') as [->|(Hcc & _)]; auto. exfalso. unfold keeps in Hk. unfold preinit, initRanges in Hk. rewrite <- Hkk in Hcc.
    destruct (dKind d0) eqn:Ek0; simpl in *; try rewrite Ek0 in Hk; discriminate. }
  pose proof (rewritten_nodup l rt Hndl Hrt Hrefc Hcomps Htell) as Hnd.
  unfold newRegistry in En. destruct (newRegistryLoop_all _ _ _ emptyRegistry _ _ A1 A2 Hnd (fun o _ => eq_refl) En) as (G1 & G2 & G3). simpl in G1.
  destruct (newRegistryLoop_inv D1 h1 emptyRegistry h0 reg1 (regInv_empty _) (fun a Ha => objsAt_lt _ _ _ A1 a Ha) En) as (G4 & _ & _).
  assert (Hlk : forall a o, In a D1 -> nth_error h1 a = Some o -> lookup (gDefinition reg1) (dName o) = Some a).
  { intros a o Ha Ho. rewrite <- G1 in Ha. apply In_nth_error in Ha. destruct Ha as [i Hi]. destruct (ri_defs _ _ G4 i a Hi) as (d & Hd & _ & Hl). destruct (G2 a o Ho) as (k & Hk). rewrite Hd in Hk. inversion Hk; subst d. exact Hl. }
  split; [constructor; auto|].
  - intros o Ho. destruct (objsAt_In _ _ _ _ A1 Ho) as (a & Ha & Hd). destruct (G2 a o Hd) as (k & Hk). exists a, (setID k o). split; auto.
  - intros n a Ha. destruct (ri_map _ _ G4 n a Ha) as (Hin & d & Hd & <-). rewrite G1 in Hin. destruct (objsAt_addr _ _ _ _ A1 Hin) as (o & Ho & Hoa). destruct (G2 a o Hoa) as (k & Hk). rewrite Hd in Hk. inversion Hk; subst d. apply (in_map dName) in Ho. exact Ho.
  - split; auto. split.
    + assert (X : dName rt = dName rd) by (unfold rt; rewrite (proj1 (main_commit _)); apply preinit_same). rewrite <- X. apply (Hlk root1 _ A3 A4).
    + intros a Ha. rewrite R10 in Ha. apply kwIdx_In in Ha. destruct Ha as (j & o & -> & Ho & Hf). simpl. unfold nameAt. rewrite Ho.
      destruct (R4 j o Ho) as (d & Hd & N1 & N2 & N3 & N4 & N5).
      assert (Hkc : exists c, In c calls /\ hasFlag (callFlags c) CKeyword = true /\ dName o = callName c /\ isCharK (dKind o) = false /\ dKind o = dKind (last (callObjs c) o) /\ dCommit o = dCommit (last (callObjs c) o)).
      { pose proof (nth_error_In _ _ Ho) as Hi. apply in_flat_map in Hi. destruct Hi as (c & Hc & Hi). destruct (callObjs_split c) as (chs & o1 & Ec & Hch & Eno & _ & Ek & _ & Ekw). rewrite Ec in Hi. apply in_app_or in Hi.
        destruct Hi as [Hi|[<-|[]]]; [apply Hch in Hi; intuition congruence|]. exists c. split; auto. split; [congruence|]. split; auto. split; auto. rewrite Ec, last_last. auto. }
      destruct Hkc as (c & Hc & Hfc & Hcn & Hck & Hk1 & Hk2). specialize (Hplain c Hc Hfc).
      assert (Hla : nth_error l j = Some (preinit d)) by (unfold l; rewrite nth_error_map', Hd; auto).
      destruct (N5 Hck) as [Hsb Hroot].
      assert (Hfl : forall k, k <> 7%N -> hasFlag (dCommit d) (2 ^ k)%N = hasFlag (dCommit o) (2 ^ k)%N) by (intros k Hk; apply (sameBut_flag [7%N]); auto; intros [X|[]]; congruence).
      assert (Hkp : keeps (preinit d) = true).
      { unfold keeps. rewrite preinit_commit. unfold preinit, initRanges. rewrite N2, Hk1. change CNoWhitespace with (2 ^ 3)%N. rewrite (Hfl 3%N) by discriminate. rewrite Hk2.
        destruct c; simpl in Hplain |- *; rewrite ?last_last; auto; simpl in *.
        - change (2 ^ 3)%N with CNoWhitespace. apply (hasFlag_bit (N.lor ct CNoWhitespace) 3) || (rewrite (hasFlag_bit _ 3), N.lor_spec; change CNoWhitespace with (2 ^ 3)%N; rewrite N.pow2_bits_true, orb_true_r; auto).
        - rewrite N2, Hk1. simpl. auto. }
      assert (Hck1 : checkCommitType o = None) by (apply R5; eapply nth_error_In; eauto).
      assert (Hwd : isWs (preinit d) = false).
      { unfold isWs. rewrite preinit_commit. change CWhitespace with (2 ^ 2)%N. rewrite (Hfl 2%N) by discriminate. change (2 ^ 2)%N with CWhitespace. destruct (hasFlag (dCommit o) CWhitespace) eqn:Ew; auto.
        rewrite (ws_incompat o CKeyword Hck1) in Hf; [discriminate|simpl; tauto|auto]. }
      destruct (A5 j _ Hla Hkp Hwd) as [Hin Hsm].
      assert (Hrf : rootFlag (preinit d) = false).
      { unfold rootFlag. rewrite preinit_commit. destruct (hasFlag (dCommit d) CRoot) eqn:Erf; auto. exfalso. assert (Xr : Some root = Some j) by (rewrite <- Er; apply Hroot; auto). inversion Xr; subst j.
        rewrite Ed in Hd. inversion Hd; subst d. assert (Hfd : hasFlag (dCommit rd) CKeyword = true) by (change CKeyword with (2 ^ 4)%N; rewrite Hfl by discriminate; exact Hf).
        clear - Ecc Erf Hfd. unfold checkCommitType, checkCommitTypeIn, incompatibleCommitTypes in Ecc. simpl in Ecc. rewrite Hfd, Erf in Ecc.
        destruct (hasFlag (dCommit rd) CAlias); [discriminate|]. destruct (hasFlag (dCommit rd) CWhitespace); [discriminate|].
        destruct (hasFlag (dCommit rd) CNoKeyword); discriminate. }
      specialize (Hsm Hrf). pose proof (Hlk j _ Hin Hsm) as L. rewrite (proj1 (preinit_same d)), N1 in L. exact L.
Qed.
End RAW.

Lemma F2_names (K : string -> Prop) (m m' : registry) (f f' : addr -> string) : forall kws kws', map f kws = map f' kws' ->
  (forall a, In a kws -> lookup (gDefinition m) (f a) = Some a /\ K (f a)) -> (forall a, In a kws' -> lookup (gDefinition m') (f' a) = Some a) -> Forall2 (NA K m m') kws kws'.
Proof.
  induction kws as [|a kws IH]; intros [|a' kws'] E H H'; simpl in E; try discriminate; constructor.
  - injection E as E1 E2. exists (f a). destruct (H a (or_introl eq_refl)). split; auto. split; auto. rewrite E1. apply H'. left; auto.
  - injection E as E1 E2. apply IH; auto; intros; [apply H|apply H']; right; auto.
Qed.
Lemma rawAll_nil s : rawAll emptySyntax [] = (s, None) -> s = emptySyntax.
Proof. simpl. congruence. Qed.
Lemma rootName_nil calls : rootName calls = None -> calls = [].
Proof.
  unfold rootName. destruct (find isRoot calls); [discriminate|]. destruct calls as [|d l]; auto. intros H. exfalso. revert d H. induction l as [|x l IH]; intros d H; [discriminate|]. apply (IH x). exact H.
Qed.
Lemma find_in calls n : rootName calls = Some n -> exists d, In d calls /\ callName d = n.
Proof.
  unfold rootName. destruct (find isRoot calls) as [d|] eqn:E; [intros H; inversion H; subst; apply find_some in E; exists d; tauto|].
  clear. induction calls as [|x [|y l] IH]; [discriminate|intros H; inversion H; exists x; split; [left|]; auto|]. intros H. destruct IH as (d & Hd & X); [exact H|]. exists d. split; [right|]; auto.
Qed.
Lemma grammar_callName calls d : In d calls -> grammarOf calls (callName d) <> None.
Proof.
  intros Hd. assert (H : exists r, In (callName d, r) (flat_map callRules calls)).
  { assert (X : exists r, In (callName d, r) (callRules d)) by (destruct d; simpl; eexists; try (rewrite in_app_iff; right); simpl; eauto). destruct X as [r Hr]. exists r. apply in_flat_map. eauto. }
  destruct H as [r Hr]. unfold grammarOf. revert Hr. generalize (flat_map callRules calls). induction l as [|[k q] l IH]; simpl; [intros []|]. destruct (String.eqb_spec k (callName d)); [discriminate|].
  intros [X|X]; [inversion X; congruence|auto].
Qed.
Lemma needed_from calls n : needed calls n -> grammarOf calls n <> None \/ exists m r, grammarOf calls m = Some r /\ In n (ruleRefs r).
Proof.
  destruct 1 as [n Hn|d Hd _|d Hd _|n r x Hn Hr Hx]; [|left; apply grammar_callName; auto|left; apply grammar_callName; auto|right; eauto].
  left. destruct (find_in calls n Hn) as (d & Hd & <-). apply grammar_callName; auto.
Qed.
Lemma hasWs_names calls : hasWhitespaceDef calls <-> whitespaceNames calls <> [].
Proof.
  unfold hasWhitespaceDef, whitespaceNames. split.
  - intros (d & Hd & Hf) E. apply map_eq_nil in E. assert (X : In d []) by (rewrite <- E; apply filter_In; auto). destruct X.
  - intros H. destruct (filter _ calls) as [|d l] eqn:E; [elim H; auto|]. exists d. assert (X : In d (d :: l)) by (left; auto). rewrite <- E in X. apply filter_In in X. auto.
Qed.
Lemma noWs_names calls : noWhitespaceDefs calls <-> whitespaceNames calls = [].
Proof.
  unfold noWhitespaceDefs, whitespaceNames. split.
  - intros H. induction calls as [|d l IH]; simpl; auto. rewrite (H d (or_introl eq_refl)). apply IH. intros; apply H; right; auto.
  - intros H d Hd. destruct (hasFlag (callFlags d) CWhitespace) eqn:E; auto. apply map_eq_nil in H. assert (X : In d []) by (rewrite <- H; apply filter_In; auto). destruct X.
Qed.
Lemma kwName_needed calls n : In n (keywordNames calls) -> needed calls n.
Proof. unfold keywordNames. intros H. apply in_map_iff in H. destruct H as (d & <- & Hd). apply filter_In in Hd. destruct Hd. apply need_keyword; auto. Qed.
Lemma wsName_needed calls n : In n (whitespaceNames calls) -> needed calls n.
Proof. unfold whitespaceNames. intros H. apply in_map_iff in H. destruct H as (d & <- & Hd). apply filter_In in Hd. destruct Hd. apply need_whitespace; auto. Qed.
Lemma rel_refl {X Y} (f : X -> Y) (m : res X) : rel (fun x y => f x = f y) m m.
Proof. destruct m; constructor; auto. Qed.
Lemma check_nf d d' : nf (preinit d) = nf (preinit d') -> checkCommitType d = checkCommitType d'.
Proof.
  intros H. pose proof (nf_name _ _ H) as H1. pose proof (nf_commit _ _ H) as H2. rewrite !preinit_commit in H2. rewrite (proj1 (preinit_same d)), (proj1 (preinit_same d')) in H1.
  unfold checkCommitType. induction incompatibleCommitTypes as [|[ct ict] tb IH]; simpl; auto. rewrite H1, H2, IH. auto.
Qed.

Theorem raw_same calls calls' s s' : rawAll emptySyntax calls = (s, None) -> rawAll emptySyntax calls' = (s', None) -> sameNeeded calls calls' ->
  (hasWhitespaceDef calls -> (properNames calls /\ properRefs calls /\ keywordsPlain calls) /\ (properNames calls' /\ properRefs calls' /\ keywordsPlain calls')) ->
  forall n, rel (fun x y => snd x = snd y) (Init n s) (Init n s') /\ forall input e, rel (fun x y => snd x = snd y) (Parse n s input e) (Parse n s' input e).
Proof.
  intros Hd Hd' (Hro & Hws & Hkw & Hg) Hready n.
  destruct (rootName calls) as [rn|] eqn:Ern.
  2:{ pose proof (rootName_nil _ Ern). pose proof (rootName_nil _ Hro). subst calls calls'. apply rawAll_nil in Hd, Hd'. subst s s'. split; [apply rel_refl|intros; apply rel_refl]. }
  pose proof (raw_rep calls s Hd) as [R1 R2 R3 R4 R5 R6 R7 R8 R9 R10 R11]. pose proof (raw_rep calls' s' Hd') as [R1' R2' R3' R4' R5' R6' R7' R8' R9' R10' R11'].
  assert (Hne : calls <> []) by (intros ->; discriminate). assert (Hne' : calls' <> []) by (intros ->; discriminate).
  assert (Hob : flat_map callObjs calls <> []) by (intros X; apply Hne, callObjs_nil, X). assert (Hob' : flat_map callObjs calls' <> []) by (intros X; apply Hne', callObjs_nil, X).
  destruct (rootIdx (flat_map callObjs calls)) as [root|] eqn:Eri; [|apply rootIdx_none in Eri; contradiction]. destruct (rootIdx (flat_map callObjs calls')) as [root'|] eqn:Eri'; [|apply rootIdx_none in Eri'; contradiction].
  destruct (root_name calls root Eri) as (ro & Hroo & Hrn & Hrc). destruct (root_name calls' root' Eri') as (ro' & Hroo' & Hrn' & Hrc').
  destruct (R4 root ro Hroo) as (rd & Hrd & N1 & N2 & _ & _ & N5). destruct (R4' root' ro' Hroo') as (rd' & Hrd' & N1' & N2' & _ & _ & N5').
  specialize (R11 Hob). specialize (R11' Hob'). destruct (sRegistry s) as [reg|] eqn:Ereg; [|congruence]. destruct (sRegistry s') as [reg'|] eqn:Ereg'; [|congruence].
  assert (En : dName rd = rn) by congruence. assert (En' : dName rd' = rn) by congruence.
  assert (Unr : needed calls rn) by (apply need_root; auto).
  destruct (find_in calls rn Ern) as (dr & Hdr & Edr).
  (* the objects of needed names *)
  assert (Hboth : forall m r, needed calls m -> grammarOf calls m = Some r -> exists d d', In (preinit d) (map preinit (sHeap s)) /\ In (preinit d') (map preinit (sHeap s')) /\ dName d = m /\ dName d' = m /\
     nf (preinit d) = nf (preinit d') /\ refsOf (preinit d) = ruleRefs r).
  { intros m r Hm Hr. destruct (raw_some calls s Hd m r Hr) as (a & d & o & _ & _ & H1 & _ & H2 & H3 & H4). assert (Hr' : grammarOf calls' m = Some r) by (rewrite Hg; auto).
    destruct (raw_some calls' s' Hd' m r Hr') as (a' & d' & o' & _ & _ & H1' & _ & H2' & H3' & H4'). exists d, d'. repeat (split; auto). rewrite H3, H3'. unfold isRootName'. rewrite Hro, Ern. auto. }
  pose proof (raw_nodup calls s Hd) as Hnd. pose proof (raw_nodup calls' s' Hd') as Hnd'.
  assert (Huniq : forall L o o', NoDup (map dName L) -> In o L -> In o' L -> dName o = dName o' -> o = o').
  { intros L o o' Hn0 Ho Ho' E. apply In_nth_error in Ho, Ho'. destruct Ho as [i Hi], Ho' as [j Hj]. assert (i = j); [|congruence].
    eapply NoDup_nth_error; [exact Hn0|rewrite map_length; apply nth_error_Some; congruence|]. rewrite !nth_error_map', Hi, Hj. simpl. congruence. }
  assert (Hrdl : In (preinit rd) (map preinit (sHeap s))) by (apply in_map; eapply nth_error_In; eauto). assert (Hrdl' : In (preinit rd') (map preinit (sHeap s'))) by (apply in_map; eapply nth_error_In; eauto).
  assert (Hrr : exists r, grammarOf calls rn = Some r /\ nf (preinit rd) = nf (preinit rd') /\ refsOf (preinit rd) = ruleRefs r).
  { destruct (grammarOf calls rn) as [r|] eqn:Er; [|exfalso; revert Er; rewrite <- Edr; apply grammar_callName; auto]. exists r. split; auto. destruct (Hboth rn r Unr Er) as (d & d' & H1 & H2 & H3 & H4 & H5 & H6).
    assert (preinit d = preinit rd) by (apply (Huniq _ _ _ Hnd H1 Hrdl); rewrite (proj1 (preinit_same d)), (proj1 (preinit_same rd)); congruence). assert (preinit d' = preinit rd') by (apply (Huniq _ _ _ Hnd' H2 Hrdl'); rewrite (proj1 (preinit_same d')), (proj1 (preinit_same rd')); congruence). split; congruence. }
  destruct Hrr as (rr & Hrr & Hnfr & Hrefr). pose proof (check_nf _ _ Hnfr) as Hck.
  destruct (checkCommitType rd) as [err|] eqn:Ecc.
  { unfold Parse. rewrite !Init_split, R1, R2, R9, Hrd, Ereg, R1', R2', R9', Hrd', Ereg', Ecc, <- Hck. split; [constructor; auto|intros; simpl; constructor; auto]. }
  assert (Ecc' : checkCommitType rd' = None) by auto.
  assert (Hkws : forall (K : string -> Prop) reg1 reg1', (forall m, needed calls m -> K m) ->
     (forall a, In a (sKeywords s) -> lookup (gDefinition reg1) (nameAt (flat_map callObjs calls) a) = Some a) -> (forall a, In a (sKeywords s') -> lookup (gDefinition reg1') (nameAt (flat_map callObjs calls') a) = Some a) ->
     Forall2 (NA K reg1 reg1') (sKeywords s) (sKeywords s')).
  { intros K reg1 reg1' HUK H1 H2. apply (F2_names K reg1 reg1' (nameAt (flat_map callObjs calls)) (nameAt (flat_map callObjs calls'))).
    - rewrite (kw_calls calls s Hd), (kw_calls calls' s' Hd'). auto.
    - intros a Ha. split; auto. apply HUK, kwName_needed. rewrite <- (kw_calls calls s Hd). apply in_map; auto.
    - auto. }
  assert (HU : forall m, needed calls m -> (~ In m (map dName (map preinit (sHeap s))) /\ ~ In m (map dName (map preinit (sHeap s'))) /\ (hasWhitespaceDef calls -> colonFree m)) \/
    (exists o o', In o (map preinit (sHeap s)) /\ In o' (map preinit (sHeap s')) /\ dName o = m /\ nf o = nf o' /\ forall x, In x (refsOf o) -> needed calls x)).
  { intros m Hm. destruct (grammarOf calls m) as [r|] eqn:Er.
    - right. destruct (Hboth m r Hm Er) as (d & d' & H1 & H2 & H3 & H4 & H5 & H6). exists (preinit d), (preinit d'). split; auto. split; auto. split; [rewrite (proj1 (preinit_same d)); auto|]. split; auto.
      intros x Hx. rewrite H6 in Hx. eapply need_ref; eauto.
    - left. split; [eapply raw_none; eauto|]. split; [eapply raw_none; eauto; rewrite Hg; auto|]. intros W. destruct (needed_from calls m Hm) as [X|(m0 & r0 & H1 & H2)]; [congruence|].
      destruct (Hready W) as ((_ & Hp & _) & _). destruct (Hp m0 r0 m H1 H2); [congruence|auto]. }
  destruct (hasWs_dec calls) as [W|W].
  - assert (W' : hasWhitespaceDef calls') by (apply hasWs_names; rewrite Hws; apply hasWs_names; auto). destruct (Hready W) as ((P1 & P2 & P3) & (P1' & P2' & P3')).
    destruct (prepared_ws calls s Hd root rd reg R9 Hrd Ereg Ecc W P1 P2 P3) as (h & reg1 & root1 & Q1 & Q2 & Q3 & Q4 & Q5).
    destruct (prepared_ws calls' s' Hd' root' rd' reg' R9' Hrd' Ereg' Ecc' W' P1' P2' P3') as (h' & reg1' & root1' & Q1' & Q2' & Q3' & Q4' & Q5').
    destruct (ws_first calls s root rd Hd W R9 Hrd Ecc) as (F1 & _ & _ & _ & _ & F2 & _). destruct (ws_first calls' s' root' rd' Hd' W' R9' Hrd' Ecc') as (F1' & _ & _ & _ & _ & F2' & _).
    assert (Hrf : rootFlag (preinit rd) = true) by (unfold rootFlag; rewrite preinit_commit; destruct (N5 Hrc) as [_ X]; apply X; auto).
    assert (Hrl : forall c0 s0 i0 d0, rawAll emptySyntax c0 = (s0, None) -> sRoot s0 = Some i0 -> nth_error (sHeap s0) i0 = Some d0 -> forall o, In o (map preinit (sHeap s0)) -> rootFlag o = true -> o = preinit d0).
    { intros c0 s0 i0 d0 D E1 E2 o Ho Hf. pose proof (raw_rep c0 s0 D) as [T1 T2 T3 T4 T5 T6 T7 T8 T9 T10 T11]. apply in_map_iff in Ho. destruct Ho as (d & <- & Hin). apply In_nth_error in Hin. destruct Hin as [a Ha].
      destruct (nth_error (flat_map callObjs c0) a) as [o1|] eqn:Eo; [|apply nth_error_None in Eo; assert (a < List.length (sHeap s0)) by (apply nth_error_Some; congruence); lia].
      destruct (T4 a o1 Eo) as (d1 & Hd1 & M1 & M2 & M3 & M4 & M5). rewrite Ha in Hd1. inversion Hd1; subst d1. unfold rootFlag in Hf. rewrite preinit_commit in Hf.
      destruct (isCharK (dKind o1)) eqn:Eck.
      - exfalso. rewrite M4 in Hf by auto. pose proof (nth_error_In _ _ Eo) as Hi. rewrite (proj2 (proj2 (T5 o1 Hi)) Eck) in Hf. discriminate.
      - destruct (M5 eq_refl) as [_ M6]. apply M6 in Hf. congruence. }
    pose (K := knownWs (map preinit (sHeap s)) (map preinit (sHeap s')) (preinit rd) (needed calls)).
    assert (Hk : known K (rewritten (map preinit (sHeap s)) (main (preinit rd))) (rewritten (map preinit (sHeap s')) (main (preinit rd')))).
    { apply known_rewritten.
      - intros m Hm. destruct (HU m Hm) as [(X & Y & Z)|X]; [left; auto|right; auto].
      - rewrite F2, F2'. auto.
      - intros m Hm. rewrite F2 in Hm. apply wsName_needed; auto.
      - split; auto. split; auto. split; auto. split.
        + unfold isWs. rewrite preinit_commit. destruct (hasFlag (dCommit rd) CWhitespace) eqn:E; auto. rewrite (ws_incompat rd CRoot Ecc) in *; [|simpl; tauto|auto].
          unfold rootFlag in Hrf. rewrite preinit_commit in Hrf. rewrite (ws_incompat rd CRoot Ecc) in Hrf; [discriminate|simpl; tauto|auto].
        + split; [intros x Hx; rewrite Hrefr in Hx; eapply need_ref; eauto|]. rewrite (proj1 (preinit_same rd)), En. auto.
      - apply (Hrl calls s root rd); auto. }
    assert (HKK : forall m, needed calls m -> K m) by (intros; unfold K, knownWs; auto).
    pose proof (Hkws K reg1 reg1' HKK Q5 Q5') as Fk. assert (Na : NA K reg1 reg1' root1 root1') by (exists rn; split; auto; rewrite En in Q4; rewrite En' in Q4'; auto).
    refine (Parse_same K _ _ s s' reg reg' root root' rd rd' h h' reg1 reg1' root1 root1' R2 R1 R9 Hrd Ereg R2' R1' R9' Hrd' Ereg' Ecc Ecc' Q1 Q1' Q2 Q2' Q3 Q3' Hk _ Fk Na n).
    apply Forall2_app; auto.
  - assert (W' : noWhitespaceDefs calls') by (apply noWs_names; rewrite Hws; apply noWs_names; auto).
    destruct (prepared_plain calls s Hd root rd reg R9 Hrd Ereg Ecc W) as (h & reg1 & root1 & Q1 & Q2 & Q3 & Q4 & Q5).
    destruct (prepared_plain calls' s' Hd' root' rd' reg' R9' Hrd' Ereg' Ecc' W') as (h' & reg1' & root1' & Q1' & Q2' & Q3' & Q4' & Q5').
    assert (Hk : known (needed calls) (map preinit (sHeap s)) (map preinit (sHeap s'))).
    { intros m Hm. destruct (HU m Hm) as [(X & Y & _)|(o & o' & H1 & H2 & H3 & H4 & H5)]; [left; auto|right]. exists o, o'. repeat (split; auto). apply Forall_forall. auto. }
    pose proof (Hkws (needed calls) reg1 reg1' (fun m H => H) Q5 Q5') as Fk. assert (Na : NA (needed calls) reg1 reg1' root1 root1') by (exists rn; split; auto; rewrite En in Q4; rewrite En' in Q4'; auto).
    refine (Parse_same (needed calls) _ _ s s' reg reg' root root' rd rd' h h' reg1 reg1' root1 root1' R2 R1 R9 Hrd Ereg R2' R1' R9' Hrd' Ereg' Ecc Ecc' Q1 Q1' Q2 Q2' Q3 Q3' Hk _ Fk Na n).
    apply Forall2_app; auto.
Qed.
