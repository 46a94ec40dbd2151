(** Parse with a root that starts with itself. *)
From Verif Require Import Base Utf8 IdSet Results Parser Build Syntax ListFacts ResultsFacts ParseFacts TermFacts NoPanic Lang Sound RunFacts Restrict Grammar WsLang ApiSpec InitWalk InitRun InitOk SyntaxFacts InitCore InitSpec InitFuel Rep Live LangGen Api WsObjs WsGen WsShape WsNames WsDistinct Utf8Facts WsApi ApiFacts RefSpec RefFuel RefParse RefBuild RefRun RefSim RefApi RefCheck RefTotal LeftSpec LeftFacts LeftTotal LeftParse LeftRun LeftSim.

Lemma Forall2_app_right {X Y} (Q : X -> Y -> Prop) l a b : Forall2 Q l (a ++ b) -> exists x y, l = x ++ y /\ Forall2 Q x a /\ Forall2 Q y b.
Proof.
  revert l. induction a as [|z a IH]; intros l H; simpl in H.
  - exists [], l. auto.
  - inversion H as [|q ? l' ? Hq Hl]; subst. destruct (IH _ Hl) as (x & y & -> & H1 & H2). exists (q :: x), y. auto.
Qed.
Lemma in_combine_fst {X Y} (l : list X) (l' : list Y) x : In x l -> List.length l <= List.length l' -> exists y, In (x, y) (combine l l').
Proof.
  revert l'. induction l as [|a l IH]; intros [|b l'] H Hlen; simpl in *; try contradiction; try lia.
  destruct H as [<-|H]; [exists b; auto|]. destruct (IH l' H ltac:(lia)) as (y & Hy). exists y. auto.
Qed.

Section LEFTAPI.
Variables (calls : list defcall) (s' : syntax) (PL : pheap) (root : addr) (name : string) (R1 : string -> option rule).
Hypothesis Hnd : NoDup (map fst (flat_map callRules calls)).
Hypothesis Hws : wsReady calls.
Hypothesis Hno : noWhitespaceDefs calls.
Hypothesis Hkw : literalKeywords calls.
Hypothesis Hrefs : refersToDefs calls.
Hypothesis Hnokw : nokwOnSequences calls.
Hypothesis Su : setup calls s' PL root name R1.
Variables extensions bases : list key.
Notation G := (graphOf calls).
Notation K := (keywordTexts calls).
Hypothesis Hleft : leftRecursive G (KDef name) (Some name) extensions bases.

Let A := su_ok _ _ _ _ _ _ Su.
Definition keyRel (a : addr) (k : key) : Prop := exists n, heapRel R1 PL a n /\ k = KDef n.

Lemma noWs_rules : R1 = grammarOf calls.
Proof. destruct (su_rules _ _ _ _ _ _ Su) as [[_ E]|[(d & Hd & Hf) _]]; auto. rewrite (Hno d Hd) in Hf. discriminate. Qed.
Lemma key_sim : sim (heapGraph PL) G keyRel.
Proof.
  intros a k (n & Hr & ->).
  pose proof (heap_sim R1 PL (ao_rule _ _ _ _ _ A) a n Hr) as H1. pose proof (keys_noWs calls name Hno) as KW.
  pose proof (rk_sim _ _ _ _ KW n (KDef n) eq_refl) as H2. rewrite <- noWs_rules in H2.
  unfold sameObj in *. destruct (heapGraph PL a) as [[cn ch rs|l kw its|l os]|], (ruleGraph R1 n) as [[cn' ch' rs'|l' kw' its'|l' os']|]; try contradiction; destruct (graphOf calls (KDef n)) as [[cn2 ch2 rs2|l2 kw2 its2|l2 os2]|]; try contradiction; auto.
  - destruct H1 as (-> & -> & ->). auto.
  - destruct H1 as (-> & -> & H1), H2 as (-> & -> & H2). split; auto. split; auto. clear - H1 H2. revert its2 H2. unfold sameItems in *.
    induction H1 as [|x y its its' [Hx Ex] H1 IH]; intros its2 H2; inversion H2 as [|? z ? ? [Hz Ez] H2']; subst; constructor; auto.
    split; [exists (fst y); auto|congruence].
  - destruct H1 as (-> & H1), H2 as (-> & H2). split; auto. clear - H1 H2. revert os2 H2.
    induction H1 as [|x y os os' Hx H1 IH]; intros os2 H2; inversion H2 as [|? z ? ? Hz H2']; subst; constructor; auto. exists y; auto.
Qed.
Lemma key_fun a k k' : keyRel a k -> keyRel a k' -> k = k'.
Proof. intros (n & [(o & Ho & Hn) _] & ->) (n' & [(o' & Ho' & Hn') _] & ->). congruence. Qed.
Lemma root_key : keyRel root (KDef name).
Proof. exists name. split; auto. exact (root_heapRel _ _ _ _ _ _ Su). Qed.

(** the objects of the choice *)
Lemma left_heap : exists nm ide cte opts gse recs bs,
  nth_error PL root = Some (PChoice nm ide cte opts gse) /\ heapLabel nm cte = Some name /\
  (opts = recs ++ bs \/ opts = bs ++ recs) /\ Forall2 keyRel recs extensions /\ Forall2 keyRel bs bases /\ recs <> [] /\
  (forall b, In b bs -> Dt PL root b) /\
  (forall x, In x recs -> exists n id ct items ranges gs,
     nth_error PL x = Some (PSeq n id ct (root :: items) ((1, 1)%Z :: ranges) gs false) /\ hasFlag ct CNoKeyword = false /\
     forall y, In y items -> Dt PL root y).
Proof.
  destruct Hleft as [Hsome (os & HG & Hos) Hbs Hxs].
  pose proof (key_sim root (KDef name) root_key) as Hs. rewrite HG in Hs. unfold sameObj, heapGraph in Hs.
  destruct (nth_error PL root) as [[nm i cn ch rs|nm i ct items ranges gs ac|nm i ct options gs]|] eqn:Ho; try contradiction.
  destruct Hs as [El Hopts].
  assert (Hsplit : exists recs bs, (options = recs ++ bs \/ options = bs ++ recs) /\ Forall2 keyRel recs extensions /\ Forall2 keyRel bs bases).
  { destruct Hos as [->| ->]; destruct (Forall2_app_right _ _ _ _ Hopts) as (x & y & -> & H1 & H2); [exists x, y|exists y, x]; auto. }
  destruct Hsplit as (recs & bs & Hrb & Hre & Hbb).
  exists nm, i, ct, options, gs, recs, bs. split; auto. split; auto. split; auto. split; auto. split; auto.
  split; [intros ->; inversion Hre; congruence|].
  assert (Hdt : forall a k, keyRel a k -> ~ reaches G (KDef name) k -> Dt PL root a).
  { intros a k Hr Hn Hre'. apply Hn. eapply (reaches_sim (heapGraph PL) G keyRel key_sim root (KDef name)); eauto; [exact root_key|].
    intros y Hy. eapply key_fun; [exact Hy|exact root_key]. }
  split.
  - intros b Hb. destruct (F2_left _ _ _ _ Hbb Hb) as (k & Hk & Hbk). eauto.
  - intros x Hx. destruct (F2_left _ _ _ _ Hre Hx) as (k & Hk & Hxk). destruct (Hxs k Hk) as (l & rest & HGk & Hrest).
    pose proof (key_sim x k Hxk) as Hs. rewrite HGk in Hs. unfold sameObj, heapGraph in Hs.
    destruct (nth_error PL x) as [[nm1 i1 cn1 ch1 rs1|nm1 i1 ct1 items1 ranges1 gs1 ac1|nm1 i1 ct1 options1 gs1]|] eqn:Hox; try contradiction.
    destruct Hs as (_ & Hnk & Hits).
    destruct items1 as [|x0 items1]; [simpl in Hits; inversion Hits|]. destruct ranges1 as [|[mn mx] ranges1]; [simpl in Hits; inversion Hits|].
    simpl in Hits. inversion Hits as [|? ? ? ? [H1 H2] Hits']; subst. simpl in H1, H2.
    assert (Ebd : (mn, mx) = (1, 1)%Z).
    { unfold toBounds in H2. simpl in H2. inversion H2 as [[E1 E2]]. destruct (Z.ltb_spec 0 mx); [|discriminate]. inversion E2. f_equal; lia. }
    assert (Ex0 : x0 = root).
    { destruct (ao_ident _ _ _ _ _ A) as (byName & byId & Hid). destruct H1 as (n & [(o & Hxo & Hn) _] & En). injection En as En.
      assert (U0 : usedIn PL x0) by (right; exists x, (PSeq nm1 i1 ct1 (x0 :: items1) ((mn, mx) :: ranges1) gs1 ac1); split; auto; split; [exact I|left; auto]).
      assert (U1 : usedIn PL root) by (left; eexists; split; [exact Ho|exact I]).
      destruct (Hid _ _ U0 Hxo) as [N0 _]. destruct (Hid _ _ U1 Ho) as [N1 _].
      destruct (ao_nonChar _ _ _ _ _ A) as (o' & Ho' & _ & En'). rewrite Ho in Ho'. injection Ho' as <-. rewrite En' in N1. congruence. }
    subst x0. injection Ebd as -> ->.
    assert (Eac : ac1 = false).
    { destruct (ao_rule _ _ _ _ _ A _ _ Hox I) as [Hr _]. unfold ruleOk in Hr. rewrite Hox in Hr. destruct Hr as (ct' & its & rest' & _ & _ & _ & _ & ->).
      simpl. unfold charAt at 1. rewrite Ho. auto. }
    subst ac1. exists nm1, i1, ct1, items1, ranges1, gs1. split; auto. split; auto.
    intros y Hy.
    assert (Hlen : List.length items1 <= List.length (map toBounds ranges1)).
    { rewrite map_length. destruct (ao_pwf _ _ _ _ _ A) as [_ _ W3 _]. pose proof (proj2 (proj1 W3 _ _ _ _ _ _ _ _ Hox)) as X. simpl in X. lia. }
    destruct (in_combine_fst _ _ _ Hy Hlen) as (bd & Hin). destruct (F2_left _ _ _ _ Hits' Hin) as ([z zb] & Hz & Hyz & _). simpl in Hyz. eauto.
Qed.

Theorem setup_left input : ~ In runeError input -> growing G K input (Some name) extensions bases 0 ->
  exists r, leftGives G K input (Some name) extensions bases 0 r /\
  (forall fuel t toks, parseInput PL (sKeywords s') root fuel input REof = Ok (Tree t toks) -> toks = input /\ r = Match (List.length input) [t]) /\
  (forall t, r = Match (List.length input) [t] -> exists fuel0, forall fuel, fuel0 <= fuel -> parseInput PL (sKeywords s') root fuel input REof = Ok (Tree t input)).
Proof.
  intros Hv Hg. destruct left_heap as (nm & ide & cte & opts & gse & recs & bs & Ho & El & Hopts & Hre & Hbb & Hsome & Hbs & Hrs).
  pose proof (growing_sim (heapGraph PL) G keyRel K input key_sim _ _ _ _ _ _ Hre Hbb Hg) as Hg'. rewrite <- El in Hg'.
  destruct (ao_pwf _ _ _ _ _ A) as [W1 W2 W3 W4].
  destruct (left_run PL (sKeywords s') K input (ao_ids _ _ _ _ _ A) (ao_gens _ _ _ _ _ A) (proj1 (kws_in _ _ _ _ _ _ Hkw Su)) (proj2 (kws_in _ _ _ _ _ _ Hkw Su))
    (setup_nokw _ _ _ _ _ _ Hws Hnokw Su) Hv W1 W2 W3 (setup_apart _ _ _ _ _ _ Hnd Hws Hrefs Su) root nm ide cte opts gse Ho recs bs Hopts Hsome Hbs Hrs Hg') as (r & L1 & L2 & L3).
  rewrite El in L1. exists r. split; [apply (leftGives_sim (heapGraph PL) G keyRel K input key_sim _ _ _ _ _ _ Hre Hbb); auto|].
  assert (Hone : forall ns, r = Match (List.length input) ns -> exists t, ns = [t]).
  { intros ns ->. destruct L1 as (t0 & ns0 & _ & Hrs').
    assert (Hn : exists m u, named (Some name) 0 t0 ns0 = [m] /\ u = 0) by (eexists _, 0; split; [reflexivity|auto]).
    destruct Hn as (m & _ & Hn & _). rewrite Hn in Hrs'. clear - Hrs'.
    assert (Hround : forall xs t ns t1 ns1, round (heapGraph PL) K input (Some name) 0 xs t ns t1 ns1 -> (exists u, ns = [u]) -> exists u, ns1 = [u]).
    { induction 1; auto. intros _. apply IHround. simpl. eauto. }
    assert (Hrounds : forall t ns t1 ns1, rounds (heapGraph PL) K input (Some name) recs 0 t ns t1 ns1 -> (exists u, ns = [u]) -> exists u, ns1 = [u]).
    { induction 1; eauto. }
    eapply Hrounds; eauto. }
  assert (Hsec : forall t, r = Match (List.length input) [t] -> exists fuel0, forall fuel, fuel0 <= fuel -> parseInput PL (sKeywords s') root fuel input REof = Ok (Tree t input)).
  { intros t Et. exact (L3 _ Et). }
  split; auto. intros fuel t toks HP. destruct (L2 _ _ _ HP) as (-> & ns & Er). split; auto. destruct (Hone _ Er) as (t1 & ->).
  destruct (Hsec _ Er) as (f & Hf). pose proof (Hf (f + fuel) ltac:(lia)) as H1.
  assert (Hle : fuel <= f + fuel) by lia. pose proof (FuelFacts.parseInput_mono PL (sKeywords s') root fuel (f + fuel) input REof Hle) as X. rewrite HP in X.
  specialize (X ltac:(discriminate)). rewrite H1 in X. inversion X; subst. auto.
Qed.
End LEFTAPI.

Theorem u_left calls s s' name input extensions bases :
  usable calls s -> refersToDefs calls -> literalKeywords calls -> nokwOnSequences calls -> noWhitespaceDefs calls ->
  rootName calls = Some name -> Inits s s' None -> ~ In runeError input ->
  leftRecursive (graphOf calls) (KDef name) (Some name) extensions bases ->
  growing (graphOf calls) (keywordTexts calls) input (Some name) extensions bases 0 ->
  exists r, leftGives (graphOf calls) (keywordTexts calls) input (Some name) extensions bases 0 r /\
    forall s2 t toks, Parses s input REof s2 (Tree t toks) <-> s2 = s' /\ toks = input /\ r = Match (List.length input) [t].
Proof.
  intros Hdef Hrefs Hkw Hnokw Hno Hroot Hinit Hv Hl Hg. pose proof (literal_ready _ Hrefs Hkw) as Hws.
  pose proof Hinit as (f' & HI'). destruct (proj2 Hdef _ _ HI') as (PL & root & name1 & R1 & Su).
  pose proof (su_name _ _ _ _ _ _ Su) as E. rewrite Hroot in E. inversion E; subst name1.
  destruct (setup_left calls s' PL root name R1 (proj1 Hdef) Hws Hno Hkw Hrefs Hnokw Su extensions bases Hl input Hv Hg) as (r & L1 & L2 & L3).
  exists r. split; auto. intros s2 t toks. split.
  - intros HP. pose proof HP as HP'. apply Parses_run in HP'. destruct HP' as (f & [err|] & HI & H); [discriminate|].
    assert (s2 = s').
    { destruct (Nat.le_ge_cases f f') as [L|L].
      + pose proof (Init_mono _ _ s L) as X. rewrite HI in X. specialize (X ltac:(discriminate)). congruence.
      + pose proof (Init_mono _ _ s L) as X. rewrite HI' in X. specialize (X ltac:(discriminate)). congruence. }
    subst s2. split; auto.
    destruct HP as (g & HP). unfold Parse in HP.
    assert (Hlg : g <= g + f') by lia. pose proof (Init_mono g (g + f') s Hlg) as X.
    binv HP. destruct x as [s3 [err|]]; [discriminate|]. rewrite E0 in X. specialize (X ltac:(discriminate)).
    assert (Hlf : f' <= g + f') by lia. pose proof (Init_mono f' (g + f') s Hlf) as Y. rewrite HI' in Y. specialize (Y ltac:(discriminate)).
    rewrite X in Y. inversion Y; subst s3. rewrite (su_root _ _ _ _ _ _ Su) in HP. rewrite (live_run _ _ _ _ (su_live _ _ _ _ _ _ Su)) in HP.
    binv HP. inversion HP; subst. destruct (L2 _ _ _ E1) as [-> Er]. auto.
  - intros (-> & -> & Er). destruct (L3 _ Er) as (f & Hf).
    exists (f + f'). unfold Parse. assert (L : f' <= f + f') by lia. pose proof (Init_mono _ _ s L) as X. rewrite HI' in X. rewrite X by discriminate. cbn [bind].
    rewrite (su_root _ _ _ _ _ _ Su). rewrite (live_run _ _ _ _ (su_live _ _ _ _ _ _ Su)). rewrite (Hf (f + f') ltac:(lia)). reflexivity.
Qed.

Theorem u_left_grounded calls s s' name input extensions bases :
  usable calls s -> refersToDefs calls -> literalKeywords calls -> nokwOnSequences calls -> noWhitespaceDefs calls ->
  rootName calls = Some name -> Inits s s' None -> ~ In runeError input ->
  leftRecursive (graphOf calls) (KDef name) (Some name) extensions bases ->
  groundedLeft (graphOf calls) (KDef name) extensions bases ->
  exists r, leftGives (graphOf calls) (keywordTexts calls) input (Some name) extensions bases 0 r /\
    (forall r', leftGives (graphOf calls) (keywordTexts calls) input (Some name) extensions bases 0 r' -> r' = r) /\
    forall s2 t toks, Parses s input REof s2 (Tree t toks) <-> s2 = s' /\ toks = input /\ r = Match (List.length input) [t].
Proof.
  intros H1 H2 H3 H4 H5 H6 H7 H8 H9 H10.
  pose proof (grounded_growing (graphOf calls) (keywordTexts calls) input (graph_closed calls (refers_all _ H2)) _ _ _ _ 0 H9 H10) as Hg.
  destruct (u_left calls s s' name input extensions bases H1 H2 H3 H4 H5 H6 H7 H8 H9 Hg) as (r & L1 & L2).
  exists r. split; auto. split; auto. intros r' Hr'. eapply leftGives_once; eauto.
Qed.
Theorem u_left_one calls s s' name input x bases :
  usable calls s -> refersToDefs calls -> literalKeywords calls -> nokwOnSequences calls -> noWhitespaceDefs calls ->
  rootName calls = Some name -> Inits s s' None -> ~ In runeError input ->
  leftRecursive (graphOf calls) (KDef name) (Some name) [x] bases ->
  groundedLeft (graphOf calls) (KDef name) [x] bases ->
  forall s2 t toks, Parses s input REof s2 (Tree t toks) <->
    s2 = s' /\ toks = input /\ grown (graphOf calls) (keywordTexts calls) input (Some name) [x] bases 0 (List.length input) [t].
Proof.
  intros H1 H2 H3 H4 H5 H6 H7 H8 H9 H10 s2 t toks.
  pose proof (grounded_growing (graphOf calls) (keywordTexts calls) input (graph_closed calls (refers_all _ H2)) _ _ _ _ 0 H9 H10) as Hg.
  destruct (u_left_grounded calls s s' name input [x] bases H1 H2 H3 H4 H5 H6 H7 H8 H9 H10) as (r & L1 & L2 & L3).
  rewrite L3, (one_grown _ _ _ _ _ _ _ [t] Hg). split; intros (E1 & E2 & E3); (split; [auto|split; [auto|]]); [subst r; auto|symmetry; auto].
Qed.
Theorem u_left_nested calls s s' name input extensions bases t toks :
  usable calls s -> refersToDefs calls -> literalKeywords calls -> nokwOnSequences calls -> noWhitespaceDefs calls ->
  rootName calls = Some name -> ~ In runeError input ->
  leftRecursive (graphOf calls) (KDef name) (Some name) extensions bases ->
  groundedLeft (graphOf calls) (KDef name) extensions bases ->
  Parses s input REof s' (Tree t toks) -> wellNested t.
Proof.
  intros H1 H2 H3 H4 H5 H6 H8 H9 H10 HP.
  destruct (u_left_grounded calls s s' name input extensions bases H1 H2 H3 H4 H5 H6 (Parses_Inits _ _ _ _ _ _ HP) H8 H9 H10) as (r & L1 & _ & L3).
  apply L3 in HP. destruct HP as (_ & _ & ->). eapply leftGives_nested; eauto.
Qed.
Definition left_grounded calls s s' name input extensions bases (Hd : Defined calls s) (Hr : refersToDefs calls) (Hk : literalKeywords calls) := u_left_grounded calls s s' name input extensions bases (defined_usable calls s Hd (literal_ready calls Hr Hk)) Hr Hk.
Definition left_one calls s s' name input x bases (Hd : Defined calls s) (Hr : refersToDefs calls) (Hk : literalKeywords calls) := u_left_one calls s s' name input x bases (defined_usable calls s Hd (literal_ready calls Hr Hk)) Hr Hk.
Definition left_nested calls s s' name input extensions bases t toks (Hd : Defined calls s) (Hr : refersToDefs calls) (Hk : literalKeywords calls) := u_left_nested calls s s' name input extensions bases t toks (defined_usable calls s Hd (literal_ready calls Hr Hk)) Hr Hk.
