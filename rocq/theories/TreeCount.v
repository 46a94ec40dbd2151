(** When no minimum is above one, building copies nothing, and a tree has as many nodes as there are calls of
    the builders at most: polynomially many, also with left recursion. *)
From Verif Require Import Base Utf8 IdSet Results Parser Build ListFacts ResultsFacts ReaderFacts ParseFacts
  FuelFacts TermFacts BuildFacts RunFacts Syntax Lang Sound Restrict Grammar WsLang ApiSpec Rep Live Api WsApi ApiFacts RefSpec RefFuel RefTotal RefParse RefSim RefApi RefCheck
  Cost CostFacts CostBuild CostBuildFacts CostBuildSpec CostBuildApi SizeSpec TreeLinear.
From Verif Require AliasFacts.
Local Open Scope nat_scope.

Section BUILD.
Variable P : pheap.
(** the objects that matter, and their minimums *)
Variable V : addr -> Prop.
Hypothesis Vseq : forall p name id ct items ranges gs ac, V p -> nth_error P p = Some (PSeq name id ct items ranges gs ac) ->
  (forall x, In x items -> V x) /\ forall i x mn mx, nth_error items i = Some x -> nth_error ranges i = Some (mn, mx) -> (mn <= 1)%Z.
Hypothesis Vchoice : forall p name id ct options gs, V p -> nth_error P p = Some (PChoice name id ct options gs) -> forall x, In x options -> V x.

Lemma loop_count n items ranges k : (forall x, In x items -> V x) ->
  (forall i x mn mx, nth_error items i = Some x -> nth_error ranges i = Some (mn, mx) -> (mn <= 1)%Z) ->
  (forall a c x j, V a -> buildN Nat.add P n a c = Ok (x, j) -> sizes (fst (fst x)) <= j) ->
  forall ii cnt nodes c ns c' j, buildLoopN Nat.add (buildN Nat.add P n) k items ranges ii cnt nodes c = Ok (ns, c', j) -> sizes ns <= sizes nodes + j.
Proof.
  intros HV Hmn Hn. induction k as [|k IH]; intros ii cnt nodes c ns c' j Hk; [discriminate|].
  cbn [buildLoopN] in Hk. destruct (nth_error items ii) as [item|] eqn:Ei; [|injection Hk as <- <- <-; lia]. cbv zeta in Hk.
  binv Hk. destruct x as [[[n1 ok] c1] m1]. apply Hn in E; [|eauto using nth_error_In]. cbn [fst] in E. destruct ok.
  - destruct (nth_error ranges ii) as [[mn mx]|] eqn:Er; [|discriminate]. binv Hk. destruct x as [[ns2 c2] j2]. injection Hk as <- <- <-. cbn [fst snd]. specialize (Hmn _ _ _ _ Ei Er).
    destruct (_ <? _); [destruct (_ && _)%bool|]; apply IH in E0; rewrite sizes_app in E0; [lia|lia|]. rewrite sizes_rep in E0.
    assert (Z.to_nat (mn - Z.of_nat cnt) * sizes n1 <= 1 * sizes n1) by (apply Nat.mul_le_mono_r; lia). lia.
  - binv Hk. destruct x as [[ns2 c2] j2]. injection Hk as <- <- <-. cbn [fst snd]. apply IH in E0. lia.
Qed.
Theorem build_count : forall n b c x k, V b -> buildN Nat.add P n b c = Ok (x, k) -> sizes (fst (fst x)) <= k.
Proof.
  induction n as [|n IH]; intros b c x k Hb Hk; [discriminate|]. cbn [buildN] in Hk. binv Hk. destruct x0 as [x0 kk]. injection Hk as <- <-. cbn [fst snd].
  destruct (nth_error P b) as [[nm i cn ch rs|name id commit items ranges gs ac|name id commit options gs]|] eqn:Eb; [| | |discriminate].
  - injection E as <- <-. simpl. lia.
  - destruct (Vseq _ _ _ _ _ _ _ _ Hb Eb) as [V1 V2]. unfold seqBuildN in E. destruct (longestMatch _ _ _) as [to|]; [|injection E as <- <-; simpl; lia]. cbv zeta in E.
    destruct ac; [destruct (hasFlag _ _); injection E as <- <-; unfold sizes; simpl; lia|].
    binv E. destruct x as [c1|]; [|injection E as <- <-; simpl; lia]. binv E. destruct x as [[nodes c2] j]. binv E.
    apply (loop_count n items ranges n V1 V2) in E1; [|intros a c0 x0' j0 Ha; eapply IH; eauto].
    simpl sizes in E1. destruct (hasFlag _ _); injection E as <- <-; cbn [fst]; [lia|]. unfold sizes in *. simpl. lia.
  - unfold choiceBuildN in E. destruct (longestMatch _ _ _) as [to|]; [|injection E as <- <-; simpl; lia]. cbv zeta in E.
    binv E. destruct x as [c1|]; [|injection E as <- <-; simpl; lia]. binv E. destruct x as [o|]; [|discriminate].
    binv E. destruct x as [[[nodes ok] c2] j]. binv E. apply pickOption_In in E1. apply IH in E2; [|eapply Vchoice; eauto]. cbn [fst] in E2.
    destruct (hasFlag _ _); injection E as <- <-; cbn [fst]; [lia|]. unfold sizes in *. simpl. lia.
Qed.
End BUILD.

(** ** the minimums of the graph of the calls *)
Lemma bounds_min it : (siMin it <= 1)%Z -> fst (bounds it) <= 1.
Proof. intros H. unfold bounds. destruct (_ && _)%bool; simpl; lia. Qed.
Lemma rule_mins calls n ct items : minimumsAtMostOne calls -> grammarOf calls n = Some (RSeq ct items) -> forall it, In it items -> (siMin it <= 1)%Z.
Proof.
  intros Hm Hg it Hit. apply ruleIn_pair in Hg. apply in_flat_map in Hg. destruct Hg as (d & Hd & Hin).
  destruct d as [nm c|nm c cn ch rs|nm c chars|nm c its|nm c opts]; simpl in Hin.
  - destruct Hin as [H|[H|[]]]; inversion H; subst. destruct Hit as [<-|[]]. simpl. lia.
  - destruct Hin as [H|[H|[]]]; inversion H; subst. destruct Hit as [<-|[]]. simpl. lia.
  - apply in_app_or in Hin. destruct Hin as [Hin|[H|[]]]; [apply charRules_kind in Hin; destruct Hin as (? & ? & ? & Hin); discriminate|]. inversion H; subst.
    apply in_map_iff in Hit. destruct Hit as (i & <- & _). simpl. lia.
  - destruct Hin as [H|[]]; inversion H; subst. eapply Hm; eauto.
  - destruct Hin as [H|[]]; inversion H.
Qed.
Lemma spaced_mins m its : forall i, (forall it, In it its -> (siMin it <= 1)%Z) -> forall x, In x (spacedItems m i its) -> fst (snd x) <= 1.
Proof.
  induction its as [|it its IH]; intros i H x; simpl; [intros []|]. rewrite in_app_iff. intros [Hx|Hx]; [|apply (IH (S i)); auto; intros; apply H; right; auto].
  pose proof (bounds_min it (H it (or_introl eq_refl))) as Hb.
  assert (Hx' : In x ((if i =? 0 then [] else [spaces]) ++ [plainItem it; single (KDef (siName it)); (KRest m i, lessOne (bounds it)); (KOpt m i, (0, Some 1))])).
  { destruct (bounds it) as [mn mx]. destruct mx as [[|[|mx]]|]; destruct mn as [|mn]; rewrite ?in_app_iff in *; simpl in Hx |- *; tauto. }
  apply in_app_or in Hx'. destruct Hx' as [Hy|[<-|[<-|[<-|[<-|[]]]]]].
  - destruct (i =? 0); [destruct Hy|]. destruct Hy as [<-|[]]. simpl. lia.
  - exact Hb.
  - simpl. lia.
  - unfold lessOne. simpl. lia.
  - simpl. lia.
Qed.
Lemma graph_mins calls k l kw its : minimumsAtMostOne calls -> graphOf calls k = Some (GSeq l kw its) -> forall x, In x its -> fst (snd x) <= 1.
Proof.
  intros Hm.
  assert (Hbody : forall n, bodyOf calls n = Some (GSeq l kw its) -> forall x, In x its -> fst (snd x) <= 1).
  { intros n. unfold bodyOf. destruct (grammarOf calls n) as [[cn ch rs|ct items|ct os]|] eqn:Eg; try discriminate. intros E. injection E as _ _ <-. pose proof (rule_mins _ _ _ _ Hm Eg) as Hr. destruct (_ && _)%bool.
    - apply spaced_mins; auto.
    - intros x Hx. apply in_map_iff in Hx. destruct Hx as (it & <- & Hit). apply bounds_min. auto. }
  assert (Hitem : forall n i it, itemOf calls n i = Some it -> (siMin it <= 1)%Z).
  { intros n i it. unfold itemOf. destruct (grammarOf calls n) as [[cn ch rs|ct items|ct os]|] eqn:Eg; try discriminate. intros H. eapply rule_mins; eauto using nth_error_In. }
  destruct k as [n|n| |n i|n i]; simpl; intros E x Hx.
  - destruct (_ && _)%bool; [|eapply Hbody; eauto]. injection E as _ _ <-. destruct Hx as [<-|[<-|[<-|[]]]]; simpl; lia.
  - eapply Hbody; eauto.
  - discriminate.
  - destruct (itemOf calls n i) as [it|] eqn:Ei; [|discriminate]. injection E as _ _ <-. destruct Hx as [<-|[<-|[]]]; simpl; lia.
  - destruct (itemOf calls n i) as [it|] eqn:Ei; [|discriminate]. injection E as _ _ <-. pose proof (bounds_min it (Hitem _ _ _ Ei)) as Hb. apply in_app_or in Hx. destruct Hx as [Hx|[<-|[<-|[]]]].
    + destruct (i =? 0); [destruct Hx|]. destruct Hx as [<-|[]]. simpl. lia.
    + simpl. lia.
    + unfold lessOne. simpl. lia.
Qed.

Section SETUP.
Variables (calls : list defcall) (s' : syntax) (PL : pheap) (root : addr) (name : string) (R1 : string -> option rule).
Hypothesis Hws : wsReady calls.
Hypothesis Su : setup calls s' PL root name R1.
Hypothesis Hmin : minimumsAtMostOne calls.
Let A := su_ok _ _ _ _ _ _ Su.

Lemma setup_count n c x k : buildN Nat.add (parsers s') n root c = Ok (x, k) -> sizes (fst (fst x)) <= k.
Proof.
  destruct (setup_keys _ _ _ _ _ _ Su Hws) as (rel & RK). destruct (su_live _ _ _ _ _ _ Su) as (live & EPL & (C1 & C2 & _) & Hroot).
  apply (build_count (parsers s') (fun a => live a = true /\ exists n k, heapRel R1 PL a n /\ rel n k)).
  3:{ split; auto. exists name, (KDef name). split; [exact (root_heapRel calls s' PL root name R1 Su)|apply RK]. }
  - intros p nm id ct items ranges gs ac (Hl & nn & kk & Hr & Hnk) Hp.
    pose proof (heap_sim R1 PL (ao_rule _ _ _ _ _ A) p nn Hr) as H1. pose proof (rk_sim _ _ _ _ RK nn kk Hnk) as H2.
    assert (HpL : nth_error PL p = Some (PSeq nm id ct items ranges gs ac)) by (rewrite EPL, restrict_live; auto).
    unfold sameObj, heapGraph in H1. rewrite HpL in H1. unfold sameObj in H2. destruct (ruleGraph R1 nn) as [[cn' ch' rs'|l' kw' its'|l' os']|]; try contradiction.
    destruct (graphOf calls kk) as [[cn2 ch2 rs2|l2 kw2 its2|l2 os2]|] eqn:Eg; try contradiction. destruct H1 as (_ & _ & H1), H2 as (_ & _ & H2).
    assert (Hc : forall x b, In (x, b) (combine items (map toBounds ranges)) -> (exists n k, heapRel R1 PL x n /\ rel n k) /\ fst b <= 1).
    { pose proof (graph_mins calls kk _ _ _ Hmin Eg) as Hg. intros y b Hy. clear - H1 H2 Hg Hy. revert its2 H2 Hg. induction H1 as [|q r l0 l1 [Hq Eq] H1 IH]; intros its2 H2 Hg; [destruct Hy|].
      inversion H2 as [|? z ? ? [Hz Ez] H2']; subst. destruct Hy as [->|Hy].
      - simpl in Hq, Eq. split; [eauto|]. rewrite Eq, Ez. apply Hg. left; auto.
      - eapply IH; eauto. intros; apply Hg; right; auto. }
    destruct (ao_pwf _ _ _ _ _ A) as [_ _ (W3 & _) _]. specialize (W3 p). rewrite HpL in W3. destruct (W3 _ _ _ _ _ _ _ eq_refl) as [_ Hlen].
    assert (Hat : forall i y r, nth_error items i = Some y -> nth_error ranges i = Some r -> In (y, toBounds r) (combine items (map toBounds ranges))).
    { intros i y r Hy Hr'. assert (Hn : nth_error (map toBounds ranges) i = Some (toBounds r)) by (rewrite nth_error_map, Hr'; auto). pose proof (skipn_combine _ _ _ _ _ Hy Hn) as Hs.
      rewrite <- (firstn_skipn i (combine items (map toBounds ranges))). apply in_or_app. right. rewrite Hs. left. auto. }
    split.
    + intros y Hy. split; [eapply C1; eauto|]. apply In_nth_error in Hy. destruct Hy as (i & Hi). destruct (nth_error ranges i) as [r|] eqn:Er.
      * eapply Hc. eapply Hat; eauto.
      * apply nth_error_None in Er. assert (i < List.length items) by (apply nth_error_Some; congruence). lia.
    + intros i y mn mx Hi Hr'. destruct (Hc _ _ (Hat _ _ _ Hi Hr')) as [_ Hb]. unfold toBounds in Hb. simpl in Hb. lia.
  - intros p nm id ct options gs (Hl & nn & kk & Hr & Hnk) Hp y Hy. split; [eapply C2; eauto|].
    pose proof (heap_sim R1 PL (ao_rule _ _ _ _ _ A) p nn Hr) as H1. pose proof (rk_sim _ _ _ _ RK nn kk Hnk) as H2.
    assert (HpL : nth_error PL p = Some (PChoice nm id ct options gs)) by (rewrite EPL, restrict_live; auto).
    unfold sameObj, heapGraph in H1. rewrite HpL in H1. unfold sameObj in H2. destruct (ruleGraph R1 nn) as [[cn' ch' rs'|l' kw' its'|l' os']|]; try contradiction.
    destruct (graphOf calls kk) as [[cn2 ch2 rs2|l2 kw2 its2|l2 os2]|] eqn:Eg; try contradiction. destruct H1 as (_ & H1), H2 as (_ & H2).
    clear - H1 H2 Hy. revert os2 H2. induction H1 as [|q r l0 l1 Hq H1 IH]; intros os2 H2; [destruct Hy|]. inversion H2 as [|? z ? ? Hz H2']; subst. destruct Hy as [<-|Hy]; [eauto|]. eapply IH; eauto.
Qed.
End SETUP.

Theorem u_tree_count calls s s' : usable calls s -> wsReady calls -> minimumsAtMostOne calls -> Inits s s' None ->
  exists C, forall input e s2 t toks, Parses s' input e s2 (Tree t toks) -> nodeCount t <= C * S (List.length input) ^ 3.
Proof.
  intros Hu Hw Hm HI. pose proof HI as HI'. destruct (build_calls_bound _ _ HI) as (C & HC). exists C. intros input e s2 t toks HP. destruct (HC input e) as [HC1 HC2]. destruct (HC2 _ _ HP) as (d & Hd). specialize (HC1 _ Hd).
  destruct HI as (f0 & HI). destruct (proj2 Hu _ _ HI) as (PL & root & name & R1 & Su). apply AliasFacts.Init_ready in HI. destruct HI as [HF HI].
  destruct HP as (f & HP). assert (Hx : exists k, buildCalls f s' input e = Ok k /\ nodeCount t <= k).
  2:{ destruct Hx as (k & Hx & Hle). destruct Hd as (f1 & Hd). specialize (Hd (Nat.max f f1) ltac:(lia)). apply (buildMeasure_mono Nat.add f (Nat.max f f1)) in Hx; [|lia]. unfold buildCalls in Hd. assert (k = d) by congruence. lia. }
  rewrite (AliasFacts.Parse_ready _ _ _ _ HF HI) in HP. unfold buildCalls, buildMeasure. rewrite (su_root _ _ _ _ _ _ Su) in *.
  binv HP. injection HP as _ ->. unfold parseInput, parseInputPB in E. binv E. rewrite E0. cbn [bind]. destruct (cReadErr x); [discriminate|].
  binv E. rewrite E1. cbn [bind]. destruct x0 as [c1 [err|]]; [discriminate|]. cbv zeta in E. binv E. destruct x0 as [[ns ok] c2]. destruct ns as [|n1 ns]; [discriminate|].
  injection E as -> _. apply (build_runN Nat.add) in E2. destruct E2 as (k & E2). exists k. rewrite E2. split; [reflexivity|].
  apply (setup_count calls s' PL root name R1 Hw Su Hm) in E2. unfold sizes in E2. simpl in E2. lia.
Qed.
Theorem tree_count calls s s' : Defined calls s -> refersToDefs calls -> literalKeywords calls -> minimumsAtMostOne calls -> Inits s s' None ->
  exists C, forall input e s2 t toks, Parses s' input e s2 (Tree t toks) -> nodeCount t <= C * S (List.length input) ^ 3.
Proof. intros Hd Hr Hk. apply u_tree_count; [apply defined_usable; auto|]; apply literal_ready; auto. Qed.
