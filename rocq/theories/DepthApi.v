(** The depth of the calls of parser.parse for a syntax: at most linear in the input, and not less for some. *)
From Verif Require Import Base Utf8 IdSet Results Parser Build Syntax Define ListFacts ResultsFacts ReaderFacts ParseFacts
  FuelFacts TermFacts BuildFacts NoPanic Lang Sound RunFacts Restrict Grammar WsLang ApiSpec Live Rep Api WsApi ApiFacts RefSpec RefApi RefCheck ReadFacts ReadSpec SelfGrammar SelfLang ReadLang ReadMeans
  Cost CostFacts CostSpec CostApi CostExp CostRead DepthSpec DepthFacts.
Local Open Scope string_scope.
Local Open Scope nat_scope.

Theorem u_depth calls s s' : usable calls s -> Inits s s' None ->
  exists C, forall input e,
    (forall d, CallDepth s' input e d -> d <= C * S (List.length input)) /\
    (~ In runeError input -> exists d, CallDepth s' input e d).
Proof.
  intros Hu (f0 & HI). destruct (proj2 Hu _ _ HI) as (PL & root & name & R1 & Su).
  pose proof (ao_pwf _ _ _ _ _ (su_ok _ _ _ _ _ _ Su)) as [W1 W2 W3 W4]. pose proof (su_root _ _ _ _ _ _ Su) as Hroot.
  destruct (su_live _ _ _ _ _ _ Su) as (live & EPL & Hcl & Hr).
  exists (2 * List.length PL + 3). intros input e. split.
  - intros d (f & H). specialize (H f (Nat.le_refl _)). unfold parseDepth, parseMeasure in H. rewrite Hroot in H. binv H. destruct x as [c k]. injection H as <-.
    rewrite (parseN_restrict _ _ _ _ _ Hcl _ _ Hr), <- EPL in E. apply depth_le in E; auto. simpl snd. lia.
  - intros Hv. set (f := parseFuel PL input). assert (H1 : parse PL (sKeywords s') f root (newContext input e) <> NoFuel) by (eapply parse_terminates; eauto).
    pose proof (parse_noPanic PL (sKeywords s') input e W3 Hv f root W4) as H2. unfold np in H2.
    destruct (parse PL (sKeywords s') f root (newContext input e)) as [c|w|] eqn:E; [|exfalso; eapply H2; eauto|congruence].
    apply (parse_runN Nat.max) in E. destruct E as (k & E). exists k, f. intros f' Hf.
    apply (parseMeasure_mono Nat.max f f'); auto. unfold parseMeasure. rewrite Hroot.
    rewrite (parseN_restrict _ _ _ _ _ Hcl _ _ Hr), <- EPL, E. reflexivity.
Qed.
Theorem depth_bound calls s s' :
  Defined calls s -> wsReady calls -> Inits s s' None ->
  exists C, forall input e,
    (forall d, CallDepth s' input e d -> d <= C * S (List.length input)) /\
    (~ In runeError input -> exists d, CallDepth s' input e d).
Proof. intros Hd Hw. apply (u_depth calls). apply defined_usable; auto. Qed.
Theorem text_depth_bound text defs s s' :
  spells text defs -> ReadLang.Reads emptySyntax text REof s None -> textReady defs -> Inits s s' None ->
  exists C, forall input e,
    (forall d, CallDepth s' input e d -> d <= C * S (List.length input)) /\
    (~ In runeError input -> exists d, CallDepth s' input e d).
Proof. intros Hs HR Hw. apply (u_depth (flat_map textCalls defs)). eapply spells_usable; eauto. Qed.
Theorem self_depth_bound : exists C, forall input e,
    (forall d, CallDepth selfInit input e d -> d <= C * S (List.length input)) /\
    (~ In runeError input -> exists d, CallDepth selfInit input e d).
Proof. apply (u_depth published selfSyntax selfInit self_usable self_Inits). Qed.
Theorem CallDepth_unique s input e k k' : CallDepth s input e k -> CallDepth s input e k' -> k = k'.
Proof. intros (f & H) (f' & H'). specialize (H (f + f') ltac:(lia)). specialize (H' (f + f') ltac:(lia)). congruence. Qed.

(** the syntax of CostExp.v: n letters take a depth of n *)
Section RUN.
Variable N : nat.
Let input := letters N.
Notation cinv := (cinv input REof TG).
(** t, u: at least as deep as s at the next offset *)
Lemma T_tuDepth d n c c' k p id name last : (p = 6 \/ p = 7) ->
  nth_error TP p = Some (PSeq name id 256%N [1; 8; last] [(1, 1)%Z; (1, 1)%Z; (1, 1)%Z; (1, 1)%Z; (1, 1)%Z; (1, 1)%Z] [] false) ->
  (forall n c c' k, cinv c -> cOffset c + d = N -> cOffsetLimit c = None -> fresh c (cOffset c) -> parseN Nat.max TP [] n 8 c = Ok (c', k) -> d <= k) ->
  cinv c -> cOffset c + S d = N -> cOffsetLimit c = None -> fresh c (S (cOffset c)) -> pending (cResults c) (cOffset c) id = false ->
  parseN Nat.max TP [] n p c = Ok (c', k) -> d <= k.
Proof.
  intros Hp Ep IH H Ho Hl Hf Hpd Hk. destruct n as [|n]; [discriminate|]. cbn [parseN] in Hk. rewrite Ep in Hk. binv Hk. injection Hk as <- <-.
  unfold seqParseN in E. rewrite Hpd in E. cbn [negb andb] in E. cbv zeta in E. set (c1 := setResults c _) in E.
  assert (H1 : cinv c1) by (apply cinv_mark; auto).
  assert (Hf1 : fresh c1 (S (cOffset c))). { intros o' i Ho'. unfold c1. simpl. rewrite pcount_mark. rewrite (Hf o' i Ho'). destruct (Nat.eqb_spec (cOffset c) o'); [lia|]. simpl. rewrite ?Bool.andb_false_r. auto. }
  binv E. destruct n as [|n]; [discriminate|]. cbn [seqLoopN nth_error] in E0. binv E0. destruct x1 as [c2 m]. pose proof (parseN_run _ _ _ _ _ _ _ _ E1) as E1'.
  destruct (T_a N _ _ _ H1 Hl ltac:(unfold c1; simpl; lia) E1') as [Hm Hoff]. change (cOffset c1) with (cOffset c) in Hoff.
  pose proof (T_post N _ _ _ _ H1 E1') as (H2 & S2 & _ & _). pose proof (T_fresh N _ _ _ _ _ H1 E1' Hf1) as Hf2. rewrite Hm, Hoff in E0. cbn [negb orb] in E0.
  assert (Hlt : Nat.ltb (cOffset c) (S (cOffset c)) = true) by (apply Nat.ltb_lt; lia). rewrite Hlt in E0.
  change ((0 <? 1)%Z && (Z.of_nat 1 =? 1)%Z)%bool with true in E0. cbv iota in E0. binv E0. injection E0 as <-.
  destruct n as [|n]; [discriminate|]. cbn [seqLoopN nth_error] in E2. rename x1 into out. binv E2. destruct x0 as [c3 m3].
  assert (Hs : d <= m3). { eapply IH; [exact H2| |rewrite (st_limit _ _ S2); exact Hl|rewrite Hoff; exact Hf2|exact E0]. lia. }
  assert (Hx : m3 <= snd out).
  { destruct (negb (cMatchLast c3)).
    - change (1 <=? Z.of_nat 0)%Z with false in E2. cbv iota in E2. destruct (fromResults (setOffset c3 (cOffset c)) id); binv E2; injection E2 as <-; auto.
    - binv E2. injection E2 as <-. simpl. lia. }
  destruct out as [out m4]. cbn [fst snd] in *. destruct out as [to c4|c4].
  - binv E. destruct x0 as [[c5 b] m5]. binv E. injection E as <-. cbn [snd]. lia.
  - injection E as <-. cbn [snd]. lia.
Qed.

Lemma T_depth d : forall n c c' k, cinv c -> cOffset c + d = N -> cOffsetLimit c = None -> fresh c (cOffset c) ->
  parseN Nat.max TP [] n 8 c = Ok (c', k) -> d <= k.
Proof.
  induction d as [|d IH]; intros n c c' k H Ho Hl Hf Hk.
  { destruct n as [|n]; [discriminate|]. cbn [parseN] in Hk. binv Hk. injection Hk as <- <-. simpl. lia. }
  destruct n as [|n]; [discriminate|]. cbn [parseN] in Hk. change (nth_error TP 8) with (Some (PSeq "s" 9 384%N [6; 7] [(0, 1)%Z; (0, 1)%Z; (0, 1)%Z; (0, 1)%Z] [] false)) in Hk.
  cbv beta iota in Hk. binv Hk. injection Hk as <- <-.
  unfold seqParseN in E. assert (Hpd : forall i, pending (cResults c) (cOffset c) i = false).
  { intros i. destruct (pending (cResults c) (cOffset c) i) eqn:Ep; auto. apply pending_pcount in Ep. rewrite (Hf _ _ (Nat.le_refl _)) in Ep. lia. }
  rewrite Hpd in E. cbn [negb andb] in E. cbv zeta in E. set (c1 := setResults c _) in E.
  assert (H1 : cinv c1) by (apply cinv_mark; auto).
  assert (Hf1 : forall o i, cOffset c <= o -> (o <> cOffset c \/ i <> 9) -> pcount (cResults c1) o i = 0).
  { intros o i Ho' Hi. unfold c1. simpl. rewrite pcount_mark, (Hf o i Ho'). destruct (Nat.eqb_spec (cOffset c) o), (Nat.eqb_spec 9 i); simpl; try lia. }
  assert (Hfs : forall c2, (forall o i, pcount (cResults c2) o i = pcount (cResults c1) o i) -> fresh c2 (S (cOffset c)) /\ forall i, i <> 9 -> pending (cResults c2) (cOffset c) i = false).
  { intros c2 Hc. split; [intros o i Ho'; rewrite Hc; apply Hf1; lia|]. intros i Hi. destruct (pending (cResults c2) (cOffset c) i) eqn:Ep; auto. apply pending_pcount in Ep. rewrite Hc, Hf1 in Ep; auto; lia. }
  binv E. destruct n as [|n]; [discriminate|]. cbn [seqLoopN nth_error] in E0. rename x0 into out. binv E0. destruct x0 as [c2 m].
  destruct (Hfs c1 ltac:(auto)) as [F1 F2].
  assert (Ht : d <= m) by (eapply (T_tuDepth d) with (c := c1) (p := 6) (id := 7); [left; reflexivity|reflexivity|exact IH|exact H1|exact Ho|exact Hl|exact F1|apply F2; lia|exact E1]).
  pose proof (T_post N _ _ _ _ H1 (parseN_run _ _ _ _ _ _ _ _ E1)) as (H2 & S2 & P2 & R2).
  destruct (cMatchLast c2); [destruct R2 as [_ []]|]. change (cOffset c1) with (cOffset c) in R2. cbn [negb] in E0. change (0 <=? Z.of_nat 0)%Z with true in E0. cbv iota in E0. binv E0. injection E0 as <-.
  destruct n as [|n]; [discriminate|]. cbn [seqLoopN nth_error] in E2. rename x0 into out. binv E2. destruct x0 as [c3 m3].
  destruct (Hfs c2 P2) as [F3 F4].
  assert (Hu : d <= m3). { eapply (T_tuDepth d) with (c := c2) (p := 7) (id := 8); [right; reflexivity|reflexivity|exact IH|exact H2|lia|rewrite (st_limit _ _ S2); exact Hl|rewrite R2; exact F3|rewrite R2; apply F4; lia|exact E0]. }
  pose proof (T_post N _ _ _ _ H2 (parseN_run _ _ _ _ _ _ _ _ E0)) as (H3 & S3 & P3 & R3).
  destruct (cMatchLast c3); [destruct R3 as [_ []]|]. cbn [negb] in E2. change (0 <=? Z.of_nat 0)%Z with true in E2. cbv iota in E2. binv E2. injection E2 as <-.
  destruct x0 as [out m4]. cbn [fst snd] in *. cbn [Nat.pow]. destruct out as [to c4|c4].
  - binv E. destruct x0 as [[c5 b] m5]. binv E. injection E as <-. cbn [snd]. lia.
  - injection E as <-. cbn [snd]. lia.
Qed.

Theorem twice_deep k : CallDepth twiceSyntax input REof k -> N <= k.
Proof.
  intros (f & H). specialize (H f (Nat.le_refl _)). unfold parseDepth, parseMeasure in H. rewrite twice_root, twice_parsers, twice_kws in H. binv H. destruct x as [c' k']. injection H as <-.
  eapply T_depth in E; eauto.
  - apply cinv_new.
  - intros o i _. unfold pcount. simpl. destruct i; reflexivity.
Qed.
End RUN.
Theorem deep : exists calls s s',
  Defined calls s /\ refersToDefs calls /\ literalKeywords calls /\ Inits s s' None /\
  forall n, exists d, CallDepth s' (repeat 97%Z n) REof d /\ n <= d.
Proof.
  exists twice, (fst (defineAll emptySyntax twice)), twiceSyntax. split; [exact twice_defined|]. split; [exact twice_refers|]. split; [exact twice_literal|]. split; [exact twice_inits|].
  destruct (depth_bound twice _ twiceSyntax twice_defined (literal_ready _ twice_refers twice_literal) twice_inits) as (C & H). intros n.
  destruct (proj2 (H (letters n) REof) (letters_ok n)) as (d & Hd). exists d. split; auto. apply (twice_deep n). auto.
Qed.
