(** Building the tree computes the nodes of the reference outcome with extensions. *)
From Verif Require Import Base Utf8 IdSet Results Parser Build ListFacts ResultsFacts ReaderFacts ParseFacts
  FuelFacts TermFacts BuildFacts StoreFacts OnceFacts Lang Sound RunFacts NoPanic RefSpec RefFuel RefTotal RefParse RefBuild LeftSpec LeftFrame GrowSpec GrowFuel GrowParse.

Section GROWB.
Variable P : pheap.
Variable K : list (list rune).
Variable input : list rune.
Hypothesis Hids : uniqueIds P.
Hypothesis Hgens : gensOk P.
Hypothesis Hac : allCharsOk P.
Hypothesis Hitems : forall a name id commit items ranges gs, nth_error P a = Some (PSeq name id commit items ranges gs false) ->
  forall x : addr, In x items -> exists ox, nth_error P x = Some ox /\ nonChar ox.
Hypothesis Hoptions : forall a name id commit options gs, nth_error P a = Some (PChoice name id commit options gs) ->
  forall x : addr, In x options -> exists ox, nth_error P x = Some ox /\ nonChar ox.
Hypothesis Hranges : forall a name id commit items ranges gs ac, nth_error P a = Some (PSeq name id commit items ranges gs ac) ->
  List.length items <= List.length ranges.

Notation G := (heapGraph P).
Notation ev := (evalL Nat.eqb G K input).
Notation Ev := (GivesL Nat.eqb G K input).
Notation isExt := (isExtension Nat.eqb G).
Notation extn := (extending Nat.eqb G).
Notation exts := (extensionsOf Nat.eqb G).
Notation basesOf := (basesOf Nat.eqb G).
Notation tres := (tres P K input).
Notation asks := (asks P K input).
Notation idOf := (idOf P).
Notation Ev_at := (GrowParse.Ev_at P K input).
Notation ev_lower := (GrowParse.ev_lower P K input).

Variable R0 : results.
Hypothesis HR0 : tres R0.
Hypothesis Hp0 : forall o i, pcount R0 o i = 0.

Lemma opt_unf x a name id commit options gs n o : nth_error P x = Some (PChoice name id commit options gs) -> In a options -> isExt x a = false ->
  ev n a o = Unfinished -> ev n x o = Unfinished.
Proof.
  intros Hx Hin Hnx H. destruct n as [|n]; auto. apply ev_lower in H.
  assert (Hopt : forall os, In a os -> evalOptions (ev n) os o NoMatch = Unfinished).
  { intros os Ha. destruct (evalOptions (ev n) os o NoMatch) eqn:E; auto; exfalso;
      (destruct (evalOptions_spec (ev n) o os NoMatch) as [H1 _]; [discriminate|congruence|]; apply (H1 a Ha); auto). }
  rewrite (GrowParse.eval_choice P K input n _ _ _ _ _ _ _ Hx). destruct (exts x options).
  - rewrite Hopt; auto.
  - destruct (inBlocks Nat.eqb G x options); auto. rewrite Hopt; auto. apply bases_in; auto.
Qed.
Lemma gen_unf x a : generalizes P x a -> forall n o, ev n a o = Unfinished ->
  (forall e name id commit options gs, nth_error P e = Some (PChoice name id commit options gs) -> In a options -> isExt e a = true -> ev n e o = Unfinished) ->
  ev n x o = Unfinished.
Proof.
  induction 1 as [x a name id commit options gs Hx Hin|x op a name id commit options gs Hx Hin Hg IH]; intros n o H H2.
  - destruct (isExt x a) eqn:E; [eapply H2; eauto|eapply opt_unf; eauto].
  - destruct (generalizes_choice _ _ _ Hg) as (? & ? & ? & ? & ? & Eo).
    apply (opt_unf x op name id commit options gs n o Hx Hin); [eapply choice_notExt; eauto|]. apply IH; auto.
Qed.
(** what loses its matches when the build of [b] is entered *)
Definition lost (n : nat) (o : nat) (i : nat) : Prop := forall x ox, nth_error P x = Some ox -> nonChar ox -> nodeID ox = i ->
  ev n x o = Unfinished /\
  forall e name id commit options gs, nth_error P e = Some (PChoice name id commit options gs) -> In x options -> isExt e x = true -> ev n e o = Unfinished.
Lemma lost_enter n o b ob : nth_error P b = Some ob -> nonChar ob -> ev n b o = Unfinished ->
  (forall e name id commit options gs, nth_error P e = Some (PChoice name id commit options gs) -> In b options -> isExt e b = true -> ev n e o = Unfinished) ->
  forall i, In i (nodeID ob :: gensOf ob) -> lost n o i.
Proof.
  intros Hb Hn Hu Hx i [Hi|Hi] x ox Hox Hnx Hid.
  - assert (x = b) by (eapply Hids; eauto; congruence). subst x. split; auto.
  - subst i. pose proof (Hgens b ob x ox Hb Hox Hnx Hi) as Hg. split.
    + eapply gen_unf; eauto.
    + intros e name id commit options gs He Hin Hex. destruct (generalizes_choice _ _ _ Hg) as (? & ? & ? & ? & ? & Eo).
      rewrite (choice_notExt _ _ _ _ _ _ _ _ Eo) in Hex. discriminate.
Qed.

Record ready (n : nat) (c : context) : Prop := mkReady {
  rd_above : forall o i t, cOffset c < o -> stored (cResults c) o i t <-> stored R0 o i t;
  rd_at : forall b ob t, nth_error P b = Some ob -> nonChar ob -> ev n b (cOffset c) <> Unfinished ->
          stored (cResults c) (cOffset c) (nodeID ob) t <-> stored R0 (cOffset c) (nodeID ob) t;
  rd_ext : forall e name id commit options gs x ox t, nth_error P e = Some (PChoice name id commit options gs) -> ev n e (cOffset c) <> Unfinished ->
          In x options -> isExt e x = true -> nth_error P x = Some ox ->
          stored (cResults c) (cOffset c) (nodeID ox) t <-> stored R0 (cOffset c) (nodeID ox) t;
  rd_quiet : forall b ob, nth_error P b = Some ob -> nonChar ob -> 0 < pcount (cResults c) (cOffset c) (nodeID ob) -> ev n b (cOffset c) = Unfinished;
  rd_clear : forall o i, cOffset c < o -> pcount (cResults c) o i = 0;
  rd_len : List.length (rMatch (cResults c)) = List.length (rMatch R0);
  rd_once : once (cResults c) }.

Record built (t : nat) (c c' : context) : Prop := mkBuilt {
  bt_off : cOffset c' = t;
  bt_rows : forall o i t', t <= o -> stored (cResults c') o i t' <-> stored (cResults c) o i t';
  bt_pend : forall o i, pcount (cResults c') o i = pcount (cResults c) o i;
  bt_len : List.length (rMatch (cResults c')) = List.length (rMatch (cResults c));
  bt_tokens : cTokens c' = cTokens c;
  bt_once : once (cResults c) -> once (cResults c') }.

Lemma ready_lower n c : ready (S n) c -> ready n c.
Proof.
  intros [A B B' C C' D F]. split; auto.
  - intros b ob t Hb Hn He. apply (B b); auto. intros H. apply He. apply ev_lower; auto.
  - intros e name id commit options gs x ox t H1 H2. apply (B' e name id commit options gs); auto. intros H. apply H2. apply ev_lower; auto.
  - intros b ob Hb Hn Hp. apply ev_lower. eauto.
Qed.
Lemma ready_on n t c c' : ready n c -> cOffset c < t -> built t c c' -> forall N, ready N c'.
Proof.
  intros [A B B' C C' D F] Ht [F1 F2 F3 F4 F5 F6] N. split; auto; try rewrite F1.
  - intros o i t' Ho. rewrite F2 by lia. apply A. lia.
  - intros. rewrite F2 by lia. apply A. lia.
  - intros. rewrite F2 by lia. apply A. lia.
  - intros b ob Hb Hn Hp. rewrite F3, C' in Hp by lia. lia.
  - intros o i Ho. rewrite F3. apply C'. lia.
  - congruence.
Qed.
Lemma built_ready n t c c' : ready n c -> cOffset c <= t -> built t c c' -> ready n c'.
Proof.
  intros Hr Ht Hb. destruct (Nat.eq_dec (cOffset c) t) as [E|]; [|eapply (ready_on n t); eauto; lia].
  destruct Hr as [A B B' C C' D F], Hb as [F1 F2 F3 F4 F5 F6]. split; auto; try rewrite F1, <- E.
  - intros o i t' Ho. rewrite F2 by lia. apply A. lia.
  - intros. rewrite F2 by lia. eapply B; eauto.
  - intros. rewrite F2 by lia. eapply B'; eauto.
  - intros b ob Hb Hn Hp. rewrite F3 in Hp. eauto.
  - intros o i Ho. rewrite F3. apply C'. lia.
  - congruence.
Qed.
Lemma built_trans t1 t2 c c1 c2 : t1 <= t2 -> built t1 c c1 -> built t2 c1 c2 -> built t2 c c2.
Proof.
  intros Ht [A1 A2 A3 A4 A5 A6] [B1 B2 B3 B4 B5 B6]. split; auto.
  - intros o i t' Ho. rewrite B2 by lia. apply A2. lia.
  - intros. rewrite B3. auto.
  - congruence.
  - congruence.
Qed.
Lemma built_refl c : built (cOffset c) c c.
Proof. split; auto. intros; reflexivity. Qed.

Lemma enter_ready n b ob t c : nth_error P b = Some ob -> nonChar ob -> ready n c ->
  (forall i, In i (nodeID ob :: gensOf ob) -> lost n (cOffset c) i) ->
  stored (cResults c) (cOffset c) (nodeID ob) t -> cOffset c <= t -> (t = cOffset c -> pcount (cResults c) (cOffset c) (nodeID ob) = 0) ->
  exists c', enterBuild c (nodeID ob) (gensOf ob) t = Ok (Some c') /\ ready n c' /\ cOffset c' = cOffset c /\ cTokens c' = cTokens c /\
    (forall o i t', cOffset c < o \/ t = cOffset c -> stored (cResults c') o i t' <-> stored (cResults c) o i t') /\
    (forall o i, pcount (cResults c') o i = pcount (cResults c) o i + (if cOffset c <? t then 0 else occ (cOffset c) (nodeID ob :: gensOf ob) o i)) /\
    List.length (rMatch (cResults c')) = List.length (rMatch (cResults c)) /\
    (cOffset c < t -> forall o i v, stored (cResults c') o i v <-> stored (cResults c) o i v /\ ~ (o = cOffset c /\ In i (nodeID ob :: gensOf ob) /\ v = t)).
Proof.
  intros Hb Hn Hr Hlost Hs Hle Hpc. destruct Hr as [A B B' C C' D F].
  assert (Hex : exists c', enterBuild c (nodeID ob) (gensOf ob) t = Ok (Some c')).
  { unfold enterBuild. destruct (Nat.ltb_spec (cOffset c) t) as [Elt|Elt].
    - destruct (forDrop_ok (nodeID ob :: gensOf ob) (cOffset c) t (cResults c)) as [r' Er].
      { eapply stored_length; eauto. }
      rewrite Er. cbn [bind]. eauto.
    - assert (Epd : pending (cResults c) (cOffset c) (nodeID ob) = false).
      { destruct (pending (cResults c) (cOffset c) (nodeID ob)) eqn:Ep; auto. apply pending_pcount in Ep. rewrite Hpc in Ep by lia. lia. }
      rewrite Epd. destruct (forMark_ok (nodeID ob :: gensOf ob) (cOffset c) (cResults c)) as [r' Er]. rewrite Er. cbn [bind]. eauto. }
  destruct Hex as (c' & Ec'). exists c'. split; auto.
  destruct (enterBuild_spec _ _ _ _ _ Ec') as (S1 & S2 & S3 & S4 & S5).
  assert (Hrows : forall o i t', cOffset c < o \/ t = cOffset c -> stored (cResults c') o i t' <-> stored (cResults c) o i t').
  { intros o i t' Ho. destruct S5 as [(L1 & _ & L3)|(L1 & L2 & L3)].
    - split; [apply (sh_stored _ _ S3)|]. intros Hst. apply L3; auto. intros (-> & _). lia.
    - apply stored_ext; auto. }
  assert (Hkeep : forall i t', ~ In i (nodeID ob :: gensOf ob) -> stored (cResults c') (cOffset c) i t' <-> stored (cResults c) (cOffset c) i t').
  { intros i t' Hi. destruct S5 as [(L1 & _ & L3)|(L1 & L2 & L3)].
    - split; [apply (sh_stored _ _ S3)|]. intros Hst. apply L3; auto. intros (_ & X & _). auto.
    - apply stored_ext; auto. }
  assert (Honce : once (cResults c') /\ (cOffset c < t -> forall o i v, stored (cResults c') o i v <-> stored (cResults c) o i v /\ ~ (o = cOffset c /\ In i (nodeID ob :: gensOf ob) /\ v = t))).
  { destruct (Nat.lt_ge_cases (cOffset c) t) as [Hlt|Hge].
    - destruct (once_enter _ _ _ _ _ Ec' Hlt F). auto.
    - split; [|lia]. destruct S5 as [(L1 & _ & L3)|(L1 & L2 & L3)]; [lia|]. intros o' i' t'. unfold matchRow. rewrite L3. apply F. }
  destruct Honce as [Hon Hiff].
  split; [|split; auto; split; auto; split; auto; split; auto; split; [apply (sh_len _ _ S3)|auto]].
  split; auto; try rewrite S1.
  - intros o i t' Ho. rewrite Hrows by auto. apply A; auto.
  - intros x ox t' Hx Hnx He. rewrite <- (B x ox t') by auto. apply Hkeep. intros Hi. apply He. destruct (Hlost _ Hi x ox); auto.
  - intros e name id commit options gs x ox t' He1 He2 Hin Hex Hox. rewrite <- (B' e name id commit options gs x ox t') by auto.
    apply Hkeep. intros Hi. apply He2. destruct (Hlost _ Hi x ox) as [_ X]; eauto.
    destruct (ext_obj _ _ _ Hex) as (? & ? & ? & ? & ? & ? & ? & E & _). rewrite Hox in E. inversion E; exact I.
  - intros x ox Hx Hnx Hp. rewrite S4 in Hp. destruct (cOffset c <? t); [apply (C x ox); auto; lia|].
    unfold occ in Hp. rewrite Nat.eqb_refl in Hp.
    destruct (In_dec Nat.eq_dec (nodeID ox) (nodeID ob :: gensOf ob)) as [Hi|Hi]; [destruct (Hlost _ Hi x ox); auto|].
    apply (count_occ_not_In Nat.eq_dec) in Hi. rewrite Hi in Hp. apply (C x ox); auto. lia.
  - intros o i Ho. rewrite S4, C' by auto. destruct (cOffset c <? t); auto. unfold occ. destruct (Nat.eqb_spec (cOffset c) o); [lia|auto].
  - rewrite (sh_len _ _ S3). auto.
Qed.

Lemma leave_built id gs c c1 c2 t : cOffset c <= t ->
  cOffset c1 = cOffset c -> cTokens c1 = cTokens c ->
  (forall o i t', cOffset c < o \/ t = cOffset c -> stored (cResults c1) o i t' <-> stored (cResults c) o i t') ->
  (forall o i, pcount (cResults c1) o i = pcount (cResults c) o i + (if cOffset c <? t then 0 else occ (cOffset c) (id :: gs) o i)) ->
  List.length (rMatch (cResults c1)) = List.length (rMatch (cResults c)) -> once (cResults c1) ->
  built t c1 c2 ->
  exists c3, leaveBuild c2 id gs (cOffset c) t = Ok c3 /\ built t c c3.
Proof.
  intros Hle H1 H2 H3 H4 H5 H6 [B1 B2 B3 B4 B5 B6].
  assert (Hex : exists c3, leaveBuild c2 id gs (cOffset c) t = Ok c3).
  { unfold leaveBuild. destruct (cOffset c <? t) eqn:E; eauto.
    destruct (forUnmark_ok (id :: gs) (cOffset c) (cResults c2)) as [r' Er].
    - intros i. rewrite B3, H4. lia.
    - rewrite Er. cbn [bind]. eauto. }
  destruct Hex as (c3 & E3). exists c3. split; auto.
  destruct (leaveBuild_spec _ _ _ _ _ _ E3) as (L1 & L2 & L3 & L4). split.
  - congruence.
  - intros o i t' Ho. rewrite (stored_ext _ _ L3), B2 by auto. apply H3. lia.
  - intros o i. rewrite L4, B3, H4. lia.
  - rewrite L3. congruence.
  - congruence.
  - intros _ o i v. unfold matchRow. rewrite L3. apply B6; auto.
Qed.

Lemma build_up m m' b c x : build P m b c = Ok x -> m <= m' -> build P m' b c = Ok x.
Proof. intros H L. rewrite (build_mono P m m' L b c); auto. rewrite H. discriminate. Qed.
Lemma loop_up m m' k k' items ranges ii n nodes c x : buildLoop (build P m) k items ranges ii n nodes c = Ok x -> m <= m' -> k <= k' ->
  buildLoop (build P m') k' items ranges ii n nodes c = Ok x.
Proof.
  intros H L L'. rewrite (buildLoop_mono (build P m) (build P m') (fun p c => build_mono P m m' L p c) items ranges k k' L'); auto. rewrite H. discriminate.
Qed.

(** sequences of characters have no nodes *)
Lemma evalItems_chars n (items : list (addr * (nat * option nat))) :
  (forall x b, In (x, b) items -> match nth_error P x with Some (PChar _ _ _ _ _) => True | Some _ => False | None => True end) ->
  forall j its cnt o t ns, incl its items -> evalItems (ev n) j its cnt o = Match t ns -> ns = [].
Proof.
  intros Hch. induction j as [|j IH]; intros its cnt o t ns Hi H; [discriminate|]. cbn [evalItems] in H.
  destruct its as [|[x [mn mx]] its]; [inversion H; auto|].
  assert (Hi' : incl its items) by (intros y Hy; apply Hi; right; auto).
  pose proof (Hch x (mn, mx) (Hi _ (or_introl eq_refl))) as Hx0.
  assert (Hn : forall t' ns', ev n x o = Match t' ns' -> ns' = [] /\ o < t').
  { intros t' ns' E. destruct n as [|n0]; [discriminate|].
    destruct (nth_error P x) as [[nm i cn ch rs| |]|] eqn:Hx; try contradiction.
    2:{ cbn [evalL] in E. unfold heapGraph in E at 1. rewrite Hx in E. discriminate. }
    rewrite (GrowParse.eval_char P K input n0 _ _ _ _ _ _ _ Hx) in E.
    destruct (nth_error input o); [|discriminate]. destruct (classHas _ _ _ _); [|discriminate]. inversion E; subst. split; auto. }
  destruct (ev n x o) as [| |t1 ns1] eqn:Ex; [discriminate| |].
  - destruct (mn <=? cnt); [|discriminate]. eapply (IH its); eauto.
  - destruct (Hn _ _ eq_refl) as [-> Hlt]. apply Nat.ltb_lt in Hlt. rewrite Hlt in H.
    destruct (match mx with Some m => S cnt =? m | None => false end).
    + destruct (evalItems (ev n) j its 0 t1) as [| |t2 ns2] eqn:E2; simpl in H; try discriminate. inversion H; subst. eapply (IH its); eauto.
    + destruct (evalItems (ev n) j ((x, (mn, mx)) :: its) (S cnt) t1) as [| |t2 ns2] eqn:E2; simpl in H; try discriminate. inversion H; subst. exact (IH _ _ _ _ _ Hi E2).
Qed.

(** a definition with a match at [o], one level at most [n], is built *)
Definition works (n o : nat) : Prop := forall b ob c t ns, nth_error P b = Some ob -> nonChar ob -> ready n c -> cOffset c = o ->
  ev n b o = Match t ns -> stored R0 o (nodeID ob) t ->
  exists m c', build P m b c = Ok (ns, true, c') /\ built t c c'.

Lemma build_none n b ob c : nth_error P b = Some ob -> nonChar ob -> ready n c -> ev n b (cOffset c) = NoMatch ->
  build P 1 b c = Ok ([], false, c).
Proof.
  intros Hb Hn Hr He.
  assert (Hl : longestMatch (cResults c) (cOffset c) (nodeID ob) = None).
  { apply longestMatch_none. intros t Hs. apply (rd_at _ _ Hr b) in Hs; auto; [|congruence].
    destruct (ti_2 _ _ _ _ HR0 b ob (cOffset c) t NoMatch Hb Hn Hs) as (t' & ns & E & _); [|discriminate].
    rewrite <- He. apply Ev_at. congruence. }
  cbn [build]. rewrite Hb.
  destruct ob as [nm i cn ch rs|nm i cm its rg gs ac|nm i cm ops gs]; [contradiction| |]; simpl in Hl.
  - unfold seqBuild. rewrite Hl. auto.
  - unfold choiceBuild. rewrite Hl. auto.
Qed.

Section LOOP.
Variables n o0 : nat.
Hypothesis Hrec : forall o, o0 <= o -> o = o0 \/ o <= List.length input -> works n o.

Lemma loop_ref p name id commit items ranges gs : nth_error P p = Some (PSeq name id commit items ranges gs false) ->
  forall j ii cnt nodes c t ns, ready n c -> o0 <= cOffset c -> cOffset c = o0 \/ cOffset c <= List.length input ->
  (forall y o' oy t' ns', asks (skipn ii (objItems items ranges)) cnt (cOffset c) y o' -> nth_error P y = Some oy -> nonChar oy ->
     Ev y o' (Match t' ns') -> stored R0 o' (nodeID oy) t') ->
  evalItems (ev n) j (skipn ii (objItems items ranges)) cnt (cOffset c) = Match t ns ->
  exists m k c', buildLoop (build P m) k items ranges ii cnt nodes c = Ok (nodes ++ ns, c') /\ built t c c' /\ cOffset c <= t.
Proof.
  intros Hp. induction j as [|j IH]; intros ii cnt nodes c t ns Hr Hlo Hhi Has He; [discriminate|].
  destruct (nth_error items ii) as [item|] eqn:Ei.
  2:{ unfold objItems in He. rewrite (skipn_combine_none _ _ _ Ei) in He. cbn [evalItems] in He. inversion He; subst.
      exists 1, 1, c. cbn [buildLoop]. rewrite Ei, app_nil_r. split; auto. split; [apply built_refl|auto]. }
  assert (Hii : ii < List.length ranges).
  { eapply Nat.lt_le_trans; [|eapply Hranges; eauto]. apply nth_error_Some. congruence. }
  destruct (nth_error ranges ii) as [[mn mx]|] eqn:Er; [|apply nth_error_None in Er; lia].
  assert (Esk : skipn ii (objItems items ranges) = (item, toBounds (mn, mx)) :: skipn (S ii) (objItems items ranges)).
  { apply skipn_combine; auto. rewrite nth_error_map, Er. auto. }
  rewrite Esk in *. cbn [evalItems] in He.
  assert (Emx : forall q, (Z.ltb 0 mx && Z.eqb (Z.of_nat q) mx)%bool = match snd (toBounds (mn, mx)) with Some m0 => q =? m0 | None => false end)
    by (intros; apply (toBounds_max mn)).
  destruct (toBounds (mn, mx)) as [bmn bmx] eqn:Eb.
  assert (Ebmn : bmn = Z.to_nat mn) by (unfold toBounds in Eb; inversion Eb; auto).
  destruct (Hitems _ _ _ _ _ _ _ Hp item (nth_error_In _ _ Ei)) as (ox & Hx & Hnx).
  destruct (ev n item (cOffset c)) as [| |t1 ns1] eqn:Ex; [discriminate| |].
  - pose proof (build_none n item ox c Hx Hnx Hr Ex) as Hbn.
    destruct (bmn <=? cnt) eqn:Eq; [|discriminate].
    destruct (IH (S ii) 0 nodes c t ns) as (m & k & c' & C1 & C2); auto.
    { intros y o' oy t' ns' Hy. apply Has. eapply as_skip; [rewrite <- Ex; apply Ev_at; congruence|apply Nat.leb_le; auto|auto]. }
    exists (S m), (S k), c'. split; auto. cbn [buildLoop]. rewrite Ei. rewrite (build_up _ (S m) _ _ _ Hbn) by lia. cbn [bind].
    eapply loop_up; [exact C1|lia|lia].
  - assert (Evx : Ev item (cOffset c) (Match t1 ns1)) by (rewrite <- Ex; apply Ev_at; congruence).
    assert (Hst : stored R0 (cOffset c) (nodeID ox) t1).
    { eapply (Has item); eauto. apply as_here. }
    destruct (Hrec (cOffset c) Hlo Hhi item ox c t1 ns1 Hx Hnx Hr eq_refl Ex Hst) as (m1 & c1 & B1 & B2).
    assert (Hge : cOffset c <= t1) by (eapply evalL_ge; eauto).
    pose proof (bt_off _ _ _ B2) as Ho1. pose proof (built_ready _ _ _ _ Hr Hge B2) as Hr1.
    assert (Hlo1 : o0 <= cOffset c1) by lia.
    assert (Hhi1 : cOffset c1 = o0 \/ cOffset c1 <= List.length input).
    { rewrite Ho1. destruct (Nat.eq_dec (cOffset c) t1) as [<-|Hne]; auto. right. eapply evalL_le; eauto. lia. }
    destruct (cOffset c <? t1) eqn:Elt.
    + assert (Hgo : forall ii' cnt' t2 ns2, evalItems (ev n) j (skipn ii' (objItems items ranges)) cnt' t1 = Match t2 ns2 ->
                (forall y o' oy t' ns', asks (skipn ii' (objItems items ranges)) cnt' t1 y o' -> nth_error P y = Some oy -> nonChar oy ->
                    Ev y o' (Match t' ns') -> stored R0 o' (nodeID oy) t') ->
                (forall q, (Z.ltb 0 mx && Z.eqb (Z.of_nat (S cnt)) mx)%bool = q -> (ii', cnt') = if q then (S ii, 0) else (ii, S cnt)) ->
                exists m k c', buildLoop (build P m) k items ranges ii cnt nodes c = Ok (nodes ++ ns1 ++ ns2, c') /\ built t2 c c' /\ cOffset c <= t2).
      { intros ii' cnt' t2 ns2 E2 Has2 Hq. destruct (IH ii' cnt' (nodes ++ ns1) c1 t2 ns2) as (m & k & c' & C1 & C2 & C3); auto; [rewrite Ho1; auto|rewrite Ho1; auto|].
        exists (m1 + m), (S k), c'. split; [|split; [eapply built_trans; [|exact B2|exact C2]; lia|lia]].
        cbn [buildLoop]. rewrite Ei. rewrite (build_up _ (m1 + m) _ _ _ B1) by lia. cbn [bind]. rewrite Er, Ho1, Elt.
        specialize (Hq _ eq_refl). rewrite app_assoc. destruct (Z.ltb 0 mx && Z.eqb (Z.of_nat (S cnt)) mx)%bool; inversion Hq; subst; (eapply loop_up; [exact C1|lia|lia]). }
      specialize (Emx (S cnt)). simpl snd in Emx. apply Nat.ltb_lt in Elt. destruct bmx as [mm|].
      * destruct (S cnt =? mm) eqn:Em.
        -- apply Nat.eqb_eq in Em.
           destruct (evalItems (ev n) j (skipn (S ii) (objItems items ranges)) 0 t1) as [| |t2 ns2] eqn:E2; simpl in He; try discriminate.
           injection He as <- <-. apply (Hgo (S ii) 0); auto; [|intros q Hq; rewrite Emx in Hq; subst q; auto].
           intros y o' oy t' ns' Hy. apply Has. eapply as_max; eauto.
        -- apply Nat.eqb_neq in Em.
           destruct (evalItems (ev n) j ((item, (bmn, Some mm)) :: skipn (S ii) (objItems items ranges)) (S cnt) t1) as [| |t2 ns2] eqn:E2; simpl in He; try discriminate.
           injection He as <- <-. apply (Hgo ii (S cnt)); auto; [rewrite Esk; auto| |intros q Hq; rewrite Emx in Hq; subst q; auto].
           intros y o' oy t' ns' Hy. apply Has. rewrite Esk in Hy. eapply as_more; eauto. congruence.
      * destruct (evalItems (ev n) j ((item, (bmn, None)) :: skipn (S ii) (objItems items ranges)) (S cnt) t1) as [| |t2 ns2] eqn:E2; simpl in He; try discriminate.
        injection He as <- <-. apply (Hgo ii (S cnt)); auto; [rewrite Esk; auto| |intros q Hq; rewrite Emx in Hq; subst q; auto].
        intros y o' oy t' ns' Hy. apply Has. rewrite Esk in Hy. eapply as_more; eauto. congruence.
    + assert (Et1 : t1 = cOffset c) by (apply Nat.ltb_ge in Elt; lia).
      destruct (evalItems (ev n) j (skipn (S ii) (objItems items ranges)) 0 t1) as [| |t2 ns2] eqn:E2; simpl in He; try discriminate.
      injection He as <- <-.
      destruct (IH (S ii) 0 (nodes ++ List.concat (repeat ns1 (bmn - cnt))) c1 t2 ns2) as (m & k & c' & C1 & C2 & C3); auto; [|rewrite Ho1; auto|].
      { intros y o' oy t' ns' Hy. apply Has. rewrite Ho1, Et1 in Hy. rewrite Et1 in Evx. eapply as_empty; eauto. }
      exists (m1 + m), (S k), c'. split; [|split; [eapply built_trans; [|exact B2|exact C2]; lia|lia]].
      cbn [buildLoop]. rewrite Ei. rewrite (build_up _ (m1 + m) _ _ _ B1) by lia. cbn [bind]. rewrite Er, Ho1, Elt.
      replace (Z.to_nat (mn - Z.of_nat cnt)) with (bmn - cnt) by lia. rewrite app_assoc. eapply loop_up; [exact C1|lia|lia].
Qed.
End LOOP.

Lemma pick_first r from t l1 x ox l2 : (forall y, In y (l1 ++ x :: l2) -> exists oy, nth_error P y = Some oy) ->
  (forall y oy, In y l1 -> nth_error P y = Some oy -> ~ stored r from (nodeID oy) t) ->
  nth_error P x = Some ox -> stored r from (nodeID ox) t -> pickOption P r from t (l1 ++ x :: l2) = Ok (Some x).
Proof.
  intros Hall Hno Hx Hs. induction l1 as [|y l1 IH]; cbn [app pickOption].
  - rewrite Hx. apply hasMatchTo_stored in Hs. rewrite Hs. auto.
  - destruct (Hall y (or_introl eq_refl)) as (oy & Hy). rewrite Hy. destruct (hasMatchTo r from (nodeID oy) t) eqn:E.
    + apply hasMatchTo_stored in E. exfalso. exact (Hno y oy (or_introl eq_refl) Hy E).
    + apply IH; [intros z Hz; apply Hall; right; auto|intros z oz Hz; apply Hno; right; auto].
Qed.
Lemma first_split (x : addr) l : In x l -> exists l1 l2, l = l1 ++ x :: l2 /\ ~ In x l1.
Proof.
  induction l as [|y l IH]; [contradiction|]. intros H. destruct (Nat.eq_dec y x) as [->|Hne].
  - exists [], l. auto.
  - destruct H as [|H]; [congruence|]. destruct (IH H) as (l1 & l2 & -> & Hn). exists (y :: l1), l2. split; auto. intros [|]; auto.
Qed.
Lemma first_base l bs1 b bs2 (p : addr -> bool) : filter p l = bs1 ++ b :: bs2 -> exists l1 l2, l = l1 ++ b :: l2 /\ forall y, In y l1 -> p y = false \/ In y bs1.
Proof.
  revert bs1. induction l as [|y l IH]; intros bs1 H; simpl in H; [destruct bs1; discriminate|].
  destruct (p y) eqn:E.
  - destruct bs1 as [|z bs1]; simpl in H; injection H as -> H2.
    + exists [], l. split; [auto|intros ? []].
    + destruct (IH _ H2) as (l1 & l2 & -> & Hl). exists (z :: l1), l2. split; auto. intros w [<-|Hw]; [right; left; auto|].
      destruct (Hl _ Hw); auto. right; right; auto.
  - destruct (IH _ H) as (l1 & l2 & -> & Hl). exists (y :: l1), l2. split; auto. intros w [<-|Hw]; auto.
Qed.

(** ** the chain of a choice with extensions *)
Section CHAINB.
Variables (n : nat) (e : addr) (nm : string) (ide : nat) (cte : commitType) (opts : list addr) (gse : list nat).
Hypothesis He : nth_error P e = Some (PChoice nm ide cte opts gse).
Variable from : nat.
Notation recs := (exts e opts).
Notation bases := (basesOf e opts).
Notation lab := (heapLabel nm cte).
Notation chain := (GrowParse.chain P K input lab from recs bases).
Hypothesis Hwork : works n from.
Hypothesis Hlater : forall o, from < o -> o <= List.length input -> forall N, works N o.
Hypothesis Hun : ev n e from = Unfinished.
Variables (T0 : nat) (nb : list node).
Hypothesis HT0 : from < T0.
Hypothesis Hb : evalOptions (ev n) bases from NoMatch = Match T0 nb.
Variables (L0 : list (nat * addr * nat)) (top : nat) (nsT : list node).
Hypothesis Hch0 : chain L0 top nsT.
Hypothesis Htop : top <= List.length input.
Hypothesis Hg0 : grow P K input e ide from T0 recs L0 top R0.

Lemma HBg : Begins P K input bases from (Match T0 nb).
Proof. split; [discriminate|]. exists n. auto. Qed.

(** the matches of the choice and of its extensions that are left *)
Definition upTo (t : nat) (c : context) : Prop :=
  (forall v, stored (cResults c) from ide v <-> stored R0 from ide v /\ v <= t) /\
  (forall x v, In x recs -> stored (cResults c) from (idOf x) v <-> stored R0 from (idOf x) v /\ v <= t).

Lemma chain_one L t ns : chain L t ns -> forall v x u x' u', In (v, x, u) L -> In (v, x', u') L -> x = x' /\ u = u'.
Proof.
  induction 1 as [|L t ns x l t' ns' H IH Hx Hc Hlt]; intros v y u y' u'; [intros []|].
  destruct (chain_le _ _ _ _ _ _ _ _ _ _ _ _ HBg H) as (_ & _ & Hle).
  intros [E|E] [E'|E'].
  - inversion E; inversion E'; subst; auto.
  - inversion E; subst. destruct (Hle _ _ _ E') as (_ & ? & _). lia.
  - inversion E'; subst. destruct (Hle _ _ _ E) as (_ & ? & _). lia.
  - eauto.
Qed.
Lemma e_lost i : In i (ide :: gse) -> lost n from i.
Proof.
  apply (lost_enter n from e (PChoice nm ide cte opts gse) He I Hun). intros e' name id commit options gs He' Hin Hx.
  rewrite (choice_notExt _ _ _ _ _ _ _ _ He) in Hx. discriminate.
Qed.
Lemma x_lost x nx cx items ranges gx : In x recs -> nth_error P x = Some (PSeq nx (idOf x) cx items ranges gx false) ->
  forall i, In i (idOf x :: gx) -> lost n from i.
Proof.
  intros Hx Hp. apply (lost_enter n from x _ Hp I).
  - apply ev_extn. eapply rec_extn; eauto.
  - intros e' name id commit options gs He' Hin Hx'. apply exts_in in Hx. destruct Hx as [_ Hx]. rewrite (ext_inj _ _ _ _ Hx' Hx). auto.
Qed.
Lemma base_short b ob v : In b bases -> nth_error P b = Some ob -> stored R0 from (nodeID ob) v -> exists tb nsb, ev n b from = Match tb nsb /\ v <= tb /\ tb <= T0.
Proof.
  intros Hin Hob Hs. destruct (evalOptions_spec (ev n) from bases NoMatch) as [Hdef Hsp]; [discriminate|congruence|]. rewrite Hb in Hsp.
  assert (Hn : nonChar ob). { destruct (Hoptions _ _ _ _ _ _ He b) as (ob' & E & Hn); [eapply bases_incl; eauto|]. congruence. }
  destruct (ti_2 _ _ _ _ HR0 b ob from v _ Hob Hn Hs (Ev_at n b from (Hdef b Hin))) as (tb & nsb & E & Hle & _).
  exists tb, nsb. split; auto. split; auto. destruct Hsp as (_ & Hsp & _). eauto.
Qed.

Theorem chain_build L t ns : chain L t ns -> (exists pre, L0 = pre ++ L /\ forall v x u, In (v, x, u) pre -> t < v) ->
  forall c, ready n c -> cOffset c = from -> upTo t c ->
  exists m c', build P m e c = Ok (ns, true, c') /\ built t c c'.
Proof.
  destruct (evalOptions_spec (ev n) from bases NoMatch) as [Hdef _]; [discriminate|congruence|].
  assert (Hall : forall y, In y opts -> exists oy, nth_error P y = Some oy /\ nonChar oy).
  { intros y Hy. destruct (Hoptions _ _ _ _ _ _ He y Hy) as (oy & Hoy & Hny). eauto. }
  induction 1 as [t nb' Hbg Hft|L t ns x l t' ns' H IH Hx Hct Hlt]; intros (pre & Epre & Hpre) c Hr Ho [Hue Hur].
  - pose proof (Begins_fun _ _ _ _ _ _ _ HBg Hbg) as E. injection E as Et En. subst t nb'.
    destruct (evalOptions_first _ _ _ _ _ _ Hb) as [|(_ & p1 & b & p2 & Eb & Hevb & Hshort)]; [discriminate|].
    assert (Hse : stored (cResults c) from ide T0) by (apply Hue; split; auto; apply (g_T0 _ _ _ _ _ _ _ _ _ _ _ Hg0)).
    assert (Lg : longestMatch (cResults c) from ide = Some T0) by (apply longestMatch_some; split; auto; intros v Hv; apply Hue in Hv; tauto).
    destruct (enter_ready n e _ T0 c He I Hr) as (c1 & N1 & N2 & N3 & N4 & N5 & N6 & N7 & N8); [rewrite Ho; exact e_lost|rewrite Ho; auto|lia|intros; lia|].
    simpl nodeID in *. simpl gensOf in *.
    assert (Hbin : In b bases) by (rewrite Eb; apply in_elt).
    destruct (Hall b) as (ob & Hob & Hnb); [eapply bases_incl; eauto|].
    assert (HsR : stored R0 from (nodeID ob) T0).
    { eapply (ti_5c _ _ _ _ HR0); [exact He|apply (g_T0 _ _ _ _ _ _ _ _ _ _ _ Hg0)|apply Hp0|eapply bases_incl; eauto|exact Hob|auto|]. rewrite <- Hevb. apply Ev_at. congruence. }
    assert (Hsb : stored (cResults c1) from (nodeID ob) T0).
    { pose proof (rd_at _ _ N2 b ob T0 Hob Hnb) as Q. rewrite N3, Ho in Q. apply Q; auto; congruence. }
    destruct (first_base opts p1 b p2 _ Eb) as (l1 & l2 & Eo & Hl1).
    assert (Hpick : pickOption P (cResults c1) from T0 opts = Ok (Some b)).
    { rewrite Eo. eapply pick_first; [intros y Hy; destruct (Hall y) as (oy & Hoy & _); [rewrite Eo; exact Hy|eauto]| |exact Hob|exact Hsb].
      intros y oy Hy Hoy Hs. specialize (Hl1 y Hy). destruct Hl1 as [Hl1|Hl1].
      - assert (Hyr : In y recs). { apply exts_in. split; [rewrite Eo; apply in_or_app; auto|]. destruct (isExt e y); auto. }
        apply N8 in Hs; [|lia]. destruct Hs as [Hs _]. rewrite <- (idOf_at _ _ _ Hoy) in Hs.
        apply Hur in Hs; auto. destruct Hs as [Hs _]. destruct (g_r _ _ _ _ _ _ _ _ _ _ _ Hg0 y T0 Hyr Hs) as (u & Hin).
        destruct (chain_le _ _ _ _ _ _ _ _ _ _ _ _ HBg Hch0) as (_ & _ & Hle). destruct (Hle _ _ _ Hin) as (? & _). lia.
      - assert (Hyb : In y bases) by (rewrite Eb; apply in_or_app; auto).
        destruct (Hall y) as (oy' & Hoy' & Hny); [eapply bases_incl; eauto|]. rewrite Hoy in Hoy'. injection Hoy' as <-.
        pose proof (rd_at _ _ N2 y oy T0 Hoy Hny) as Q. rewrite N3, Ho in Q. apply Q in Hs; [|apply Hdef; auto].
        destruct (base_short y oy T0 Hyb Hoy Hs) as (tb & nsb & E1 & Hle & _). specialize (Hshort y Hl1 _ _ E1). lia. }
    destruct (Hwork b ob c1 T0 nb Hob Hnb N2) as (m & c2 & B1 & B2); auto; [congruence|].
    destruct (leave_built ide gse c c1 c2 T0) as (c3 & V1 & V2); auto; [lia|apply (rd_once _ _ N2)|].
    exists (S m), c3. split; auto. cbn [build]. rewrite He. unfold choiceBuild. rewrite Ho, Lg. rewrite N1. cbn [bind]. rewrite N3, Ho, Hpick. cbn [bind]. rewrite B1. cbn [bind].
    rewrite Ho in V1. rewrite V1. cbn [bind]. unfold named, heapLabel. destruct (hasFlag cte CAlias); auto.
  - destruct (chain_le _ _ _ _ _ _ _ _ _ _ _ _ HBg H) as (HfT & HTt & Hcl).
    assert (HinS : In (t', x, t) L0) by (rewrite Epre; apply in_elt).
    destruct (chain_le _ _ _ _ _ _ _ _ _ _ _ _ HBg Hch0) as (_ & _ & Hcl0).
    destruct (rec_obj P Hac e _ _ _ _ _ He x Hx) as (n1 & ct & items & ranges & gs & Hp & Hf & Hd).
    pose proof Hct as [_ (nk & first & rest & N & k & EG & EN)]. rewrite Hd in EG. injection EG as <- <- <- <-.
    destruct (g_eS _ _ _ _ _ _ _ _ _ _ _ Hg0 _ _ _ HinS) as (G1 & G2 & G3).
    assert (Hse : stored (cResults c) from ide t') by (apply Hue; auto).
    assert (Lg : longestMatch (cResults c) from ide = Some t') by (apply longestMatch_some; split; auto; intros v Hv; apply Hue in Hv; tauto).
    destruct (enter_ready n e _ t' c He I Hr) as (c1 & N1 & N2 & N3 & N4 & N5 & N6 & N7 & N8); [rewrite Ho; exact e_lost|rewrite Ho; auto|lia|intros; lia|].
    simpl nodeID in *. simpl gensOf in *. specialize (N8 ltac:(lia)).
    assert (Hrec1 : forall y v, In y recs -> stored (cResults c1) from (idOf y) v <-> stored (cResults c) from (idOf y) v).
    { intros y v Hy. rewrite N8. split; [tauto|]. intros Hs. split; auto.
      intros (_ & [Hi|Hi] & _); [exact (id_e_rec P Hids Hac e _ _ _ _ _ He y Hy (eq_sym Hi))|exact (gens_rec P Hgens Hac e _ _ _ _ _ He y e _ Hy He Hi)]. }
    assert (Hsx : stored (cResults c1) from (idOf x) t') by (apply Hrec1; auto; apply Hur; auto).
    assert (Hother : forall y oy, In y opts -> y <> x -> nth_error P y = Some oy -> ~ stored (cResults c1) from (nodeID oy) t').
    { intros y oy Hy Hyx Hoy Hs. destruct (isExt e y) eqn:Ey.
      - assert (Hyr : In y recs) by (apply exts_in; auto).
        rewrite <- (idOf_at _ _ _ Hoy) in Hs. apply Hrec1 in Hs; auto. apply Hur in Hs; auto.
        destruct Hs as [Hs _]. destruct (g_r _ _ _ _ _ _ _ _ _ _ _ Hg0 y t' Hyr Hs) as (u & Hin). destruct (chain_one _ _ _ Hch0 _ _ _ _ _ Hin HinS). auto.
      - assert (Hyb : In y bases) by (apply bases_in; auto).
        destruct (Hall y Hy) as (oy' & Hoy' & Hny). rewrite Hoy in Hoy'. injection Hoy' as <-.
        pose proof (rd_at _ _ N2 y oy t' Hoy Hny) as Q. rewrite N3, Ho in Q. apply Q in Hs; [|apply Hdef; auto].
        destruct (base_short y oy t' Hyb Hoy Hs) as (tb & nsb & E1 & Hle & Hle'). lia. }
    assert (Hxo : In x opts) by (apply exts_in in Hx; tauto).
    destruct (first_split x opts Hxo) as (l1 & l2 & El & Hnl).
    assert (Hpick : pickOption P (cResults c1) from t' opts = Ok (Some x)).
    { rewrite El. eapply pick_first; [| |exact Hp|exact Hsx].
      - intros y Hy. destruct (Hall y) as (oy & Hoy & _); [rewrite El; exact Hy|]. eauto.
      - intros y oy Hy Hoy. apply (Hother y oy); auto; [rewrite El; apply in_or_app; auto|intros ->; auto]. }
    assert (Lx : longestMatch (cResults c1) from (idOf x) = Some t').
    { apply longestMatch_some. split; auto. intros v Hv. apply Hrec1 in Hv; auto. apply Hur in Hv; tauto. }
    destruct (enter_ready n x _ t' c1 Hp I N2) as (c2 & O1 & O2 & O3 & O4 & O5 & O6 & O7 & O8); [rewrite N3, Ho; simpl; eapply x_lost; eauto|rewrite N3, Ho; auto|lia|intros; lia|].
    simpl nodeID in *. simpl gensOf in *. specialize (O8 ltac:(lia)).
    assert (Hup : upTo t c2).
    { split.
      - intros v. rewrite O8, N8. rewrite Hue. split.
        + intros (((A1 & A2) & A3) & A4). split; auto. rewrite N3, Ho in *.
          assert (v <> t') by (intros ->; apply A3; simpl; auto).
          destruct (g_e _ _ _ _ _ _ _ _ _ _ _ Hg0 v A1) as [|(y & u & Hin)]; [lia|]. rewrite Epre in Hin. apply in_app_or in Hin.
          destruct Hin as [Hin|[Hin|Hin]]; [specialize (Hpre _ _ _ Hin); lia|inversion Hin; congruence|].
          destruct (Hcl _ _ _ Hin) as (_ & ? & _). auto.
        + intros [A1 A2]. split; [split; [split; [auto|lia]|]|]; intros (_ & _ & Ev'); lia.
      - intros y v Hy. rewrite O8, (Hrec1 y v Hy), Hur by auto. split.
        + intros ((A1 & A2) & A4). split; auto. rewrite N3, Ho in *.
          destruct (g_r _ _ _ _ _ _ _ _ _ _ _ Hg0 y v Hy A1) as (u & Hin).
          assert (v <> t').
          { intros ->. destruct (chain_one _ _ _ Hch0 _ _ _ _ _ Hin HinS) as [-> _]. apply A4. simpl; auto. }
          rewrite Epre in Hin. apply in_app_or in Hin.
          destruct Hin as [Hin|[Hin|Hin]]; [specialize (Hpre _ _ _ Hin); lia|inversion Hin; congruence|].
          destruct (Hcl _ _ _ Hin) as (_ & ? & _). auto.
        + intros [A1 A2]. split; [split; [auto|lia]|]. intros (_ & _ & Ev'); lia. }
    destruct (IH) with (c := c2) as (m & c3 & B1 & B2); auto.
    { exists (pre ++ [(t', x, t)]). rewrite <- app_assoc. split; auto. intros v y u Hin. apply in_app_or in Hin.
      destruct Hin as [Hin|[Hin|[]]]; [specialize (Hpre _ _ _ Hin); lia|inversion Hin; subst; auto]. }
    { congruence. }
    assert (Ho3 : cOffset c3 = t) by apply (bt_off _ _ _ B2).
    assert (Ho2 : cOffset c2 = from) by congruence.
    assert (Hr3 : ready N c3) by (eapply (ready_on n t c2); eauto; lia).
    assert (Htl : t' <= List.length input) by (destruct (Hcl0 _ _ _ HinS) as (_ & ? & _); lia).
    destruct (loop_ref N t) with (p := x) (name := n1) (id := idOf x) (commit := ct) (items := e :: items) (ranges := (1, 1)%Z :: ranges)
      (gs := gs) (j := k) (ii := 1) (cnt := 0) (nodes := ns) (c := c3) (t := t') (ns := ns') as (m2 & k2 & c4 & C1 & C2 & C3); auto; try lia.
    { intros o Hoo Hlen. apply Hlater; lia. }
    { rewrite Ho3. intros y o' oy t1 ns1 Hy Hoy Hny Hey. eapply (g_asks _ _ _ _ _ _ _ _ _ _ _ Hg0 t' x t); eauto. }
    { rewrite Ho3. exact EN. }
    assert (B24 : built t' c2 c4) by (eapply built_trans; [|exact B2|exact C2]; lia).
    destruct (leave_built (idOf x) gs c1 c2 c4 t') as (c5 & V1 & V2); auto; [lia|apply (rd_once _ _ O2)|]. rewrite N3, Ho in V1.
    destruct (leave_built ide gse c c1 c5 t') as (c6 & W1 & W2); auto; [lia|apply (rd_once _ _ N2)|]. rewrite Ho in W1.
    exists (S (S (S (m + m2 + k2)))), c6. split; auto. remember (S (S (m + m2 + k2))) as M1 eqn:EM1. cbn [build]. rewrite He. unfold choiceBuild. rewrite Ho, Lg, N1. cbn [bind].
    rewrite N3, Ho, Hpick. cbn [bind]. rewrite EM1. remember (S (m + m2 + k2)) as M2 eqn:EM2. cbn [build]. rewrite Hp. unfold seqBuild. rewrite N3, Ho, Lx, O1. cbn [bind].
    assert (Hloop : buildLoop (build P M2) M2 (e :: items) ((1, 1)%Z :: ranges) 0 0 [] c2 = Ok (ns ++ ns', c4)).
    { replace (buildLoop (build P M2) M2) with (buildLoop (build P M2) (S (m + m2 + k2))) by (rewrite EM2; auto). cbn [buildLoop nth_error].
      rewrite (build_up _ M2 _ _ _ B1) by lia. cbn [bind].
      assert (Eoff : cOffset c2 <? cOffset c3 = true) by (apply Nat.ltb_lt; lia).
      rewrite Eoff. cbn [app]. change (Z.ltb 0 1 && Z.eqb (Z.of_nat 1) 1)%bool with true. cbn iota.
      eapply loop_up; [exact C1|lia|lia]. }
    rewrite Hloop. cbn [bind]. rewrite V1. cbn [bind].
    unfold named, heapLabel. destruct (hasFlag ct CAlias), (hasFlag cte CAlias); cbn [bind]; rewrite W1; auto.
Qed.
End CHAINB.

(** building a definition with a reference match gives the nodes of this match *)
Theorem build_ref : forall d o, List.length input - o <= d -> forall n, works n o.
Proof.
  induction d as [d IHd] using lt_wf_ind. intros o Hd.
  assert (Hlater : forall o', o < o' -> o' <= List.length input -> forall N, works N o').
  { intros o' H1 H2. apply (IHd (List.length input - o')); lia. }
  induction n as [|n IH]; intros b ob c t ns Hb Hn Hr Ho He Hs; [discriminate|].
  destruct (ev n b o) as [| |t0 ns0] eqn:Eu.
  2,3: (rewrite (evalL_mono1 Nat.eqb G K input n b o) in He by congruence; apply (IH b ob c t ns); auto; apply ready_lower; auto).
  assert (Hxn : extn b = false).
  { destruct (extn b) eqn:E; auto. rewrite (ev_extn _ _ _ _ _ _ E) in He. discriminate. }
  assert (Hge : o <= t) by (eapply evalL_ge; eauto).
  assert (Hst : stored (cResults c) o (nodeID ob) t).
  { pose proof (rd_at _ _ Hr b ob t Hb Hn) as Q. rewrite Ho in Q. apply Q; auto; congruence. }
  assert (Hmax : forall t', stored R0 o (nodeID ob) t' -> t' <= t).
  { intros t' Hs'. destruct (ti_2 _ _ _ _ HR0 b ob o t' (Match t ns) Hb Hn Hs') as (t1 & ns1 & E & Hle & _).
    - rewrite <- He. apply Ev_at. congruence.
    - inversion E; subst; auto. }
  assert (Hl : longestMatch (cResults c) o (nodeID ob) = Some t).
  { apply longestMatch_some. split; auto. intros t' Hs'. apply Hmax. pose proof (rd_at _ _ Hr b ob t' Hb Hn) as Q. rewrite Ho in Q. apply Q; auto; congruence. }
  pose proof (ready_lower _ _ Hr) as Hr'.
  assert (Hpc : pcount (cResults c) o (nodeID ob) = 0).
  { destruct (pcount (cResults c) o (nodeID ob)) eqn:E; auto. exfalso. pose proof (rd_quiet _ _ Hr b ob Hb Hn) as Q. rewrite Ho, E in Q. rewrite Q in He by lia. discriminate. }
  assert (Hlost : forall i, In i (nodeID ob :: gensOf ob) -> lost n o i).
  { apply (lost_enter n o b ob Hb Hn Eu). intros e name id commit options gs H1 H2 H3. rewrite (ext_extn _ _ _ _ _ _ _ _ H1 H2 H3) in Hxn. discriminate. }
  destruct (enter_ready n b ob t c Hb Hn Hr') as (c1 & N1 & N2 & N3 & N4 & N5 & N6 & N7 & _);
    [rewrite Ho; auto|rewrite Ho; auto|rewrite Ho; auto|rewrite Ho; auto|].
  destruct ob as [nm i cn ch rs|nm i cm its rg gs ac|nm i cm ops gs]; [contradiction| |]; simpl nodeID in *; simpl gensOf in *.
  - rewrite (GrowParse.eval_seq P K input n _ _ _ _ _ _ _ _ _ Hb Hxn) in He.
    destruct (evalItems (ev n) n (objItems its rg) 0 o) as [| |t1 ns1] eqn:E1; try discriminate.
    destruct (hasFlag cm CNoKeyword && isOneOf _ K)%bool; [discriminate|]. simpl in He.
    assert (t1 = t) by (inversion He; auto). subst t1.
    assert (Hns : (if hasFlag cm CAlias then ns1 else [Node nm o t ns1]) = ns).
    { inversion He. unfold heapLabel. destruct (hasFlag cm CAlias); auto. }
    clear He. destruct ac.
    + assert (Hnil : ns1 = []).
      { eapply (evalItems_chars n (objItems its rg)); [|apply incl_refl|exact E1].
        intros x bd Hin. apply in_combine_l in Hin. exact (Hac _ _ _ _ _ _ _ Hb x Hin). }
      subst ns1. exists 1, (setOffset c t). split; [cbn [build]; rewrite Hb; unfold seqBuild; rewrite Ho, Hl, <- Hns; destruct (hasFlag cm CAlias); auto|].
      split; simpl; auto. intros; reflexivity.
    + destruct (loop_ref n o) with (p := b) (name := nm) (id := i) (commit := cm) (items := its) (ranges := rg) (gs := gs) (j := n) (ii := 0) (cnt := 0) (nodes := @nil node) (c := c1) (t := t) (ns := ns1)
        as (m & k & c2 & L1 & L2 & L3); auto; try lia.
      * intros o' H1 H2. destruct (Nat.eq_dec o' o) as [->|]; auto. apply Hlater; lia.
      * rewrite N3, Ho. intros y o' oy t' ns' Hy Hoy Hny Hey. eapply (ti_5s _ _ _ _ HR0); eauto.
      * rewrite N3, Ho. auto.
      * destruct (leave_built i gs c c1 c2 t) as (c3 & V1 & V2); auto; [lia|apply (rd_once _ _ N2)|].
        exists (S (m + k)), c3. split; auto. cbn [build]. rewrite Hb. unfold seqBuild. rewrite Ho, Hl, N1. cbn [bind].
        rewrite (loop_up _ (m + k) _ (m + k) _ _ _ _ _ _ _ L1) by lia. cbn [bind]. rewrite Ho in V1. rewrite V1. cbn [bind]. rewrite <- Hns. destruct (hasFlag cm CAlias); auto.
  - rewrite (GrowParse.eval_choice P K input n _ _ _ _ _ _ _ Hb) in He. destruct (exts b ops) as [|x0 xs0] eqn:Exs.
    + destruct (evalOptions (ev n) ops o NoMatch) as [| |t1 ns1] eqn:E1; try discriminate. simpl in He.
      assert (t1 = t) by (inversion He; auto). subst t1.
      assert (Hns : (if hasFlag cm CAlias then ns1 else [Node nm o t ns1]) = ns).
      { inversion He. unfold heapLabel. destruct (hasFlag cm CAlias); auto. }
      clear He.
      destruct (evalOptions_spec (ev n) o ops NoMatch) as [Hall _]; [discriminate|congruence|].
      destruct (evalOptions_first _ _ _ _ _ _ E1) as [|(_ & pre & x & post & Eops & Ex & Hpre)]; [discriminate|].
      assert (Hxin : In x ops) by (rewrite Eops; apply in_elt).
      destruct (Hoptions _ _ _ _ _ _ Hb x Hxin) as (ox & Hx & Hnx).
      assert (Hsx : stored R0 o (nodeID ox) t).
      { eapply (ti_5c _ _ _ _ HR0); eauto. rewrite <- Ex. apply Ev_at. congruence. }
      assert (Hpick : pickOption P (cResults c1) o t ops = Ok (Some x)).
      { rewrite Eops. eapply pick_first; [| |exact Hx|].
        - intros y Hy. destruct (Hoptions _ _ _ _ _ _ Hb y) as (oy & Hoy & _); [rewrite Eops; auto|eauto].
        - intros y oy Hy Hoy Hsy. assert (Hyin : In y ops) by (rewrite Eops; apply in_or_app; auto).
          destruct (Hoptions _ _ _ _ _ _ Hb y Hyin) as (oy' & Hoy' & Hny). rewrite Hoy in Hoy'. injection Hoy' as <-.
          assert (Hdy : ev n y o <> Unfinished) by (apply Hall; auto).
          pose proof (rd_at _ _ N2 y oy t Hoy Hny) as Q. rewrite N3, Ho in Q. apply Q in Hsy; auto.
          destruct (ti_2 _ _ _ _ HR0 y oy o t _ Hoy Hny Hsy (Ev_at _ _ _ Hdy)) as (t' & ns' & E & Hle & _).
          pose proof (Hpre y Hy _ _ E). lia.
        - pose proof (rd_at _ _ N2 x ox t Hx Hnx) as Q. rewrite N3, Ho in Q. apply Q; auto. }
      destruct (IH x ox c1 t ns1 Hx Hnx N2) as (m & c2 & B1 & B2); auto; [congruence|].
      destruct (leave_built i gs c c1 c2 t) as (c3 & V1 & V2); auto; [lia|apply (rd_once _ _ N2)|].
      exists (S m), c3. split; auto. cbn [build]. rewrite Hb. unfold choiceBuild. rewrite Ho, Hl, N1. cbn [bind]. rewrite N3, Ho, Hpick. cbn [bind]. rewrite B1. cbn [bind].
      rewrite Ho in V1. rewrite V1. cbn [bind]. rewrite <- Hns. destruct (hasFlag cm CAlias); auto.
    + assert (HeE : Ev b o (Match t ns)).
      { split; [discriminate|]. exists (S n). rewrite (GrowParse.eval_choice P K input n _ _ _ _ _ _ _ Hb), Exs. auto. }
      destruct (inBlocks Nat.eqb G b ops) eqn:Ebl; [|discriminate].
      destruct (evalOptions (ev n) (basesOf b ops) o NoMatch) as [| |T0 nb] eqn:E1; try discriminate.
      destruct (Nat.ltb_spec o T0) as [HT0|]; [|discriminate].
      assert (Hne : exts b ops <> []) by (rewrite Exs; discriminate).
      destruct (ti_6 _ _ _ _ HR0 b nm i cm ops gs o t t ns Hb Hne Hs (Hp0 _ _) HeE) as (L & T0' & nb' & U1 & U2 & U3).
      assert (HB : Begins P K input (basesOf b ops) o (Match T0 nb)) by (split; [discriminate|exists n; auto]).
      pose proof (Begins_fun _ _ _ _ _ _ _ HB U2) as EB. injection EB as <- <-.
      destruct (chain_le _ _ _ _ _ _ _ _ _ _ _ _ HB U1) as (_ & HTt & Hcl).
      assert (Htop : t <= List.length input).
      { destruct HeE as [_ (N & HN)]. eapply evalL_le; eauto. lia. }
      eapply (chain_build n b nm i cm ops gs Hb o IH Hlater Eu T0 nb HT0 E1 L t ns U1 Htop U3 L t ns U1); auto.
      * exists []. split; auto. intros ? ? ? [].
      * assert (Hd' : ev (S n) b o <> Unfinished).
        { rewrite (GrowParse.eval_choice P K input n _ _ _ _ _ _ _ Hb), Exs, Ebl, E1. apply Nat.ltb_lt in HT0. rewrite HT0, He. discriminate. }
        split.
        -- intros v. pose proof (rd_at _ _ Hr b _ v Hb I) as Q. rewrite Ho in Q. simpl in Q. rewrite (Q Hd'). split; [|tauto]. intros Hv. split; auto.
        -- intros x v Hx. destruct (rec_obj P Hac b _ _ _ _ _ Hb x Hx) as (n1 & ct & items & ranges & gx & Hp & Hf & Hdd).
           pose proof Hx as Hx'. apply exts_in in Hx'. destruct Hx' as [Hxi Hxx].
           pose proof (fun ox => rd_ext _ _ Hr b nm i cm ops gs x ox v Hb) as Q. rewrite Ho in Q. specialize (Q _ Hd' Hxi Hxx Hp). simpl in Q. rewrite Q. split; [|tauto].
           intros Hv. split; auto. destruct (g_r _ _ _ _ _ _ _ _ _ _ _ U3 x v Hx Hv) as (u & Hin). destruct (Hcl _ _ _ Hin) as (_ & ? & _). auto.
Qed.

(** at the beginning *)
Lemma ready_new c n : cResults c = R0 -> once R0 -> ready n c.
Proof.
  intros E Ho. split; rewrite E; auto; try (intros; reflexivity).
  intros b ob Hb Hn Hp. rewrite Hp0 in Hp. lia.
Qed.
End GROWB.
