(** Building the tree computes the nodes of the reference outcome. *)
From Verif Require Import Base Utf8 IdSet Results Parser Build ListFacts ResultsFacts ReaderFacts ParseFacts
  FuelFacts TermFacts BuildFacts Lang Sound RunFacts NoPanic RefSpec RefFuel RefParse.

(** the options before the chosen one are shorter *)
Definition shorter (r : outcome) (t : nat) : Prop := forall t' ns', r = Match t' ns' -> t' < t.
Lemma shorter_longer b r t : shorter (longer b r) t -> shorter b t /\ shorter r t.
Proof.
  intros H. split; intros t' ns' ->.
  - destruct r as [| |t1 ns1]; simpl in H; try (eapply H; reflexivity).
    destruct (Nat.ltb_spec t' t1); [specialize (H _ _ eq_refl); lia|eapply H; reflexivity].
  - destruct b as [| |t1 ns1]; simpl in H; try (eapply H; reflexivity).
    destruct (Nat.ltb_spec t1 t'); [eapply H; reflexivity|specialize (H _ _ eq_refl); lia].
Qed.
Lemma evalOptions_first {A} (rec : A -> nat -> outcome) o (options : list A) : forall best t ns,
  evalOptions rec options o best = Match t ns ->
  best = Match t ns \/
  (shorter best t /\ exists pre x post, options = pre ++ x :: post /\ rec x o = Match t ns /\
    forall y, In y pre -> shorter (rec y o) t).
Proof.
  induction options as [|x options IH]; intros best t ns H; cbn [evalOptions] in H; [auto|].
  assert (Hx : rec x o <> Unfinished /\ evalOptions rec options o (longer best (rec x o)) = Match t ns)
    by (destruct (rec x o); split; auto; discriminate). clear H. destruct Hx as [Hx H].
  destruct (IH _ _ _ H) as [Hb|(Hb & pre & y & post & -> & Hy & Hp)].
  - assert (Hd : best = Match t ns \/ (shorter best t /\ rec x o = Match t ns)).
    { destruct best as [| |t0 ns0]; simpl in Hb.
      - right. split; auto. intros ? ? ?; discriminate.
      - right. split; auto. intros ? ? ?; discriminate.
      - destruct (rec x o) as [| |t1 ns1]; auto. destruct (Nat.ltb_spec t0 t1); auto.
        right. split; auto. inversion Hb; subst. intros ? ? E; inversion E; subst; auto. }
    destruct Hd as [Hd|[Hd1 Hd2]]; auto. right. split; auto. exists [], x, options. split; auto. split; auto. intros ? [].
  - apply shorter_longer in Hb. destruct Hb as [Hb1 Hb2]. right. split; auto.
    exists (x :: pre), y, post. split; auto. split; auto. intros z [<-|Hz]; auto.
Qed.

Section REFBUILD.
Variable P : pheap.
Variable K : list (list rune).
Variable input : list rune.
Hypothesis Hids : uniqueIds P.
Hypothesis Hgens : gensOk P.
Hypothesis Hac : allCharsOk P.
(** only the items of sequences of single characters are characters *)
Hypothesis Hitems : forall a name id commit items ranges gs, nth_error P a = Some (PSeq name id commit items ranges gs false) ->
  forall x : addr, In x items -> exists ox, nth_error P x = Some ox /\ nonChar ox.
Hypothesis Hoptions : forall a name id commit options gs, nth_error P a = Some (PChoice name id commit options gs) ->
  forall x : addr, In x options -> exists ox, nth_error P x = Some ox /\ nonChar ox.
Hypothesis Hranges : forall a name id commit items ranges gs ac, nth_error P a = Some (PSeq name id commit items ranges gs ac) ->
  List.length items <= List.length ranges.

Notation G := (heapGraph P).
Notation ev := (eval G K input).
Notation Ev := (Gives G K input).
Notation tres := (tres P K input).
Notation asks := (asks P K input).

(** the memo table at the beginning *)
Variable R0 : results.
Hypothesis HR0 : tres R0.
Hypothesis Hp0 : forall o i, pcount R0 o i = 0.

Lemma gen_unf x a : generalizes P x a -> forall n o, ev n a o = Unfinished -> ev n x o = Unfinished.
Proof.
  assert (Hopt : forall x a name id commit options gs n o, nth_error P x = Some (PChoice name id commit options gs) -> In a options ->
            ev n a o = Unfinished -> ev n x o = Unfinished).
  { intros x0 a0 name id commit options gs n o Hx Hin H. destruct n as [|n]; auto.
    rewrite (eval_choice P K input n _ _ _ _ _ _ _ Hx).
    destruct (evalOptions (ev n) options o NoMatch) eqn:E; auto; exfalso;
      (destruct (evalOptions_spec (ev n) o options NoMatch) as [H1 _]; [discriminate|congruence|];
       apply (H1 a0 Hin); apply ev_lower; auto). }
  induction 1 as [x a name id commit options gs Hx Hin|x op a name id commit options gs Hx Hin Hg IH]; intros n o H.
  - eapply Hopt; eauto.
  - eapply Hopt; eauto.
Qed.

Record ready (n : nat) (c : context) : Prop := mkReady {
  rd_above : forall o i t, cOffset c < o -> stored (cResults c) o i t <-> stored R0 o i t;
  rd_at : forall b ob t, nth_error P b = Some ob -> nonChar ob -> ev n b (cOffset c) <> Unfinished ->
          stored (cResults c) (cOffset c) (nodeID ob) t <-> stored R0 (cOffset c) (nodeID ob) t;
  rd_quiet : forall b ob o, nth_error P b = Some ob -> nonChar ob -> 0 < pcount (cResults c) o (nodeID ob) ->
          ev n b o = Unfinished;
  rd_len : List.length (rMatch (cResults c)) = List.length (rMatch R0) }.

Record built (t : nat) (c c' : context) : Prop := mkBuilt {
  bt_off : cOffset c' = t;
  bt_rows : forall o i t', t <= o -> stored (cResults c') o i t' <-> stored (cResults c) o i t';
  bt_pend : forall o i, pcount (cResults c') o i = pcount (cResults c) o i;
  bt_len : List.length (rMatch (cResults c')) = List.length (rMatch (cResults c));
  bt_tokens : cTokens c' = cTokens c }.

Lemma ready_lower n c : ready (S n) c -> ready n c.
Proof.
  intros [A B C D]. split; auto.
  - intros b ob t Hb Hn He. apply (B b); auto. intros H. apply He. apply ev_lower; auto.
  - intros b ob o Hb Hn Hp. apply ev_lower. eauto.
Qed.
Lemma built_ready n t c c' : ready n c -> cOffset c <= t -> built t c c' -> ready n c'.
Proof.
  intros [A B C D] Ht [F1 F2 F3 F4 F5]. split.
  - intros o i t' Ho. rewrite F2 by lia. apply A. lia.
  - intros b ob t' Hb Hn He. rewrite F1 in *. rewrite F2 by lia. destruct (Nat.eq_dec (cOffset c) t) as [<-|Hne].
    + apply (B b); auto.
    + apply A. lia.
  - intros b ob o Hb Hn Hp. rewrite F3 in Hp. eauto.
  - congruence.
Qed.
Lemma built_trans t1 t2 c c1 c2 : t1 <= t2 -> built t1 c c1 -> built t2 c1 c2 -> built t2 c c2.
Proof.
  intros Ht [A1 A2 A3 A4 A5] [B1 B2 B3 B4 B5]. split; auto.
  - intros o i t' Ho. rewrite B2 by lia. apply A2. lia.
  - intros. rewrite B3. auto.
  - congruence.
  - congruence.
Qed.
Lemma built_refl c : built (cOffset c) c c.
Proof. split; auto. intros; reflexivity. Qed.

(** entering the build of [b]: the definitions that lose their matches have no outcome one level below *)
Lemma enter_ready n b ob gs t c : nth_error P b = Some ob -> nonChar ob -> gensOf ob = gs ->
  ev n b (cOffset c) = Unfinished -> ev (S n) b (cOffset c) <> Unfinished -> ready (S n) c ->
  stored R0 (cOffset c) (nodeID ob) t -> cOffset c <= t ->
  exists c', enterBuild c (nodeID ob) gs t = Ok (Some c') /\ ready n c' /\ cOffset c' = cOffset c /\ cTokens c' = cTokens c /\
    (forall o i t', cOffset c < o \/ t = cOffset c -> stored (cResults c') o i t' <-> stored (cResults c) o i t') /\
    (forall o i, pcount (cResults c') o i = pcount (cResults c) o i + (if cOffset c <? t then 0 else occ (cOffset c) (nodeID ob :: gs) o i)) /\
    List.length (rMatch (cResults c')) = List.length (rMatch (cResults c)).
Proof.
  intros Hb Hn <- Hu Hd Hr Hs Hle.
  assert (Hlost : forall x ox, nth_error P x = Some ox -> nonChar ox -> In (nodeID ox) (nodeID ob :: gensOf ob) -> ev n x (cOffset c) = Unfinished).
  { intros x ox Hx Hnx [Hi|Hi].
    - assert (x = b) by (eapply Hids; eauto). subst x. auto.
    - apply (gen_unf x b); [exact (Hgens b ob x ox Hb Hx Hnx Hi)|exact Hu]. }
  pose proof (ready_lower _ _ Hr) as Hr'. destruct Hr' as [A B C D].
  assert (Hpc : pcount (cResults c) (cOffset c) (nodeID ob) = 0).
  { destruct (pcount (cResults c) (cOffset c) (nodeID ob)) eqn:E; auto. exfalso. apply Hd. eapply (rd_quiet _ _ Hr); eauto. lia. }
  assert (Hex : exists c', enterBuild c (nodeID ob) (gensOf ob) t = Ok (Some c')).
  { unfold enterBuild. destruct (cOffset c <? t) eqn:Elt.
    - destruct (forDrop_ok (nodeID ob :: gensOf ob) (cOffset c) t (cResults c)) as [r' Er].
      { rewrite (rd_len _ _ Hr). eapply stored_length; eauto. }
      rewrite Er. cbn [bind]. eauto.
    - assert (Epd : pending (cResults c) (cOffset c) (nodeID ob) = false).
      { destruct (pending (cResults c) (cOffset c) (nodeID ob)) eqn:Ep; auto. apply pending_pcount in Ep. lia. }
      rewrite Epd. destruct (forMark_ok (nodeID ob :: gensOf ob) (cOffset c) (cResults c)) as [r' Er]. rewrite Er. cbn [bind]. eauto. }
  destruct Hex as (c' & Ec'). exists c'. split; auto.
  destruct (enterBuild_spec _ _ _ _ _ Ec') as (S1 & S2 & S3 & S4 & S5).
  assert (Hrows : forall o i t', cOffset c < o \/ t = cOffset c -> stored (cResults c') o i t' <-> stored (cResults c) o i t').
  { intros o i t' Ho. destruct S5 as [(L1 & _ & L3)|(L1 & L2 & L3)].
    - split; [apply (sh_stored _ _ S3)|]. intros Hst. apply L3; auto. intros (-> & _). lia.
    - apply stored_ext; auto. }
  split; [|split; auto; split; auto; split; auto; split; auto; apply (sh_len _ _ S3)].
  split.
  - intros o i t' Ho. rewrite S1 in Ho. rewrite Hrows by auto. apply A; auto.
  - intros x ox t' Hx Hnx He. rewrite S1 in *. rewrite <- (B x ox t') by auto.
    destruct S5 as [(L1 & _ & L3)|(L1 & L2 & L3)].
    + split; [apply (sh_stored _ _ S3)|]. intros Hst. apply L3; auto. intros (_ & Hi & _). apply He. eapply Hlost; eauto.
    + apply stored_ext; auto.
  - intros x ox o Hx Hnx Hp. rewrite S4 in Hp. destruct (cOffset c <? t); [apply (C x ox); auto; lia|].
    unfold occ in Hp. destruct (Nat.eqb_spec (cOffset c) o) as [<-|Ho].
    + destruct (In_dec Nat.eq_dec (nodeID ox) (nodeID ob :: gensOf ob)) as [Hi|Hi]; [eapply Hlost; eauto|].
      apply (count_occ_not_In Nat.eq_dec) in Hi. rewrite Hi in Hp. apply (C x ox); auto. lia.
    + apply (C x ox); auto. lia.
  - rewrite (sh_len _ _ S3). auto.
Qed.

Lemma leave_built id gs c c1 c2 t : cOffset c <= t ->
  cOffset c1 = cOffset c -> cTokens c1 = cTokens c ->
  (forall o i t', cOffset c < o \/ t = cOffset c -> stored (cResults c1) o i t' <-> stored (cResults c) o i t') ->
  (forall o i, pcount (cResults c1) o i = pcount (cResults c) o i + (if cOffset c <? t then 0 else occ (cOffset c) (id :: gs) o i)) ->
  List.length (rMatch (cResults c1)) = List.length (rMatch (cResults c)) ->
  built t c1 c2 ->
  exists c3, leaveBuild c2 id gs (cOffset c) t = Ok c3 /\ built t c c3.
Proof.
  intros Hle H1 H2 H3 H4 H5 [B1 B2 B3 B4 B5].
  assert (Hex : exists c3, leaveBuild c2 id gs (cOffset c) t = Ok c3).
  { unfold leaveBuild. destruct (cOffset c <? t) eqn:E; eauto.
    destruct (forUnmark_ok (id :: gs) (cOffset c) (cResults c2)) as [r' Er].
    - intros i. rewrite B3, H4. lia.
    - rewrite Er. cbn [bind]. eauto. }
  destruct Hex as (c3 & E3). exists c3. split; auto.
  destruct (leaveBuild_spec _ _ _ _ _ _ E3) as (L1 & L2 & L3 & L4). split.
  - congruence.
  - intros o i t' Ho. rewrite (stored_ext _ _ L3), B2 by auto. apply H3. lia.
  - intros o i. rewrite L4, B3, H4. lia.
  - rewrite L3. congruence.
  - congruence.
Qed.

(** sequences of characters have no nodes *)
Lemma evalItems_chars n (items : list (addr * (nat * option nat))) :
  (forall x b, In (x, b) items -> match nth_error P x with Some (PChar _ _ _ _ _) => True | Some _ => False | None => True end) ->
  forall j its cnt o t ns, incl its items -> evalItems (ev n) j its cnt o = Match t ns -> ns = [].
Proof.
  intros Hch. induction j as [|j IH]; intros its cnt o t ns Hi H; [discriminate|]. cbn [evalItems] in H.
  destruct its as [|[x [mn mx]] its]; [inversion H; auto|].
  assert (Hi' : incl its items) by (intros y Hy; apply Hi; right; auto).
  pose proof (Hch x (mn, mx) (Hi _ (or_introl eq_refl))) as Hx0.
  assert (Hn : forall t' ns', ev n x o = Match t' ns' -> ns' = [] /\ o < t').
  { intros t' ns' E. destruct n as [|n0]; [discriminate|].
    destruct (nth_error P x) as [[nm i cn ch rs| |]|] eqn:Hx; try contradiction.
    2:{ cbn [eval] in E. unfold heapGraph in E at 1. rewrite Hx in E. discriminate. }
    rewrite (eval_char P K input n0 _ _ _ _ _ _ _ Hx) in E.
    destruct (nth_error input o); [|discriminate]. destruct (classHas _ _ _ _); [|discriminate]. inversion E; subst. split; auto. }
  destruct (ev n x o) as [| |t1 ns1] eqn:Ex; [discriminate| |].
  - destruct (mn <=? cnt); [|discriminate]. eapply (IH its); eauto.
  - destruct (Hn _ _ eq_refl) as [-> Hlt]. apply Nat.ltb_lt in Hlt. rewrite Hlt in H.
    destruct (match mx with Some m => S cnt =? m | None => false end).
    + destruct (evalItems (ev n) j its 0 t1) as [| |t2 ns2] eqn:E2; simpl in H; try discriminate. inversion H; subst. eapply (IH its); eauto.
    + destruct (evalItems (ev n) j ((x, (mn, mx)) :: its) (S cnt) t1) as [| |t2 ns2] eqn:E2; simpl in H; try discriminate. inversion H; subst. exact (IH _ _ _ _ _ Hi E2).
Qed.

Section LOOP.
Variable n : nat.
Variable m : nat.
Hypothesis Hrec : forall b ob c t ns, nth_error P b = Some ob -> nonChar ob -> ready n c ->
  ev n b (cOffset c) = Match t ns -> stored R0 (cOffset c) (nodeID ob) t ->
  exists c', build P m b c = Ok (ns, true, c') /\ built t c c'.
Hypothesis Hm : 0 < m.

Lemma build_none b ob c : nth_error P b = Some ob -> nonChar ob -> ready n c -> ev n b (cOffset c) = NoMatch ->
  build P m b c = Ok ([], false, c).
Proof.
  intros Hb Hn Hr He.
  assert (Hl : longestMatch (cResults c) (cOffset c) (nodeID ob) = None).
  { apply longestMatch_none. intros t Hs. apply (rd_at _ _ Hr b) in Hs; auto; [|congruence].
    destruct (ti_2 _ _ _ _ HR0 b ob (cOffset c) t NoMatch Hb Hn Hs) as (t' & ns & E & _); [|discriminate].
    rewrite <- He. apply Ev_at. congruence. }
  destruct m as [|m0]; [lia|]. cbn [build]. rewrite Hb.
  destruct ob as [nm i cn ch rs|nm i cm its rg gs ac|nm i cm ops gs]; [contradiction| |]; simpl in Hl.
  - unfold seqBuild. rewrite Hl. auto.
  - unfold choiceBuild. rewrite Hl. auto.
Qed.

Lemma loop_ref p name id commit items ranges gs : nth_error P p = Some (PSeq name id commit items ranges gs false) ->
  forall j k ii cnt nodes c t ns, j <= k -> ready n c ->
  (forall y o' oy t' ns', asks (skipn ii (objItems items ranges)) cnt (cOffset c) y o' -> nth_error P y = Some oy -> nonChar oy ->
     Ev y o' (Match t' ns') -> stored R0 o' (nodeID oy) t') ->
  evalItems (ev n) j (skipn ii (objItems items ranges)) cnt (cOffset c) = Match t ns ->
  exists c', buildLoop (build P m) k items ranges ii cnt nodes c = Ok (nodes ++ ns, c') /\ built t c c' /\ cOffset c <= t.
Proof.
  intros Hp. induction j as [|j IH]; intros k ii cnt nodes c t ns Hk Hr Has He; [discriminate|].
  destruct k as [|k]; [lia|]. cbn [buildLoop].
  destruct (nth_error items ii) as [item|] eqn:Ei.
  2:{ unfold objItems in He. rewrite (skipn_combine_none _ _ _ Ei) in He. cbn [evalItems] in He. inversion He; subst.
      exists c. rewrite app_nil_r. split; auto. split; [apply built_refl|auto]. }
  assert (Hii : ii < List.length ranges).
  { eapply Nat.lt_le_trans; [|eapply Hranges; eauto]. apply nth_error_Some. congruence. }
  destruct (nth_error ranges ii) as [[mn mx]|] eqn:Er; [|apply nth_error_None in Er; lia].
  assert (Esk : skipn ii (objItems items ranges) = (item, toBounds (mn, mx)) :: skipn (S ii) (objItems items ranges)).
  { apply skipn_combine; auto. rewrite nth_error_map, Er. auto. }
  rewrite Esk in *. cbn [evalItems] in He.
  assert (Emx : forall q, (Z.ltb 0 mx && Z.eqb (Z.of_nat q) mx)%bool = match snd (toBounds (mn, mx)) with Some m0 => q =? m0 | None => false end)
    by (intros; apply (toBounds_max mn)).
  destruct (toBounds (mn, mx)) as [bmn bmx] eqn:Eb.
  assert (Ebmn : bmn = Z.to_nat mn) by (unfold toBounds in Eb; inversion Eb; auto).
  destruct (Hitems _ _ _ _ _ _ _ Hp item (nth_error_In _ _ Ei)) as (ox & Hx & Hnx).
  destruct (ev n item (cOffset c)) as [| |t1 ns1] eqn:Ex; [discriminate| |].
  - rewrite (build_none item ox c Hx Hnx Hr Ex). cbn [bind].
    destruct (bmn <=? cnt) eqn:Eq; [|discriminate].
    destruct (IH k (S ii) 0 nodes c t ns) as (c' & C1 & C2); auto; [lia| |eauto].
    intros y o' oy t' ns' Hy. apply Has. eapply as_skip; [rewrite <- Ex; apply Ev_at; congruence|apply Nat.leb_le; auto|auto].
  - assert (Evx : Ev item (cOffset c) (Match t1 ns1)) by (rewrite <- Ex; apply Ev_at; congruence).
    assert (Hst : stored R0 (cOffset c) (nodeID ox) t1).
    { eapply (Has item); eauto. apply as_here. }
    destruct (Hrec item ox c t1 ns1 Hx Hnx Hr Ex Hst) as (c1 & B1 & B2). rewrite B1. cbn [bind].
    assert (Hge : cOffset c <= t1) by (eapply eval_ge; eauto).
    pose proof (bt_off _ _ _ B2) as Ho1. rewrite Ho1. pose proof (built_ready _ _ _ _ Hr Hge B2) as Hr1.
    destruct (cOffset c <? t1) eqn:Elt.
    + rewrite Emx. simpl snd. apply Nat.ltb_lt in Elt. destruct bmx as [mm|].
      * destruct (S cnt =? mm) eqn:Em.
        -- apply Nat.eqb_eq in Em.
           destruct (evalItems (ev n) j (skipn (S ii) (objItems items ranges)) 0 t1) as [| |t2 ns2] eqn:E2; simpl in He; try discriminate.
           injection He as <- <-.
           destruct (IH k (S ii) 0 (nodes ++ ns1) c1 t2 ns2) as (c' & C1 & C2 & C3); auto; [lia| |rewrite Ho1; auto|].
           { intros y o' oy t' ns' Hy. apply Has. rewrite Ho1 in Hy. eapply as_max; eauto. }
           exists c'. rewrite C1, <- app_assoc. split; auto. split; [|lia]. eapply built_trans; [|exact B2|exact C2]. lia.
        -- apply Nat.eqb_neq in Em.
           destruct (evalItems (ev n) j ((item, (bmn, Some mm)) :: skipn (S ii) (objItems items ranges)) (S cnt) t1) as [| |t2 ns2] eqn:E2; simpl in He; try discriminate.
           injection He as <- <-.
           destruct (IH k ii (S cnt) (nodes ++ ns1) c1 t2 ns2) as (c' & C1 & C2 & C3); auto; [lia| |rewrite Ho1, Esk; auto|].
           { intros y o' oy t' ns' Hy. apply Has. rewrite Ho1, Esk in Hy. eapply as_more; eauto. congruence. }
           exists c'. rewrite C1, <- app_assoc. split; auto. split; [|lia]. eapply built_trans; [|exact B2|exact C2]. lia.
      * destruct (evalItems (ev n) j ((item, (bmn, None)) :: skipn (S ii) (objItems items ranges)) (S cnt) t1) as [| |t2 ns2] eqn:E2; simpl in He; try discriminate.
        injection He as <- <-.
        destruct (IH k ii (S cnt) (nodes ++ ns1) c1 t2 ns2) as (c' & C1 & C2 & C3); auto; [lia| |rewrite Ho1, Esk; auto|].
        { intros y o' oy t' ns' Hy. apply Has. rewrite Ho1, Esk in Hy. eapply as_more; eauto. congruence. }
        exists c'. rewrite C1, <- app_assoc. split; auto. split; [|lia]. eapply built_trans; [|exact B2|exact C2]. lia.
    + apply Nat.ltb_ge in Elt. assert (Et1 : t1 = cOffset c) by lia.
      destruct (evalItems (ev n) j (skipn (S ii) (objItems items ranges)) 0 t1) as [| |t2 ns2] eqn:E2; simpl in He; try discriminate.
      injection He as <- <-.
      replace (Z.to_nat (mn - Z.of_nat cnt)) with (bmn - cnt) by lia.
      destruct (IH k (S ii) 0 (nodes ++ List.concat (repeat ns1 (bmn - cnt))) c1 t2 ns2) as (c' & C1 & C2 & C3); auto; [lia| |rewrite Ho1; auto|].
      { intros y o' oy t' ns' Hy. apply Has. rewrite Ho1, Et1 in Hy. rewrite Et1 in Evx. eapply as_empty; eauto. }
      exists c'. rewrite C1, <- app_assoc. split; auto. split; [|lia]. eapply built_trans; [|exact B2|exact C2]. lia.
Qed.
End LOOP.

(** building a definition with a reference match gives the nodes of this match *)
Theorem build_ref n : forall m b ob c t ns, n <= m -> nth_error P b = Some ob -> nonChar ob -> ready n c ->
  ev n b (cOffset c) = Match t ns -> stored R0 (cOffset c) (nodeID ob) t ->
  exists c', build P m b c = Ok (ns, true, c') /\ built t c c'.
Proof.
  induction n as [|n IH]; intros m b ob c t ns Hm Hb Hn Hr He Hs; [discriminate|].
  destruct (ev n b (cOffset c)) as [| |t0 ns0] eqn:Eu.
  2,3: (rewrite (eval_mono1 G K input n b (cOffset c)) in He by congruence; eapply IH; eauto; [lia|apply ready_lower; auto]).
  destruct m as [|m]; [lia|].
  assert (Hge : cOffset c <= t) by (eapply eval_ge; eauto).
  assert (Hl : longestMatch (cResults c) (cOffset c) (nodeID ob) = Some t).
  { apply longestMatch_some. split; [apply (rd_at _ _ Hr b); auto; congruence|].
    intros t' Hs'. apply (rd_at _ _ Hr b) in Hs'; auto; [|congruence].
    destruct (ti_2 _ _ _ _ HR0 b ob (cOffset c) t' (Match t ns) Hb Hn Hs') as (t1 & ns1 & E & Hle & _).
    - rewrite <- He. apply Ev_at. congruence.
    - inversion E; subst; auto. }
  cbn [build]. rewrite Hb.
  assert (Hrec : forall b ob c t ns, nth_error P b = Some ob -> nonChar ob -> ready n c ->
    ev n b (cOffset c) = Match t ns -> stored R0 (cOffset c) (nodeID ob) t ->
    exists c', build P m b c = Ok (ns, true, c') /\ built t c c').
  { intros. eapply IH; eauto. lia. }
  assert (Hunf : ev (S n) b (cOffset c) <> Unfinished) by congruence.
  pose proof (enter_ready n b ob (gensOf ob) t c Hb Hn eq_refl Eu Hunf Hr Hs Hge) as (c1 & N1 & N2 & N3 & N4 & N5 & N6 & N7).
  destruct ob as [nm i cn ch rs|nm i cm its rg gs ac|nm i cm ops gs]; [contradiction| |]; simpl in Hl, N1, N6, Hs.
  - rewrite (eval_seq P K input n _ _ _ _ _ _ _ _ _ Hb) in He.
    destruct (evalItems (ev n) n (objItems its rg) 0 (cOffset c)) as [| |t1 ns1] eqn:E1; try discriminate.
    destruct (hasFlag cm CNoKeyword && isOneOf _ K)%bool; [discriminate|]. simpl in He.
    assert (t1 = t) by (inversion He; auto). subst t1.
    assert (Hns : (if hasFlag cm CAlias then ns1 else [Node nm (cOffset c) t ns1]) = ns).
    { inversion He. unfold heapLabel. destruct (hasFlag cm CAlias); auto. }
    clear He. unfold seqBuild. rewrite Hl. destruct ac.
    + assert (Hnil : ns1 = []).
      { eapply (evalItems_chars n (objItems its rg)); [|apply incl_refl|exact E1].
        intros x bd Hin. apply in_combine_l in Hin. exact (Hac _ _ _ _ _ _ _ Hb x Hin). }
      subst ns1. exists (setOffset c t). split; [rewrite <- Hns; destruct (hasFlag cm CAlias); auto|].
      split; simpl; auto. intros; reflexivity.
    + rewrite N1. cbn [bind].
      destruct (loop_ref n m Hrec ltac:(destruct n; [discriminate|lia]) b nm i cm its rg gs Hb n m 0 0 [] c1 t ns1)
        as (c2 & L1 & L2 & L3).
      * lia.
      * auto.
      * rewrite N3. intros y o' oy t' ns' Hy Hoy Hny Hey. eapply (ti_5s _ _ _ _ HR0); eauto.
      * rewrite N3. auto.
      * rewrite L1. cbn [bind].
        destruct (leave_built i gs c c1 c2 t Hge N3 N4 N5 N6 N7 L2) as (c3 & V1 & V2). rewrite V1. cbn [bind].
        exists c3. split; auto. rewrite <- Hns. destruct (hasFlag cm CAlias); auto.
  - rewrite (eval_choice P K input n _ _ _ _ _ _ _ Hb) in He.
    destruct (evalOptions (ev n) ops (cOffset c) NoMatch) as [| |t1 ns1] eqn:E1; try discriminate. simpl in He.
    assert (t1 = t) by (inversion He; auto). subst t1.
    assert (Hns : (if hasFlag cm CAlias then ns1 else [Node nm (cOffset c) t ns1]) = ns).
    { inversion He. unfold heapLabel. destruct (hasFlag cm CAlias); auto. }
    clear He. unfold choiceBuild. rewrite Hl, N1. cbn [bind].
    destruct (evalOptions_spec (ev n) (cOffset c) ops NoMatch) as [Hall _]; [discriminate|congruence|].
    destruct (evalOptions_first _ _ _ _ _ _ E1) as [|(_ & pre & x & post & Eops & Ex & Hpre)]; [discriminate|].
    assert (Hxin : In x ops) by (rewrite Eops; apply in_elt).
    destruct (Hoptions _ _ _ _ _ _ Hb x Hxin) as (ox & Hx & Hnx).
    assert (Hsx : stored R0 (cOffset c) (nodeID ox) t).
    { eapply (ti_5c _ _ _ _ HR0); eauto. rewrite <- Ex. apply Ev_at. congruence. }
    assert (Hpick : pickOption P (cResults c1) (cOffset c1) t ops = Ok (Some x)).
    { rewrite Eops. assert (Hin : incl pre ops) by (rewrite Eops; intros y Hy; apply in_or_app; auto). clear Eops.
      rewrite N3. induction pre as [|y pre IHp]; cbn [app pickOption].
      - rewrite Hx. assert (Hh : hasMatchTo (cResults c1) (cOffset c) (nodeID ox) t = true).
        { apply hasMatchTo_stored. pose proof (rd_at _ _ N2 x ox t Hx Hnx) as Q. rewrite N3 in Q. apply Q; auto. }
        rewrite Hh. auto.
      - destruct (Hoptions _ _ _ _ _ _ Hb y (Hin _ (or_introl eq_refl))) as (oy & Hy & Hny). rewrite Hy.
        destruct (hasMatchTo (cResults c1) (cOffset c) (nodeID oy) t) eqn:Eh.
        + exfalso. apply hasMatchTo_stored in Eh.
          assert (Hdy : ev n y (cOffset c) <> Unfinished) by (apply Hall; apply Hin; left; auto).
          pose proof (rd_at _ _ N2 y oy t Hy Hny) as Q. rewrite N3 in Q. apply Q in Eh; auto.
          destruct (ti_2 _ _ _ _ HR0 y oy (cOffset c) t _ Hy Hny Eh (Ev_at P K input _ _ _ Hdy)) as (t' & ns' & E & Hle & _).
          pose proof (Hpre y (or_introl eq_refl) _ _ E). lia.
        + apply IHp; [intros z Hz; apply Hpre; right; auto|intros z Hz; apply Hin; right; auto]. }
    rewrite Hpick. cbn [bind].
    destruct (Hrec x ox c1 t ns1 Hx Hnx N2) as (c2 & B1 & B2); [rewrite N3; auto|rewrite N3; auto|].
    rewrite B1. cbn [bind].
    destruct (leave_built i gs c c1 c2 t Hge N3 N4 N5 N6 N7 B2) as (c3 & V1 & V2). rewrite V1. cbn [bind].
    exists c3. split; auto. rewrite <- Hns. destruct (hasFlag cm CAlias); auto.
Qed.
End REFBUILD.
