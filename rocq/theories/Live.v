(** After Init, the initialized definitions are exactly a closed set of registered ones, and the
    parsers restricted to them satisfy what the soundness proof of the matcher needs. *)
From Verif Require Import Base Utf8 IdSet Results Parser Build Syntax ListFacts ParseFacts TermFacts NoPanic Lang Sound RunFacts Restrict InitWalk InitRun InitOk SyntaxFacts InitCore InitSpec.

Section ONLY.
Variable m : list (string * addr).
Variable R : addr -> Prop.
Hypothesis HR : forall n a, lookup m n = Some a -> R a.

Definition newInit (h h' : dheap) : Prop := forall b, inited h' b -> inited h b \/ R b.
Lemma newInit_refl h : newInit h h.
Proof. intros b; auto. Qed.
Lemma newInit_trans a b c : newInit a b -> newInit b c -> newInit a c.
Proof. intros H1 H2 x Hx. apply H2 in Hx. destruct Hx as [Hx|]; auto. Qed.
Lemma newInit_upd h a f : (R a \/ forall d, nth_error h a = Some d -> initK (dKind (f d)) = initK (dKind d)) -> newInit h (updNth a f h).
Proof.
  intros H b (d & Hd & Hi). rewrite nth_error_updNth in Hd. destruct (Nat.eqb_spec a b) as [->|Hne].
  - destruct H as [H|H]; [right; auto|]. left. destruct (nth_error h b) as [d0|] eqn:E; [|discriminate]. simpl in Hd. inversion Hd; subst.
    exists d0. split; auto. rewrite <- (H d0 eq_refl). auto.
  - left. exists d. auto.
Qed.
Lemma forAddrs_new rec l : (forall h a h', In a l -> rec h a = Ok h' -> newInit h h') -> forall h h', forAddrs rec l h = Ok h' -> newInit h h'.
Proof.
  induction l as [|a l IH]; intros Hrec h h' H; cbn [forAddrs] in H; [inversion H; apply newInit_refl|].
  binv H. apply newInit_trans with x; [eapply Hrec; eauto; left; auto|]. apply IH; auto. intros; eapply Hrec; eauto; right; auto.
Qed.
Lemma addGeneralization_new n g : forall h a h', addGeneralization n g h a = Ok h' -> newInit h h'.
Proof.
  induction n as [|n IH]; intros h a h' H; [discriminate|]. cbn [addGeneralization] in H.
  destruct (nth_error h a) as [d|] eqn:Hd; [|discriminate].
  destruct (dKind d) as [cn ch rs|oi items ranges itemDefs gs ac v i|options od gs v i] eqn:Ek.
  - inversion H; apply newInit_refl.
  - destruct (intsContain gs g); inversion H; subst; [apply newInit_refl|]. apply newInit_upd. right. intros d0 Hd0.
    rewrite Hd in Hd0. inversion Hd0; subst. rewrite Ek. auto.
  - destruct (intsContain gs g); [inversion H; apply newInit_refl|].
    eapply newInit_trans; [|eapply forAddrs_new; eauto]. apply newInit_upd. right. intros d0 Hd0.
    rewrite Hd in Hd0. inversion Hd0; subst. rewrite Ek. auto.
Qed.
Lemma addItemDef_init x d : initK (dKind (addItemDef x d)) = initK (dKind d).
Proof. unfold addItemDef. destruct (dKind d) eqn:E; simpl; rewrite ?E; auto. Qed.
Lemma initItemsLoop_new rec a names : (forall h x h', R x -> rec h x = Ok h' -> newInit h h') ->
  forall ac h h' b, initItemsLoop m rec a names ac h = Ok (h', b) -> newInit h h'.
Proof.
  intros Hrec. induction names as [|n names IH]; intros ac h h' b H; cbn [initItemsLoop] in H; [inversion H; apply newInit_refl|].
  destruct (lookup m n) as [x|] eqn:El; [|discriminate]. binv H. apply IH in H. apply Hrec in E; [|eauto].
  refine (newInit_trans _ _ _ _ (newInit_trans _ _ _ E H)). apply newInit_upd. right. intros; apply addItemDef_init.
Qed.
Lemma initOptionsLoop_new rec gf a id names : (forall h x h', R x -> rec h x = Ok h' -> newInit h h') ->
  forall h h', initOptionsLoop m rec gf a id names h = Ok h' -> newInit h h'.
Proof.
  intros Hrec. induction names as [|n names IH]; intros h h' H; cbn [initOptionsLoop] in H; [inversion H; apply newInit_refl|].
  destruct (lookup m n) as [x|] eqn:El; [|discriminate]. binv H. binv H. apply IH in H. apply Hrec in E; [|eauto]. apply addGeneralization_new in E0.
  refine (newInit_trans _ _ _ _ (newInit_trans _ _ _ E (newInit_trans _ _ _ E0 H))). apply newInit_upd. right. intros; apply addItemDef_init.
Qed.
Lemma initDef_new n gf : forall h a h', R a -> initDef m n gf h a = Ok h' -> newInit h h'.
Proof.
  induction n as [|n IH]; intros h a h' Ra H; [discriminate|]. cbn [initDef] in H.
  destruct (nth_error h a) as [d|] eqn:Hd; [|discriminate].
  destruct (dKind d) as [cn ch rs|oi items ranges itemDefs gs ac v i|options od gs v i] eqn:Ek.
  - inversion H; apply newInit_refl.
  - destruct i; [inversion H; apply newInit_refl|]. binv H. destruct x as [h1 b]. inversion H; subst. simpl.
    apply initItemsLoop_new in E; auto.
    refine (newInit_trans _ _ _ _ (newInit_trans _ _ _ E _)); apply newInit_upd; left; auto.
  - destruct i; [inversion H; apply newInit_refl|]. apply initOptionsLoop_new in H; auto.
    refine (newInit_trans _ _ _ _ H). apply newInit_upd; left; auto.
Qed.
End ONLY.

Lemma validate_inited m n l h h' : validateAll m n l h = Ok (h', None) -> forall b, inited h' b -> inited h b.
Proof.
  intros H b (d' & Hd' & Hi). apply validateAll_spec in H. destruct H as (E & _). specialize (E b).
  destruct (nth_error h b) as [d|] eqn:Hd; [|congruence]. destruct E as (d'' & E1 & Hor). rewrite Hd' in E1. inversion E1; subst d''.
  exists d. split; auto. destruct Hor as [Hor|Hor]; rewrite Hor in Hi; auto. simpl in Hi. destruct (dKind d); auto.
Qed.

(** initialized objects that are not characters are arguments or registered *)
Lemma initCore_only m n l h h' b : initCore m n l h = Ok (h', None) -> (forall a d, nth_error h a = Some d -> unwalkedK (dKind d)) ->
  inited h' b -> isCharAt h b = false -> In b l \/ exists k, lookup m k = Some b.
Proof.
  intros H Hu Hb Hc. unfold initCore in H. binv H. destruct x as [h1 [e|]]; [discriminate|]. binv H. inversion H; subst. clear H.
  assert (Hnew : newInit (fun b => In b l \/ exists k, lookup m k = Some b) h1 h').
  { eapply forAddrs_new; eauto. intros h2 a h3 Ha Hr. eapply initDef_new; eauto. }
  destruct (Hnew b Hb) as [Hb1|]; auto. exfalso. eapply validate_inited in Hb1; eauto. destruct Hb1 as (d & Hd & Hi).
  specialize (Hu b d Hd). rewrite isCharAt_tag, Hd in Hc. destruct (dKind d); simpl in *; try discriminate.
  - destruct Hu as (_ & _ & _ & _ & ->). discriminate.
  - destruct Hu as (_ & _ & _ & ->). discriminate.
Qed.

Definition liveIn (h : dheap) (a : addr) : bool := match nth_error h a with Some d => initK (dKind d) | None => false end.
Lemma liveIn_inited h a : liveIn h a = true <-> inited h a.
Proof.
  unfold liveIn, inited. destruct (nth_error h a) as [d|]; split; try discriminate; intros.
  - eauto.
  - destruct H as (d' & E & Hi). inversion E; subst; auto.
  - destruct H as (d' & E & _). discriminate.
Qed.

(** the ranges of an object before init: none yet, or those of its normalized items *)
Definition rangeShape (d : defobj) : Prop :=
  match dKind d with
  | KSeq _ items ranges _ _ _ _ _ => ranges = [] \/ ranges = map itemRange (map normalizeItemRange items)
  | _ => True
  end.
Definition saneItem (it : seqItem) : Prop := (0 < siMax it -> siMin it <= siMax it)%Z.
Lemma saneItem_norm it : saneItem it -> saneItem (normalizeItemRange it).
Proof.
  unfold saneItem, normalizeItemRange. destruct (_ && _)%bool; simpl; [lia|].
  destruct (Z.leb_spec (siMin it) 0), (Z.leb_spec (siMax it) 0); lia.
Qed.
Definition saneObj (d : defobj) : Prop :=
  match dKind d with KSeq _ items _ _ _ _ _ _ => Forall saneItem items | _ => True end.

Section LIVE.
Variables (reg : registry) (n : nat) (kws : list addr) (root : addr) (h0 h' : dheap).
Let m := gDefinition reg.
Hypothesis Hun : forall a d, nth_error h0 a = Some d -> unwalkedK (dKind d).
Hypothesis Hreg : regInv h0 reg.
Hypothesis Hcore : initCore m n (kws ++ [root]) h0 = Ok (h', None).
Hypothesis Hargs : forall a, In a (kws ++ [root]) -> In a (gDefinitions reg).

Lemma live_map : mapOk m h0.
Proof. intros k a Hk. destruct (ri_map _ _ Hreg k a Hk) as (_ & d & Hd & _). apply nth_error_Some. congruence. Qed.
Lemma live_final : (forall b, finalAt m h0 h' b) /\ (forall a, In a (kws ++ [root]) -> inited h' a) /\ gInv h'.
Proof. pose proof (initCore_ok m h0 Hun _ _ _ _ Hcore) as H. exact H. Qed.

Let P := map toParser h'.
Let PL := restrict P (liveIn h').

Lemma live_closed : closedLive P (liveIn h') kws.
Proof.
  destruct live_final as (F & A & G). split; [|split].
  - intros a name i c items rs gs ac Ha Hn x Hx. apply liveIn_inited in Ha. apply liveIn_inited.
    destruct (final_seq _ _ _ F _ _ _ _ _ _ _ _ Hn) as (d0 & oi & its & rs0 & i1 & i2 & i3 & i4 & i5 & _ & _ & _ & _ & _ & Hor).
    destruct Hor as [(E & _)|(E & _ & _ & _ & _ & K)]; subst; [destruct Hx|]. auto.
  - intros a name i c options gs Ha Hn x Hx. apply liveIn_inited in Ha. apply liveIn_inited.
    destruct (final_choice _ _ _ F _ _ _ _ _ _ Hn) as (d0 & opts & od & g & v & i1 & _ & _ & _ & _ & _ & Hor).
    destruct Hor as [(E & _)|(E & _ & _ & K)]; subst; [destruct Hx|]. auto.
  - intros k Hk. apply liveIn_inited. apply A. apply in_or_app. auto.
Qed.
Lemma live_root : liveIn h' root = true.
Proof. destruct live_final as (F & A & G). apply liveIn_inited. apply A. apply in_or_app. right; left; auto. Qed.

(** a live object that is not a character is registered *)
Lemma live_reg a o : nth_error PL a = Some o -> nonChar o ->
  nth_error P a = Some o /\ inited h' a /\ In a (gDefinitions reg) /\
  exists d0 d', nth_error h0 a = Some d0 /\ nth_error h' a = Some d' /\ toParser d' = o /\ nodeID o = dId d0 /\ dId d' = dId d0.
Proof.
  intros H Hn. destruct live_final as (F & A & G). unfold PL in H. rewrite restrict_nth in H. destruct (nth_error P a) as [o1|] eqn:E; [|discriminate].
  simpl in H. destruct (liveIn h' a) eqn:El; [|inversion H; subst; destruct Hn]. inversion H; subst o1. clear H.
  split; auto. apply liveIn_inited in El. split; auto.
  destruct (P_nth m h0 h' F a o E) as (d0 & d' & Hd0 & Hd' & Et).
  assert (Hid : nodeID o = dId d0 /\ dId d' = dId d0 /\ isCharAt h0 a = false).
  { pose proof (F a) as Ff. unfold finalAt in Ff. rewrite Hd0 in Ff. destruct Ff as (d'' & E1 & Ff). rewrite Hd' in E1. inversion E1; subst d''.
    rewrite isCharAt_tag, Hd0. rewrite Et in Ff.
    assert (Hd : nodeID o = dId d') by (rewrite <- Et; unfold toParser; destruct (dKind d'); auto).
    destruct (dKind d0).
    - rewrite Ff in Hn. destruct Hn.
    - simpl. destruct Ff as (gs & [(_ & Ff)|(_ & _ & _ & Ff)]); rewrite Ff in *; simpl in *; auto.
    - simpl. destruct Ff as (gs & [(_ & Ff)|(_ & _ & _ & Ff)]); rewrite Ff in *; simpl in *; auto. }
  destruct Hid as (I1 & I2 & I3). split; [|eauto 10].
  destruct (initCore_only _ _ _ _ _ _ Hcore Hun El I3) as [Hin|(k & Hk)]; auto. eapply ri_map; eauto.
Qed.

Lemma live_ids : uniqueIds PL.
Proof.
  intros a b oa ob Ha Hb Na Nb E. apply live_reg in Ha; auto. apply live_reg in Hb; auto.
  destruct Ha as (_ & _ & Ra & da & _ & Da & _ & _ & Ia & _). destruct Hb as (_ & _ & Rb & db & _ & Db & _ & _ & Ib & _).
  apply In_nth_error in Ra. destruct Ra as [i Hi]. apply In_nth_error in Rb. destruct Rb as [j Hj].
  destruct (ri_defs _ _ Hreg i a Hi) as (d & Hd & Ei & _). destruct (ri_defs _ _ Hreg j b Hj) as (d2 & Hd2 & Ej & _).
  assert (i = j) by congruence. congruence.
Qed.

Lemma gp_generalizes x a : gp h' x a -> generalizes PL x a /\ nonChar (PChoice ""%string 0 0%N [] []) /\ inited h' x.
Proof.
  destruct live_final as (F & A & G).
  assert (Hst : forall x d y, nth_error h' x = Some d -> In y (odOf (dKind d)) ->
     exists name id c options gs, nth_error PL x = Some (PChoice name id c options gs) /\ In y options /\ inited h' x).
  { intros x0 d y Hd Hy.
    assert (Hp : nth_error P x0 = Some (toParser d)) by (unfold P; rewrite nth_error_map', Hd; auto).
    unfold toParser in Hp. destruct (dKind d) as [| |opts od gs v i] eqn:Ek; simpl in Hy; try (destruct Hy; fail).
    destruct (final_choice _ _ _ F _ _ _ _ _ _ Hp) as (d0 & opts0 & od0 & g0 & v0 & i0 & _ & _ & _ & _ & _ & [(E & _)|(_ & Ei & _)]).
    - rewrite E in Hy. destruct Hy.
    - exists (dName d), (dId d), (dCommit d), od, gs. split; [|auto]. unfold PL. rewrite restrict_live; auto. apply liveIn_inited; auto. }
  induction 1 as [x d a Hd Ha|x d y a Hd Hy Hg IH].
  - destruct (Hst x d a Hd Ha) as (nm & id & c & os & gs & E & Hin & Hi). split; [|split; [exact I|auto]]. eapply gz_option; eauto.
  - destruct (Hst x d y Hd Hy) as (nm & id & c & os & gs & E & Hin & Hi). destruct IH as (IH & _).
    split; [|split; [exact I|auto]]. eapply gz_trans; eauto.
Qed.
Lemma live_gens : gensOk PL.
Proof.
  destruct live_final as (F & A & G).
  intros a oa x ox Ha Hx Nx Hin.
  assert (Na : nonChar oa) by (destruct oa; simpl in *; auto).
  pose proof Ha as Ha'. apply live_reg in Ha'; auto. destruct Ha' as (Pa & La & Ra & d0 & d' & Hd0 & Hd' & Et & _).
  assert (Hg : In (nodeID ox) (gensK (dKind d'))) by (rewrite <- Et in Hin; unfold toParser in Hin; destruct (dKind d'); auto).
  destruct (G a d' _ Hd' Hg) as (y & dy & Hy & Ey & Hgp). destruct (gp_generalizes _ _ Hgp) as (Hz & _ & Ly).
  assert (x = y); [|subst; auto].
  assert (exists oy, nth_error PL y = Some oy /\ nonChar oy) as (oy & Oy & Ny) by (inversion Hz; subst; eexists; split; eauto; exact I).
  eapply live_ids; eauto. apply live_reg in Oy; auto. destruct Oy as (_ & _ & _ & d1 & d2 & _ & D2 & _ & E1 & E2).
  rewrite Hy in D2. inversion D2; subst. congruence.
Qed.
Lemma live_ranges : (forall a d, nth_error h0 a = Some d -> inited h' a -> saneObj d /\ rangeShape d) -> rangesOk PL.
Proof.
  intros Hs a name id commit items ranges gs ac mn mx Ha Hin. destruct live_final as (F & A & G).
  apply restrict_seq in Ha. destruct Ha as [Ha Hl]. apply liveIn_inited in Hl.
  destruct (final_seq _ _ _ F _ _ _ _ _ _ _ _ Ha) as (d0 & oi & its & rs & i1 & i2 & i3 & i4 & i5 & Hd0 & Ek & _ & _ & _ & Hor).
  destruct (Hs a d0 Hd0 Hl) as [S1 S2]. unfold saneObj, rangeShape in *. rewrite Ek in *.
  assert (Hn : forall r, In r (map itemRange (map normalizeItemRange its)) -> (0 < snd r -> fst r <= snd r)%Z).
  { intros r Hr. rewrite map_map in Hr. apply in_map_iff in Hr. destruct Hr as (it & <- & Hit). rewrite Forall_forall in S1.
    apply S1, saneItem_norm in Hit. auto. }
  assert (In (mn, mx) (map itemRange (map normalizeItemRange its))).
  { destruct Hor as [(_ & -> & _ & N)|(_ & -> & _)]; [contradiction|]. apply in_app_or in Hin. destruct Hin; auto.
    destruct S2 as [-> | ->]; [destruct H|auto]. }
  apply (Hn (mn, mx)); auto.
Qed.
Lemma live_parseInput fuel input e : parseInput P kws root fuel input e = parseInput PL kws root fuel input e.
Proof. apply parseInput_restrict; [apply live_closed|apply live_root]. Qed.
End LIVE.
