(** From definition calls to the language of Parse, with whitespace definitions. *)
From Verif Require Import Base Utf8 IdSet Results Parser Build Syntax ListFacts ResultsFacts ParseFacts TermFacts NoPanic Lang Sound RunFacts Restrict Grammar WsLang ApiSpec InitWalk InitRun InitOk SyntaxFacts InitCore InitSpec InitFuel Rep Live LangGen Api WsObjs WsGen WsShape WsNames WsDistinct Utf8Facts.

(** ** the registry built from the rewritten definitions *)
Lemma setID_same i d : dName (setID i d) = dName d /\ dKind (setID i d) = dKind d /\ dCommit (setID i d) = dCommit d.
Proof. destruct d; auto. Qed.
Lemma newRegistryLoop_all : forall D O h r h' r', objsAt h D O -> NoDup D -> NoDup (map dName O) ->
  (forall o, In o O -> lookup (gDefinition r) (dName o) = None) ->
  newRegistryLoop h r D = (h', r') ->
  gDefinitions r' = gDefinitions r ++ D /\
  (forall a d, nth_error h a = Some d -> exists i, nth_error h' a = Some (setID i d)) /\ List.length h' = List.length h.
Proof.
  intros D O. revert D. induction O as [|o O IH]; intros D h r h' r' HO Hd Hn Hf H; inversion HO as [|a o' D0 O0 Ha HD]; subst; cbn [newRegistryLoop] in H.
  - inversion H; subst. rewrite app_nil_r. split; auto. split; auto. intros a d Ha. exists (dId d). destruct d; auto.
  - unfold setDefinition in H. rewrite Ha, (Hf o) in H by (left; auto). inversion Hd; subst. inversion Hn; subst.
    apply IH in H; auto.
    + destruct H as (H1' & H2' & H3'). cbn [gDefinitions] in H1'. rewrite <- app_assoc in H1'. split; auto. rewrite updNth_length in H3'. split; auto.
      intros b d Hb. destruct (Nat.eq_dec a b) as [->|Hne].
      * destruct (H2' b (setID (S (gIdSeed r)) d)) as (i & Hi). { rewrite nth_error_updNth, Nat.eqb_refl, Hb. auto. }
        exists i. rewrite Hi. destruct d; auto.
      * apply H2'. rewrite nth_error_updNth. destruct (Nat.eqb_spec a b); [congruence|auto].
    + apply (objsAt_ext h); auto. intros b Hb. rewrite nth_error_updNth. destruct (Nat.eqb_spec a b); [subst; contradiction|auto].
    + intros o1 Ho1. cbn [gDefinition lookup]. destruct (String.eqb_spec (dName o) (dName o1)) as [E|].
      * exfalso. apply H4. rewrite E. apply in_map; auto.
      * apply Hf. right; auto.
Qed.

(** the rules seen through a registry that holds exactly the listed objects *)
Lemma heapRule_reg h h' D O reg : objsAt h D O -> NoDup (map dName O) -> regInv h' reg -> gDefinitions reg = D ->
  (forall a d, nth_error h a = Some d -> exists i, nth_error h' a = Some (setID i d)) ->
  forall nm, heapRule (gDefinition reg) h' nm = ruleIn (map objPair O) nm.
Proof.
  intros HO Hn [I1 I2 I3 I4] Hg Hh nm. unfold heapRule. destruct (lookup (gDefinition reg) nm) as [a|] eqn:El.
  - destruct (I4 nm a El) as (Hin & d & Hd & En). rewrite Hg in Hin. destruct (objsAt_addr _ _ _ _ HO Hin) as (o & Ho & Hao).
    destruct (Hh a o Hao) as (i & Hi). rewrite Hi in Hd. inversion Hd; subst d. rewrite Hi. rewrite <- En, (proj1 (setID_same i o)). rewrite ruleIn_In; auto.
  - destruct (ruleIn (map objPair O) nm) as [r|] eqn:Er; auto. exfalso. apply ruleIn_inv in Er. destruct Er as (o & Ho & En & _).
    destruct (objsAt_In _ _ _ _ HO Ho) as (a & Ha & Hao). rewrite <- Hg in Ha. apply In_nth_error in Ha. destruct Ha as [i Hi].
    destruct (I3 i a Hi) as (d & Hd & _ & Hl). destruct (Hh a o Hao) as (j & Hj). rewrite Hj in Hd. inversion Hd; subst d. rewrite (proj1 (setID_same j o)) in Hl. congruence.
Qed.

(** ** the objects after preinit *)
Lemma preinit_same d : dName (preinit d) = dName d /\ dId (preinit d) = dId d /\ dCommit (preinit d) = dCommit d /\ isCharK (dKind (preinit d)) = isCharK (dKind d).
Proof. unfold preinit, initRanges. destruct (dKind d) eqn:E; simpl; rewrite ?E; auto. Qed.
Lemma normal_norm it : normal (normalizeItemRange it).
Proof.
  unfold normal, normalizeItemRange. destruct (Z.eqb_spec (siMin it) 0), (Z.eqb_spec (siMax it) 0); simpl;
    try destruct (Z.leb_spec (siMin it) 0); try destruct (Z.leb_spec (siMax it) 0); simpl; lia.
Qed.
Lemma preinit_normal d oi items rs a1 a2 a3 a4 a5 : dKind (preinit d) = KSeq oi items rs a1 a2 a3 a4 a5 -> Forall normal items.
Proof.
  unfold preinit, initRanges. destruct (dKind d) eqn:E; simpl; rewrite ?E; try discriminate. intros H; inversion H; subst.
  apply Forall_forall. intros it Hit. apply in_map_iff in Hit. destruct Hit as (x & <- & _). apply normal_norm.
Qed.
Lemma preinit_refs d : refsOf (preinit d) = refsOf d.
Proof.
  unfold refsOf, preinit, initRanges. destruct (dKind d) eqn:E; simpl; rewrite ?E; auto. rewrite map_map. apply map_ext. intros; apply siName_norm.
Qed.
Lemma preinit_shape d : freshK (dKind d) -> rangeShape (preinit d).
Proof.
  intros [_ Hf]. unfold rangeShape, preinit, initRanges. destruct (dKind d) eqn:Ek; simpl; rewrite ?Ek; auto. destruct Hf as [_ ->]. simpl. right. rewrite !map_map. apply map_ext. intros it.
  unfold itemRange, normalizeItemRange. destruct (Z.eqb_spec (siMin it) 0), (Z.eqb_spec (siMax it) 0); simpl; auto;
    destruct (Z.leb_spec (siMin it) 0), (Z.leb_spec (siMax it) 0); simpl; auto;
    repeat match goal with |- context [Z.eqb ?a ?b] => destruct (Z.eqb_spec a b); try lia; simpl end;
    repeat match goal with |- context [Z.leb ?a ?b] => destruct (Z.leb_spec a b); try lia; simpl end; auto; lia.
Qed.

(** ** shapes of the rewritten objects *)
Lemma wsItems_sane nm items : Forall saneItem items -> forall i,
  Forall saneItem (snd (wsItems nm i items)) /\ forall o, In o (fst (wsItems nm i items)) -> saneObj o.
Proof.
  induction 1 as [|it items Hs H IH]; intros i; cbn [wsItems]; [split; [constructor|intros o []]|].
  destruct (wsItems nm (S i) items) as [defs rest] eqn:E. specialize (IH (S i)). rewrite E in IH. simpl in IH. destruct IH as [IH1 IH2].
  assert (Hws : Forall saneItem (if (0 <? i)%nat then [whitespaceItem] else [])) by (destruct (0 <? i)%nat; constructor; auto; unfold saneItem; simpl; lia).
  assert (H1 : saneItem (mkItem (siName it) 1 1)) by (unfold saneItem; simpl; lia).
  assert (Hw1 : saneItem whitespaceItem) by (unfold saneItem; simpl; lia).
  destruct (Z.eqb_spec (siMax it) 1).
  - simpl. split; auto. apply Forall_app. split; auto.
  - set (restI := mkItem _ (if (0 <? siMin it)%Z then _ else _) _).
    assert (Hri : saneItem restI).
    { unfold saneItem in *. simpl. destruct (Z.ltb_spec 0 (siMin it)), (Z.ltb_spec 1 (siMax it)); lia. }
    destruct (0 <? siMin it)%Z; simpl.
    + split; [apply Forall_app; split; auto|]. intros o [<-|Ho]; auto. unfold saneObj; simpl. auto.
    + split; [constructor; auto; unfold saneItem; simpl; lia|].
      intros o [<-|[<-|Ho]]; auto; unfold saneObj; simpl; auto. apply Forall_app. split; auto.
Qed.
Lemma rewritten_sane l rt : In rt (flat_map rw (filter (fun d => negb (isWs d)) l)) -> (forall o, In o l -> saneObj o) -> forall o, In o (rewritten l rt) -> saneObj o.
Proof.
  intros Hrt Hs. assert (Hrw : forall o, In o (flat_map rw (filter (fun d => negb (isWs d)) l)) -> saneObj o).
  { intros o Ho. apply in_flat_map in Ho. destruct Ho as (x & Hx & Ho). apply filter_In in Hx. destruct Hx as [Hx _]. destruct (keeps x) eqn:Ek.
    - rewrite rw_keeps in Ho by auto. destruct Ho as [<-|[]]; auto.
    - destruct (rw_seq x Ek) as (oi & items & rs & a1 & a2 & a3 & a4 & a5 & E & _ & Er). rewrite Er in Ho.
      pose proof (Hs x Hx) as H. unfold saneObj in H. rewrite E in H. destruct (wsItems_sane (dName x) items H 0) as [H1 H2].
      apply in_app_or in Ho. destruct Ho as [Ho|[<-|[]]]; auto. }
  intros o Ho. unfold rewritten in Ho. apply in_app_or in Ho. destruct Ho as [Ho|Ho]; [apply filter_In in Ho; apply Hrw; tauto|].
  apply in_app_or in Ho. destruct Ho as [Ho|[<-|[<-|[<-|[]]]]].
  - apply in_map_iff in Ho. destruct Ho as (x & <- & Hx). apply filter_In in Hx. pose proof (Hs x (proj1 Hx)) as H. unfold saneObj in *.
    unfold aliased. rewrite (proj1 (setCommit_kind _ _)). auto.
  - exact I.
  - unfold saneObj. rewrite (proj2 (wsrooted_name rt)). apply Hrw; auto.
  - unfold saneObj; simpl. assert (saneItem whitespaceItem) by (unfold saneItem; simpl; lia). constructor; auto. constructor; auto. unfold saneItem; simpl; lia.
Qed.
Lemma rw_shape x o : rangeShape x -> In o (rw x) -> rangeShape o.
Proof.
  intros Hx Ho. destruct (keeps x) eqn:Ek.
  - rewrite rw_keeps in Ho by auto. destruct Ho as [<-|[]]; auto.
  - destruct (rw_seq x Ek) as (oi & items & rs & a1 & a2 & a3 & a4 & a5 & E & _ & Er). rewrite Er in Ho.
    apply in_app_or in Ho. destruct Ho as [Ho|[<-|[]]].
    + apply wsItems_alias in Ho. destruct Ho as [_ (its & ->)]. left; auto.
    + left; auto.
Qed.
Lemma rewritten_shape l rt : In rt (flat_map rw (filter (fun d => negb (isWs d)) l)) -> (forall o, In o l -> rangeShape o) -> forall o, In o (rewritten l rt) -> rangeShape o.
Proof.
  intros Hrt Hs. assert (Hrw : forall o, In o (flat_map rw (filter (fun d => negb (isWs d)) l)) -> rangeShape o).
  { intros o Ho. apply in_flat_map in Ho. destruct Ho as (x & Hx & Ho). apply filter_In in Hx. eapply rw_shape; [|exact Ho]. apply Hs; tauto. }
  intros o Ho. unfold rewritten in Ho. apply in_app_or in Ho. destruct Ho as [Ho|Ho]; [apply filter_In in Ho; apply Hrw; tauto|].
  apply in_app_or in Ho. destruct Ho as [Ho|[<-|[<-|[<-|[]]]]].
  - apply in_map_iff in Ho. destruct Ho as (x & <- & Hx). apply filter_In in Hx. pose proof (Hs x (proj1 Hx)) as H. unfold rangeShape in *.
    unfold aliased. rewrite (proj1 (setCommit_kind _ _)). auto.
  - exact I.
  - unfold rangeShape. rewrite (proj2 (wsrooted_name rt)). apply Hrw; auto.
  - left; auto.
Qed.

(** ** the root *)
Lemma filter_rw o : filter rootFlag (rw o) = if rootFlag o then [main o] else [].
Proof.
  destruct (keeps o) eqn:Ek.
  - rewrite rw_keeps by auto. simpl. assert (main o = o) as ->.
    { unfold main, keeps in *. destruct (dKind o) eqn:E; auto. rewrite Ek. auto. }
    destruct (rootFlag o); auto.
  - destruct (rw_seq o Ek) as (oi & items & rs & a1 & a2 & a3 & a4 & a5 & E & Hf & Er). rewrite Er, filter_app.
    assert (filter rootFlag (fst (wsItems (dName o) 0 items)) = []) as ->.
    { assert (Hg : forall l, (forall x, In x l -> rootFlag x = false) -> filter rootFlag l = []).
      { induction l as [|y l IH]; intros H; simpl; auto. rewrite H by (left; auto). apply IH. intros; apply H; right; auto. }
      apply Hg. intros x Hx. apply wsItems_alias in Hx. unfold rootFlag. destruct Hx as [-> _]. auto. }
    simpl. change (rootFlag (newSequence (dName o) (dCommit o) (snd (wsItems (dName o) 0 items)))) with (rootFlag o). unfold main. rewrite E, Hf. auto.
Qed.
Lemma filter_flat_rw l : filter rootFlag (flat_map rw l) = map main (filter rootFlag l).
Proof. induction l as [|o l IH]; simpl; auto. rewrite filter_app, filter_rw, IH. destruct (rootFlag o); auto. Qed.
Lemma filter_one {A} (f : A -> bool) : forall l i x, nth_error l i = Some x -> f x = true -> (forall j y, nth_error l j = Some y -> f y = true -> j = i) -> filter f l = [x].
Proof.
  intros l. assert (Hnil : forall l, (forall j y, nth_error l j = Some y -> f y = false) -> filter f l = []).
  { clear. induction l as [|y l IH]; intros H; simpl; auto. rewrite (H 0 y eq_refl). apply IH. intros j z Hj. apply (H (S j) z Hj). }
  induction l as [|y l IH]; intros i x Hi Hx Hu; [destruct i; discriminate|]. destruct i as [|i]; simpl in *.
  - inversion Hi; subst y. rewrite Hx. f_equal. apply Hnil. intros j z Hj. destruct (f z) eqn:E; auto. specialize (Hu (S j) z Hj E). discriminate.
  - destruct (f y) eqn:E; [specialize (Hu 0 y eq_refl E); discriminate|]. apply (IH i); auto. intros j z Hj Hz. specialize (Hu (S j) z Hj Hz). lia.
Qed.
Lemma filter_comm {A} (f g : A -> bool) l : filter f (filter g l) = filter g (filter f l).
Proof. induction l as [|x l IH]; simpl; auto. destruct (f x) eqn:E1, (g x) eqn:E2; simpl; rewrite ?E1, ?E2, IH; auto. Qed.

(** ** the calls *)
(** names from which the names of the definitions generated for whitespace can be told apart: a
    symbol without colon, followed by numbers (of nested expressions), the symbols not being
    numbers themselves if any name is nested *)
Definition properNames (calls : list defcall) : Prop :=
  (forall d, In d calls -> exists c, comps (callName d) c) /\ tellable (fun n => exists d, In d calls /\ callName d = n).
(** keyword definitions are literals, choices, or flagged nows *)
Lemma rawAll_dinv : forall calls s s' e, dinv s -> rawAll s calls = (s', e) -> dinv s'.
Proof.
  induction calls as [|d calls IH]; intros s s' e Hd H; simpl in H; [inversion H; subst; auto|].
  destruct (defineRaw s d) as [s1 [e1|]] eqn:E; pose proof (defineRaw_dinv _ _ _ _ Hd E); [inversion H; subst; auto|eauto].
Qed.
Lemma comps_child n i c : comps n c -> comps (childName n i) (c ++ [itoaNat i]).
Proof.
  intros Hc. pose proof (comps_free _ _ Hc) as [Hne _]. destruct Hc as (x & ds & -> & -> & H1 & H2). exists x, (ds ++ [itoaNat i]). split; [auto|]. split; [|split; auto].
  - rewrite cat_app; [|auto|discriminate]. reflexivity.
  - apply Forall_app. split; auto. constructor; auto. exists i; auto.
Qed.
Lemma tellable_sub (P Q : string -> Prop) : (forall n, Q n -> P n) -> tellable P -> tellable Q.
Proof. intros H [H1|H1]; [left|right]; [eauto|]. intros n l Hq Hc. apply (H1 n l); auto. Qed.
Lemma callObjs_names d o : In o (callObjs d) -> dName o = callName d \/ (isCharK (dKind o) = true /\ exists i, dName o = childName (callName d) i).
Proof.
  destruct d as [nm ct|nm ct cn ch rs|nm ct chars|nm ct items|nm ct opts]; simpl; intros H.
  - destruct H as [<-|[<-|[]]]; [right; split; [auto|exists 0; auto]|left; auto].
  - destruct H as [<-|[<-|[]]]; [right; split; [auto|exists 0; auto]|left; auto].
  - apply in_app_or in H. destruct H as [H|[<-|[]]]; auto. apply in_map_iff in H. destruct H as (x & <- & _). right. split; [auto|eexists; reflexivity].
  - destruct H as [<-|[]]; auto.
  - destruct H as [<-|[]]; auto.
Qed.
Lemma callObjs_keeps d o : In o (callObjs d) -> hasFlag (dCommit o) CKeyword = true -> isWs o = false ->
  (match d with DCharSequence _ _ _ => True | DChoice _ _ _ => True | _ => hasFlag (callFlags d) CNoWhitespace = true end) -> keeps o = true.
Proof.
  unfold keeps. destruct d as [nm ct|nm ct cn ch rs|nm ct chars|nm ct items|nm ct opts]; simpl; intros H Hk Hw Hp.
  - destruct H as [<-|[<-|[]]]; simpl; auto.
  - destruct H as [<-|[<-|[]]]; simpl; auto.
  - apply in_app_or in H. destruct H as [H|[<-|[]]].
    + apply in_map_iff in H. destruct H as (x & <- & _). auto.
    + simpl. change CNoWhitespace with (2 ^ 3)%N. rewrite hasFlag_bit, N.lor_spec, N.pow2_bits_true. apply orb_true_r.
  - destruct H as [<-|[]]; auto.
  - destruct H as [<-|[]]; auto.
Qed.
Lemma ruleIn_some l n : ruleIn l n <> None -> In n (map fst l).
Proof.
  induction l as [|[k r] l IH]; simpl; [congruence|]. destruct (String.eqb_spec k n); auto.
Qed.
Lemma some_ruleIn l n : In n (map fst l) -> ruleIn l n <> None.
Proof.
  induction l as [|[k r] l IH]; simpl; [intros []|]. destruct (String.eqb_spec k n); [discriminate|]. intros [E|H]; [congruence|auto].
Qed.
Lemma grammar_names calls n : grammarOf calls n <> None <-> In n (map dName (flat_map callObjs calls)).
Proof.
  unfold grammarOf. pose proof (ruleIn_same _ _ n (callsRules_same calls)) as H.
  assert (E : map dName (flat_map callObjs calls) = map fst (map objPair (flat_map callObjs calls))) by (rewrite map_map; auto). rewrite E.
  destruct (ruleIn (map objPair (flat_map callObjs calls)) n) as [a|] eqn:E1, (ruleIn (flat_map callRules calls) n) as [b|] eqn:E2; simpl in H; try contradiction.
  - split; [|discriminate]. intros _. apply ruleIn_some. congruence.
  - split; [congruence|]. intros Hi. apply some_ruleIn in Hi. congruence.
Qed.
Lemma callObjs_refs calls d o x : allDefined calls -> In d calls -> In o (callObjs d) -> In x (refsOf o) -> In x (map dName (flat_map callObjs calls)).
Proof.
  intros Ha Hd Ho Hx. assert (Hin : forall o', In o' (callObjs d) -> In (dName o') (map dName (flat_map callObjs calls))) by (intros; apply in_map, in_flat_map; eauto).
  pose proof (Ha d Hd) as Had. destruct d as [nm ct|nm ct cn ch rs|nm ct chars|nm ct items|nm ct opts]; simpl in Ho.
  - destruct Ho as [<-|[<-|[]]]; simpl in Hx; [destruct Hx|]. destruct Hx as [<-|[]]. apply (Hin (newChar (childName nm 0) true [] [])). left; auto.
  - destruct Ho as [<-|[<-|[]]]; simpl in Hx; [destruct Hx|]. destruct Hx as [<-|[]]. apply (Hin (newChar (childName nm 0) cn ch rs)). left; auto.
  - apply in_app_or in Ho. destruct Ho as [Ho|[<-|[]]].
    + apply in_map_iff in Ho. destruct Ho as (y & <- & _). destruct Hx.
    + simpl in Hx. unfold namesToSequenceItems in Hx. rewrite map_map in Hx. simpl in Hx. apply in_map_iff in Hx. destruct Hx as (y & <- & Hx). apply in_map_iff in Hx. destruct Hx as (i & <- & Hi).
      apply in_seq in Hi. destruct (nth_error chars i) as [c|] eqn:Ec; [|apply nth_error_None in Ec; lia].
      apply (Hin (newChar (childName nm i) false [c] [])). simpl. apply in_or_app. left. apply in_map_iff. exists (i, c). split; auto.
      eapply nth_error_In. apply (nth_combine_seq chars i 0 c Ec).
  - destruct Ho as [<-|[]]. simpl in Hx. apply in_map_iff in Hx. destruct Hx as (it & <- & Hit). apply grammar_names. apply Had; auto.
  - destruct Ho as [<-|[]]. simpl in Hx. apply grammar_names. apply Had; auto.
Qed.
Lemma filter_none {A} (f : A -> bool) l : (forall x, In x l -> f x = false) -> filter f l = [].
Proof. induction l as [|y l IH]; intros H; simpl; auto. rewrite H by (left; auto). apply IH. intros; apply H; right; auto. Qed.
Lemma ws_names calls : map dName (filter isWs (flat_map callObjs calls)) = whitespaceNames calls.
Proof.
  unfold whitespaceNames. induction calls as [|d calls IH]; simpl; auto. rewrite filter_app, map_app, IH.
  destruct (callObjs_split d) as (chs & o & Ec & Hc & En & _ & _ & Ew & _). rewrite Ec, filter_app, (filter_none isWs chs) by (intros c Hcc; apply Hc in Hcc; apply Hcc).
  simpl. unfold isWs at 1. rewrite Ew. destruct (hasFlag (callFlags d) CWhitespace); simpl; congruence.
Qed.

Lemma ws_incompat d c : checkCommitType d = None -> In c [CKeyword; CNoKeyword; CFailPass; CRoot] -> hasFlag (dCommit d) CWhitespace = true -> hasFlag (dCommit d) c = false.
Proof. intros H. apply (checkCommitTypeIn_none _ _ H CWhitespace). right; left; auto. Qed.
Lemma kw_incompat d c : checkCommitType d = None -> In c [CNoKeyword; CRoot] -> hasFlag (dCommit d) CKeyword = true -> hasFlag (dCommit d) c = false.
Proof. intros H. apply (checkCommitTypeIn_none _ _ H CKeyword). right; right; left; auto. Qed.

Lemma rewritten_alias l rt o : In o (rewritten l rt) -> ruleAlias (objRule o) = false ->
  dName o = dName rt \/ exists o', In o' l /\ isWs o' = false /\ dName o' = dName o /\ ruleAlias (objRule o') = false.
Proof.
  intros Ho Ha. unfold rewritten in Ho. apply in_app_or in Ho. destruct Ho as [Ho|Ho].
  - apply filter_In in Ho. destruct Ho as [Ho _]. apply in_flat_map in Ho. destruct Ho as (x & Hx & Ho). apply filter_In in Hx. destruct Hx as [Hx Hw].
    apply Bool.negb_true_iff in Hw. right. destruct (keeps x) eqn:Ek.
    + rewrite rw_keeps in Ho by auto. destruct Ho as [<-|[]]. eauto.
    + destruct (rw_seq x Ek) as (oi & items & rs & a1 & a2 & a3 & a4 & a5 & K1 & K2 & K3). rewrite K3 in Ho. apply in_app_or in Ho. destruct Ho as [Ho|[<-|[]]].
      * apply wsItems_alias in Ho. destruct Ho as [_ (its & E)]. rewrite E in Ha. discriminate.
      * exists x. repeat (split; auto). unfold objRule in *. rewrite K1. exact Ha.
  - apply in_app_or in Ho. destruct Ho as [Ho|Ho].
    + exfalso. apply in_map_iff in Ho. destruct Ho as (x & <- & _). unfold aliased, setCommitType, objRule in Ha.
      assert (X : forall c, hasFlag (N.lor c CAlias) CAlias = true).
      { intros c. change CAlias with (2 ^ 1)%N. rewrite hasFlag_bit, N.lor_spec, N.pow2_bits_true. apply orb_true_r. }
      destruct (dKind x) eqn:E; simpl in Ha; rewrite ?E in Ha; simpl in Ha; rewrite ?X in Ha; discriminate.
    + destruct Ho as [<-|[<-|[<-|[]]]]; [discriminate| |left; auto]. exfalso. unfold wsrooted, setCommitType, objRule in Ha.
      assert (X : forall c, hasFlag (N.lor c CAlias) CAlias = true).
      { intros c. change CAlias with (2 ^ 1)%N. rewrite hasFlag_bit, N.lor_spec, N.pow2_bits_true. apply orb_true_r. }
      simpl in Ha. destruct (dKind rt) eqn:E; simpl in Ha; rewrite ?E in Ha; simpl in Ha; rewrite ?X in Ha; discriminate.
Qed.

Theorem setup_raw_ws calls s fuel s' : rawAll emptySyntax calls = (s, None) -> hasWhitespaceDef calls -> allDefined calls -> properNames calls -> keywordsPlain calls ->
  Init fuel s = Ok (s', None) ->
  exists PL root name R1, sRoot s' = Some root /\ rootName calls = Some name /\
    liveParsers (parsers s') (sKeywords s') root PL /\
    apiOk R1 name PL (sKeywords s') root /\
    (forall K n w, grammarOf calls n <> None -> (gen R1 K n w <-> wgen (grammarOf calls) K (whitespaceNames calls) name n w)) /\
    (sensibleRanges calls -> rangesOk PL) /\
    kwsOk calls PL (sKeywords s') /\
    grammarOf calls name <> None /\
    (forall n r, R1 n = Some r -> ruleAlias r = false -> visible calls n) /\
    (exists R0, (forall n, sameOpt (R0 n) (grammarOf calls n)) /\ wsShape R0 (whitespaceNames calls) name (patchName [name; "wsroot"%string]) R1).
Proof.
  intros Hdef Hws Hall [Hnm Htl] Hkp HI. pose proof (rep_rawAll calls [] _ _ rep_empty Hdef) as Hr. simpl in Hr. set (objs := flat_map callObjs calls) in *.
  pose proof (rawAll_dinv _ _ _ _ dinv_empty Hdef) as Hdinv.
  pose proof Hr as [R1 R2 R3 R4 R5 R6 R7 R8 R9 R10 R11].
  rewrite Init_split, R1, R2 in HI.
  destruct (sRoot s) as [root|] eqn:Er; [|discriminate]. destruct (nth_error (sHeap s) root) as [rd|] eqn:Ed; [|discriminate].
  destruct (sRegistry s) as [reg|] eqn:Eg; [|discriminate]. destruct (checkCommitType rd) eqn:Ecc; [discriminate|].
  assert (Ereg : regOf s = reg) by (unfold regOf; rewrite Eg; auto). rewrite Ereg in *.
  binv HI. destruct x as [[h0 reg1] root1]. binv HI. destruct x as [h' [e|]]; [discriminate|]. inversion HI; subst s'. clear HI. cbn [sRoot sKeywords] in *.
  assert (Hrl : root < List.length (sHeap s)) by (apply nth_error_Some; congruence).
  destruct (prepare_spec _ _ _ _ _ _ Hdinv Eg Hrl E) as (Pun & Pmap & Proot & Pkw).
  unfold prepare in E. rewrite R6, <- R3, preinitAll_map in E.
  set (l := map preinit (sHeap s)) in *.
  assert (Hlen : List.length (sHeap s) = List.length l) by (unfold l; rewrite map_length; auto).
  (* correspondence of l and objs *)
  assert (Hobj : forall a d, nth_error l a = Some d -> exists o d0, nth_error objs a = Some o /\ nth_error (sHeap s) a = Some d0 /\ d = preinit d0 /\ dName d = dName o /\
     dKind d0 = dKind o /\ sameBut [7%N] (dCommit o) (dCommit d) /\ (rootFlag d = true <-> root = a) /\ dId d = S a).
  { intros a d Hd. unfold l in Hd. rewrite nth_error_map' in Hd. destruct (nth_error (sHeap s) a) as [d0|] eqn:Hd0; [|discriminate]. simpl in Hd. inversion Hd; subst d.
    destruct (nth_error objs a) as [o|] eqn:Eo; [|apply nth_error_None in Eo; assert (a < List.length (sHeap s)) by (apply nth_error_Some; congruence); lia].
    destruct (R4 a o Eo) as (d1 & Hd1 & N1 & N2 & N3 & N4 & N5). exists o, d0. rewrite Hd0 in Hd1. inversion Hd1; subst d1.
    destruct (preinit_same d0) as (Q1 & Q2 & Q3 & Q4). unfold rootFlag. rewrite Q1, Q2, Q3. repeat (split; [auto; fail|]).
    destruct (isCharK (dKind o)) eqn:Ek.
    - rewrite N4 by auto. split; [apply sameBut_refl|]. split; [|auto]. pose proof (R5 o (nth_error_In _ _ Eo)) as (_ & _ & Hc). rewrite (Hc Ek). split; [discriminate|]. intros ->.
      destruct (root_name calls a) as (o1 & Ho1 & _ & Hc1); [fold objs; rewrite <- R9; auto|]. fold objs in Ho1. congruence.
    - destruct (N5 eq_refl) as [S1 S2]. split; auto. split; [|auto]. rewrite S2. split; [intros H; inversion H; auto|intros ->; auto]. }
  assert (HobjN : forall o, In o l -> exists o' d0, In o' objs /\ o = preinit d0 /\ dName o = dName o' /\ dKind d0 = dKind o' /\ sameBut [7%N] (dCommit o') (dCommit o)).
  { intros o Ho. apply In_nth_error in Ho. destruct Ho as [a Ha]. destruct (Hobj a o Ha) as (o' & d0 & H1 & H2 & H3 & H4 & H5 & H6 & _).
    exists o', d0. split; [eapply nth_error_In; eauto|auto]. }
  assert (Hfl : forall o o' k, sameBut [7%N] (dCommit o') (dCommit o) -> k <> 7%N -> hasFlag (dCommit o) (2 ^ k)%N = hasFlag (dCommit o') (2 ^ k)%N).
  { intros o o' k Hs Hk. apply (sameBut_flag [7%N]); auto. intros [H|[]]. congruence. }
  assert (Enames : map dName l = map dName objs /\ map dName (filter isWs l) = map dName (filter isWs objs)).
  { assert (Hg : forall l1 l2, List.length l1 = List.length l2 -> (forall a d, nth_error l1 a = Some d -> exists o, nth_error l2 a = Some o /\ dName d = dName o /\ isWs d = isWs o) ->
      map dName l1 = map dName l2 /\ map dName (filter isWs l1) = map dName (filter isWs l2)).
    { clear. induction l1 as [|x l1 IH]; intros [|y l2] Hl H; try discriminate; auto. destruct (H 0 x eq_refl) as (o & Ho & H1 & H2). simpl in Ho. inversion Ho; subst o.
      destruct (IH l2) as [I1 I2]; [simpl in Hl; lia|intros a d Ha; apply (H (S a) d Ha)|]. simpl. rewrite H2. split; [congruence|]. destruct (isWs y); simpl; congruence. }
    apply Hg; [congruence|]. intros a d Ha. destruct (Hobj a d Ha) as (o & d0 & H1 & H2 & H3 & H4 & H5 & H6 & _). exists o. split; auto. split; auto.
    apply (Hfl d o 2%N); auto. discriminate. }
  destruct Enames as [En1 En2].
  (* the root *)
  assert (Hlr : nth_error l root = Some (preinit rd)) by (unfold l; rewrite nth_error_map', Ed; auto).
  destruct (Hobj root _ Hlr) as (ro & rd0 & Hro & Hrd0 & Erd & Hron & Hrok & Hros & Hrf & _). rewrite Ed in Hrd0. inversion Hrd0; subst rd0. clear Hrd0 Erd.
  assert (Hrft : rootFlag (preinit rd) = true) by (apply Hrf; auto).
  assert (Hrws : isWs (preinit rd) = false).
  { unfold isWs. rewrite preinit_commit. destruct (hasFlag (dCommit rd) CWhitespace) eqn:Ew; auto.
    unfold rootFlag in Hrft. rewrite preinit_commit in Hrft. rewrite (ws_incompat rd CRoot Ecc) in Hrft; [discriminate|simpl; tauto|auto]. }
  set (rt := main (preinit rd)).
  assert (Hrt : filter rootFlag (flat_map rw (filter (fun d => negb (isWs d)) l)) = [rt]).
  { rewrite filter_flat_rw, filter_comm.
    rewrite (filter_one rootFlag l root (preinit rd)); auto.
    - simpl. rewrite Hrws. reflexivity.
    - intros j y Hj Hy. destruct (Hobj j y Hj) as (? & ? & _ & _ & _ & _ & _ & _ & Hrfj & _). symmetry. apply Hrfj; auto. }
  assert (Hrtn : dName rt = dName rd).
  { unfold rt, main. pose proof (proj1 (preinit_same rd)) as Hp. destruct (dKind (preinit rd)); auto. destruct (hasFlag _ _); auto. }
  assert (Hrtin : In rt (flat_map rw (filter (fun d => negb (isWs d)) l))).
  { assert (X : In rt (filter rootFlag (flat_map rw (filter (fun d => negb (isWs d)) l)))) by (rewrite Hrt; left; auto). apply filter_In in X. tauto. }
  (* whitespace is there *)
  assert (Hhw : hasWhitespace l (seq 0 (List.length (sHeap s))) = true).
  { unfold hasWhitespace. destruct Hws as (d & Hd & Hf). destruct (callObjs_split d) as (chs & o & Ec & _ & _ & _ & _ & Ew & _).
    assert (Ho : In o objs) by (apply in_flat_map; exists d; rewrite Ec; split; auto; apply in_or_app; right; left; auto).
    apply In_nth_error in Ho. destruct Ho as [a Ha]. destruct (R4 a o Ha) as (d1 & Hd1 & _). apply existsb_exists. exists a. split.
    - apply in_seq. assert (a < List.length (sHeap s)) by (apply nth_error_Some; congruence). lia.
    - assert (Hla : nth_error l a = Some (preinit d1)) by (unfold l; rewrite nth_error_map', Hd1; auto).
      destruct (Hobj a _ Hla) as (o' & d0 & H1 & _ & _ & _ & _ & H6 & _). rewrite Ha in H1. inversion H1; subst o'. unfold commitAt. rewrite Hla.
      change CWhitespace with (2 ^ 2)%N. rewrite (Hfl _ _ 2%N H6) by discriminate. change (2 ^ 2)%N with CWhitespace. congruence. }
  rewrite Hhw in E. binv E. destruct x as [[h1 D1] root2]. destruct (newRegistry h1 D1) as [h2 reg2] eqn:En. injection E as -> -> ->.
  rewrite Hlen in E1. destruct (applyWhitespace_spec _ _ _ _ _ E1 Hrt) as (A1 & A2 & A3 & A4 & A5).
  (* names *)
  assert (Hndl : NoDup (map dName l)).
  { rewrite En1. assert (Hg : forall i j o o', nth_error objs i = Some o -> nth_error objs j = Some o' -> dName o = dName o' -> i = j).
    { intros i j o o' Hi Hj Hij. pose proof (rep_lookup objs s Hr i o Hi). pose proof (rep_lookup objs s Hr j o' Hj). congruence. }
    apply NoDup_nth_error. intros i j Hi Hij. rewrite map_length in Hi.
    rewrite !nth_error_map' in Hij. destruct (nth_error objs i) as [o|] eqn:Ei; [|apply nth_error_None in Ei; lia].
    destruct (nth_error objs j) as [o'|] eqn:Ej; simpl in Hij; [|discriminate]. inversion Hij. eapply Hg; eauto. }
  assert (Hrefs : forall o x, In o l -> In x (refsOf o) -> In x (map dName l)).
  { intros o x Ho Hx. destruct (HobjN o Ho) as (o' & d0 & Ho' & -> & _ & Hk & _). rewrite preinit_refs in Hx. unfold refsOf in Hx. rewrite Hk in Hx.
    rewrite En1. unfold objs in Ho'. apply in_flat_map in Ho'. destruct Ho' as (d & Hd & Ho'). eapply callObjs_refs; eauto. }
  assert (Hcomps : forall o, In o l -> exists c, comps (dName o) c).
  { intros o Ho. destruct (HobjN o Ho) as (o' & d0 & Ho' & _ & -> & _ & _). apply in_flat_map in Ho'. destruct Ho' as (d & Hd & Ho'). destruct (Hnm d Hd) as (c & Hc).
    destruct (callObjs_names d o' Ho') as [->|(_ & i & ->)]; [eauto|]. eexists. apply comps_child; eauto. }
  assert (Htell : tellable (spacedSeq l)).
  { eapply tellable_sub; [|exact Htl]. intros n (o & Ho & Hk & <-). destruct (HobjN o Ho) as (o' & d0 & Ho' & -> & -> & Hkk & _). apply in_flat_map in Ho'. destruct Ho' as (d & Hd & Ho').
    exists d. split; auto. destruct (callObjs_names d o' Ho') as [->|(Hc & _)]; auto. exfalso. unfold keeps in Hk. unfold preinit, initRanges in Hk. rewrite <- Hkk in Hc.
    destruct (dKind d0) eqn:Ek0; simpl in *; try rewrite Ek0 in Hk; discriminate. }
  assert (Hrefc : forall o x, In o l -> In x (refsOf o) -> exists c, comps x c) by (intros o x Ho Hx; apply (Hrefs o x Ho) in Hx; apply in_map_iff in Hx; destruct Hx as (o' & <- & Ho'); auto).
  pose proof (rewritten_nodup l rt Hndl Hrt Hrefc Hcomps Htell) as Hnd.
  assert (Hnorm : forall o oi items rs a1 a2 a3 a4 a5, In o l -> dKind o = KSeq oi items rs a1 a2 a3 a4 a5 -> Forall normal items).
  { intros o oi items rs a1 a2 a3 a4 a5 Ho Hk. destruct (HobjN o Ho) as (o' & d0 & _ & -> & _). eapply preinit_normal; eauto. }
  (* the registry *)
  unfold newRegistry in En. destruct (newRegistryLoop_all _ _ _ emptyRegistry _ _ A1 A2 Hnd (fun o _ => eq_refl) En) as (G1 & G2 & G3). simpl in G1.
  destruct (newRegistryLoop_inv D1 h1 emptyRegistry h0 reg1 (regInv_empty _) (fun a Ha => objsAt_lt _ _ _ A1 a Ha) En) as (G4 & _ & _).
  assert (Hheap : forall nm, heapRule (gDefinition reg1) h0 nm = ruleIn (map objPair (rewritten l rt)) nm) by (eapply heapRule_reg; eauto).
  assert (Hun : forall a d, nth_error h0 a = Some d -> unwalkedK (dKind d)) by (intros a d Hd; unfold unwalked in Pun; rewrite Forall_forall in Pun; apply Pun; eapply nth_error_In; eauto).
  assert (Hkw : forall a, In a (sKeywords s) -> exists o d, nth_error objs a = Some o /\ hasFlag (dCommit o) CKeyword = true /\ nth_error (sHeap s) a = Some d /\ nth_error l a = Some (preinit d)).
  { intros a Ha. rewrite R10 in Ha. apply kwIdx_In in Ha. destruct Ha as (j & o & -> & Ho & Hf). simpl.
    destruct (R4 j o Ho) as (d & Hd & _). exists o, d. repeat (split; auto). unfold l. rewrite nth_error_map', Hd. auto. }
  assert (Hkws : forall a, In a (sKeywords s) -> exists d, nth_error h0 a = Some d /\ hasFlag (dCommit d) CNoKeyword = false).
  { intros a Ha. destruct (Hkw a Ha) as (o & d & Ho & Hf & Hd & Hl). destruct (Pkw a d Hd) as (d' & Hd' & Hfd). exists d'. split; auto.
    rewrite Hfd. destruct (Hobj a _ Hl) as (o' & d0 & Ho' & _ & _ & _ & _ & Hs & _). rewrite Ho in Ho'. inversion Ho'; subst o'. rewrite <- (preinit_commit d).
    change CNoKeyword with (2 ^ 5)%N. rewrite (Hfl _ _ 5%N Hs) by discriminate.
    apply kw_not_nokw; auto. apply R5. eapply nth_error_In; eauto. }
  (* keywords stay registered, unchanged but for the id *)
  assert (Hkk : forall a, In a (sKeywords s) -> In a D1 /\ forall o, nth_error l a = Some o -> nth_error h1 a = Some o).
  { intros a Ha. destruct (Hkw a Ha) as (o & d & Ho & Hf & Hd & Hl). destruct (Hobj a _ Hl) as (o' & d0 & Ho' & Hd0 & _ & _ & Hk & Hs & Hrfa & _). rewrite Ho in Ho'. inversion Ho'; subst o'.
    rewrite Hd in Hd0. inversion Hd0; subst d0.
    pose proof (R5 o (nth_error_In _ _ Ho)) as (_ & Hcc & _).
    assert (Hw : isWs o = false).
    { unfold isWs. destruct (hasFlag (dCommit o) CWhitespace) eqn:Ew; auto. 
      rewrite (ws_incompat o CKeyword Hcc) in Hf; [discriminate|simpl; tauto|auto]. }
    assert (Hko : keeps o = true).
    { pose proof (nth_error_In _ _ Ho) as Hin. apply in_flat_map in Hin. destruct Hin as (c & Hc & Hin). eapply callObjs_keeps; eauto.
      apply Hkp; auto. destruct (callObjs_split c) as (chs & o1 & Ec & Hch & _ & _ & _ & _ & Hk1). rewrite Ec in Hin. apply in_app_or in Hin. destruct Hin as [Hin|[<-|[]]]; [|congruence].
      destruct (Hch o Hin) as (_ & _ & X & _). congruence. }
    assert (Hrw : rootFlag (preinit d) = false).
    { apply Bool.not_true_is_false. intros X. apply Hrfa in X. subst a. rewrite Ed in Hd. inversion Hd; subst d.
      unfold rootFlag in Hrft. rewrite preinit_commit in Hrft.
      rewrite (kw_incompat rd CRoot Ecc) in Hrft; [discriminate|simpl; tauto|]. rewrite <- (preinit_commit rd). change CKeyword with (2 ^ 4)%N. rewrite (Hfl _ _ 4%N Hs) by discriminate. exact Hf. }
    destruct (A5 a (preinit d) Hl) as [B1 B2].
    - unfold keeps in *. unfold preinit, initRanges. rewrite <- Hk in Hko. rewrite (eq_refl : CNoWhitespace = (2 ^ 3)%N) in *. rewrite <- (Hfl _ _ 3%N Hs) in Hko by discriminate. rewrite preinit_commit in Hko.
      destruct (dKind d) eqn:Ekd; simpl; rewrite ?Ekd; auto.
    - unfold isWs in *. change CWhitespace with (2 ^ 2)%N. rewrite (Hfl _ _ 2%N Hs) by discriminate. exact Hw.
    - split; auto. intros o0 Ho0. rewrite Hl in Ho0. inversion Ho0; subst o0. auto. }
  assert (Hargs : forall a, In a (sKeywords s ++ [root1]) -> In a (gDefinitions reg1)).
  { intros a Ha. rewrite G1. apply in_app_or in Ha. destruct Ha as [Ha|[<-|[]]]; auto. apply Hkk; auto. }
  destruct (G2 root1 _ A4) as (ri & Hroot1).
  assert (Hrootc : isCharAt h0 root1 = false) by (rewrite isCharAt_tag, Hroot1; auto).
  assert (Hroota : forall d, nth_error h0 root1 = Some d -> hasFlag (dCommit d) CAlias = false) by (intros d Hd; rewrite Hroot1 in Hd; inversion Hd; reflexivity).
  assert (Hreged : forall a d, nth_error h0 a = Some d -> inited h' a -> isCharAt h0 a = true \/ exists o i, In o (rewritten l rt) /\ d = setID i o).
  { intros a d Hd Hi. destruct (isCharAt h0 a) eqn:Ec; auto. right.
    assert (Hin : In a D1).
    { destruct (initCore_only _ _ _ _ _ _ E0 Hun Hi Ec) as [Hin|(k & Hk)]; [apply Hargs in Hin; rewrite G1 in Hin; exact Hin|]. rewrite <- G1. eapply ri_map; eauto. }
    destruct (objsAt_addr _ _ _ _ A1 Hin) as (o & Ho & Hao). destruct (G2 a o Hao) as (i & Hi2). exists o, i. split; auto. congruence. }
  assert (Hshl : forall o, In o l -> rangeShape o).
  { intros o Ho. destruct (HobjN o Ho) as (o' & d0 & Ho' & -> & _ & Hk & _). apply preinit_shape. rewrite Hk. apply R5; auto. }
  assert (Hshape : forall a d, nth_error h0 a = Some d -> inited h' a -> rangeShape d).
  { intros a d Hd Hi. destruct (Hreged a d Hd Hi) as [Hc|(o & i & Ho & ->)].
    - rewrite isCharAt_tag, Hd in Hc. unfold rangeShape. destruct (dKind d); auto; discriminate.
    - apply (rewritten_shape l rt Hrtin Hshl) in Ho. unfold rangeShape in *. rewrite (proj1 (proj2 (setID_same i o))). auto. }
  destruct (root_name calls root) as (o & Ho & Hn & Hc); [fold objs; rewrite <- R9; auto|]. fold objs in Ho. rewrite Hro in Ho. inversion Ho; subst o. clear Ho.
  assert (Hname : dName rt = dName ro) by (rewrite Hrtn, <- Hron; symmetry; apply preinit_same).
  assert (Hsame0 : forall nm, sameOpt (ruleIn (map objPair l) nm) (grammarOf calls nm)).
  { intros nm. pose proof (heapRule_objs objs s Hr nm) as Hho. fold l in Hho.
    assert (Hreg0 : regInv l reg).
    { destruct R7 as [I1 I2 I3 I4]. constructor; auto.
      - intros i a Hi. destruct (I3 i a Hi) as (d & Hd & Ei & El). exists (preinit d). unfold l. rewrite nth_error_map', Hd. simpl.
        destruct (preinit_same d) as (-> & -> & _). auto.
      - intros n0 a Hl. destruct (I4 n0 a Hl) as (H1 & d & Hd & En0). split; auto. exists (preinit d). unfold l. rewrite nth_error_map', Hd. simpl.
        destruct (preinit_same d) as (-> & _). auto. }
    rewrite Ereg in Hho. rewrite (heapRule_reg l l (seq 0 (List.length l)) l reg) in Hho; auto; [|apply objsAt_all|congruence|].
    + eapply sameOpt_trans; [exact Hho|]. apply ruleIn_same, callsRules_same.
    + intros a d Hd. exists (dId d). rewrite Hd. destruct d; auto. }
  exists (restrict (map toParser h') (liveIn h')), root1, (dName ro), (ruleIn (map objPair (rewritten l rt))). split; auto. split; auto. split.
  { exists (liveIn h'). split; [auto|]. split; [apply (live_closed reg1 fuel (sKeywords s) root1 h0 h' Hun E0)|apply (live_root reg1 fuel (sKeywords s) root1 h0 h' Hun E0)]. }
  split; [|split; [|split; [|split; [|split; [|split]]]]].
  - assert (Enm : nameAt h0 root1 = dName ro) by (unfold nameAt; rewrite Hroot1; exact Hname).
    rewrite <- Enm. eapply apiOk_same; [|apply (api_ok reg1 fuel (sKeywords s) root1 h0 h' Hun G4 E0 Hargs Hshape Hkws Hrootc Hroota)].
    intros nm. rewrite Hheap. destruct (ruleIn _ nm); simpl; auto. apply sameRule_refl.
  - intros K n w Hg. apply grammar_names in Hg. fold objs in Hg. rewrite <- En1 in Hg.
    rewrite (wsgen l rt K Hnd Hndl Hrt Hrefs Hnorm n w Hg). rewrite En2. unfold objs. rewrite ws_names, Hname. apply wgen_same.
    exact Hsame0.
  - intros Hs. apply (live_ranges reg1 fuel (sKeywords s) root1 h0 h' Hun E0). intros a d Hd Hi. split; [|eapply Hshape; eauto].
    destruct (Hreged a d Hd Hi) as [Hcc|(o & i & Ho & ->)].
    + rewrite isCharAt_tag, Hd in Hcc. unfold saneObj. destruct (dKind d); auto; discriminate.
    + unfold saneObj. rewrite (proj1 (proj2 (setID_same i o))). change (saneObj o). apply (rewritten_sane l rt Hrtin); auto.
      intros x Hx. destruct (HobjN x Hx) as (o' & d0 & Ho' & -> & _ & Hk & _). apply (callObjs_sane calls Hs) in Ho'. unfold saneObj, preinit, initRanges in *. rewrite <- Hk in Ho'.
      destruct (dKind d0) eqn:E0k; simpl; rewrite ?E0k; auto. clear - Ho'. induction Ho'; constructor; auto. apply saneItem_norm; auto.
  - apply (kwsOk_intro calls s _ Hr). intros nm ct chars Hcin Ef.
    destruct (literal_objs calls nm ct chars Hcin) as (j & o1 & Ho1 & [Hnj Hf] & Hk & Hch). fold objs in Ho1, Hch.
    assert (Hj : In j (sKeywords s)). { rewrite R10. apply kwIdx_In. exists j, o1. split; auto. split; auto. congruence. }
    exists j, o1. split; auto. split; auto. split; auto. destruct (Hkw j Hj) as (o2 & d1 & Ho2 & _ & Hd1 & Hl1). destruct (Hobj j _ Hl1) as (o3 & d3 & Ho3 & Hd3 & _ & M1 & M2 & _). rewrite Hd1 in Hd3. inversion Hd3; subst d3.
    rewrite Ho1 in Ho3. inversion Ho3; subst o3. destruct (Hkk j Hj) as [_ Hkj]. destruct (G2 j _ (Hkj _ Hl1)) as (i1 & Hh1).
    apply (api_literal reg1 fuel (sKeywords s) root1 h0 h' Hun E0 Hshape Hkws Hrootc j (setID i1 (preinit d1)) nm chars); auto.
    + rewrite (proj1 (proj2 (setID_same _ _))). rewrite Hk in M2. unfold preinit, initRanges. rewrite M2. simpl. repeat eexists.
    + intros i c Hc'. destruct (Hch i c Hc') as (x & Hx). destruct (R4 x _ Hx) as (dx & Hdx & X1 & X2 & X3 & X4 & _). simpl in X4.
      assert (Hlx : nth_error l x = Some (preinit dx)) by (unfold l; rewrite nth_error_map', Hdx; auto).
      assert (Epx : dKind (preinit dx) = KChar false [c] [] /\ dCommit (preinit dx) = CAlias /\ dName (preinit dx) = childName nm i).
      { split; [unfold preinit, initRanges; rewrite X2; simpl; rewrite X2; auto|]. split; [rewrite preinit_commit; apply X4; auto|]. rewrite (proj1 (preinit_same dx)), X1. auto. }
      destruct Epx as (P1 & P2 & P3).
      destruct (A5 x (preinit dx) Hlx) as [B1 B2]; [unfold keeps; rewrite P1; auto|unfold isWs; rewrite P2; auto|].
      destruct (G2 x _ (B2 ltac:(unfold rootFlag; rewrite P2; auto))) as (ix & Hhx). exists x, (setID ix (preinit dx)). split; [|split; auto].
      * rewrite <- G1 in B1. apply In_nth_error in B1. destruct B1 as [q Hq]. destruct (ri_defs _ _ G4 q x Hq) as (dd & Hdd & _ & El). rewrite Hhx in Hdd. inversion Hdd; subst dd.
        rewrite (proj1 (setID_same _ _)), P3 in El. auto.
  - apply grammar_names. fold objs. apply in_map. eapply nth_error_In; eauto.
  - intros n r Hnr Ha. apply ruleIn_pair in Hnr. apply in_map_iff in Hnr. destruct Hnr as (o & Eo & Ho). inversion Eo; subst n r. clear Eo.
    assert (Hvis : forall o', In o' l -> isWs o' = false -> ruleAlias (objRule o') = false -> visible calls (dName o')).
    { intros o' Ho' Hw Ha'. destruct (HobjN o' Ho') as (o2 & d0 & Ho2 & -> & En' & Hk & Hs). unfold objs in Ho2. apply in_flat_map in Ho2. destruct Ho2 as (d & Hd & Ho2).
      assert (Hc2 : isCharK (dKind o2) = false).
      { rewrite <- Hk. unfold objRule, preinit, initRanges in Ha'. destruct (dKind d0) eqn:Ek; auto. rewrite Ek in Ha'. discriminate. }
      assert (Ha2 : hasFlag (dCommit (preinit d0)) CAlias = false).
      { unfold objRule in Ha'. destruct (dKind (preinit d0)); [discriminate|exact Ha'|exact Ha']. }
      destruct (callObjs_main d o2 Ho2 Hc2) as [En2' Hfl2]. exists d. split; auto. split; [congruence|]. split.
      - rewrite <- Ha2. change CAlias with (2 ^ 1)%N. rewrite (Hfl _ _ 1%N Hs) by discriminate. symmetry. apply Hfl2. discriminate.
      - rewrite <- Hw. unfold isWs. change CWhitespace with (2 ^ 2)%N. rewrite (Hfl _ _ 2%N Hs) by discriminate. symmetry. apply Hfl2. discriminate. }
    destruct (rewritten_alias l rt o Ho Ha) as [Er2|(o' & H1 & H2 & H3 & H4)].
    + rewrite Er2, Hrtn. replace (dName rd) with (dName (preinit rd)) by apply preinit_same. apply Hvis; auto; [eapply nth_error_In; eauto|].
      assert (Hna : hasFlag (dCommit (preinit rd)) CAlias = false).
      { rewrite preinit_commit. destruct (hasFlag (dCommit rd) CAlias) eqn:Ea; auto.
        unfold rootFlag in Hrft. rewrite preinit_commit in Hrft. rewrite (alias_incompat rd Ecc Ea) in Hrft. discriminate. }
      rewrite <- Hrok in Hc. unfold objRule, preinit, initRanges in *. destruct (dKind rd) eqn:Ek; simpl in *; rewrite ?Ek; auto; discriminate.
    + rewrite <- H3. apply Hvis; auto.
  - exists (ruleIn (map objPair l)). split; [exact Hsame0|]. rewrite <- Hname.
    pose proof (ws_shape l rt Hnd Hndl Hrt Hnorm) as X. rewrite En2 in X. unfold objs in X. rewrite ws_names in X. exact X.
Qed.

(** ** the definition methods of the API *)
Lemma valid_colonFree n : isValidSymbol n = true -> colonFree n.
Proof.
  unfold isValidSymbol, colonFree. intros H Hin. rewrite forallb_forall in H.
  assert (Hb : In 58%Z (bytesOf n)).
  { clear H. induction n as [|c n IH]; simpl in *; [destruct Hin|]. destruct Hin as [->|Hin]; [left; reflexivity|right; auto]. }
  apply decode_ascii in Hb; [|lia]. specialize (H 58%Z Hb). vm_compute in H. discriminate.
Qed.
Lemma userDefined_wsNames calls : whitespaceNames (map withUserDefined calls) = whitespaceNames calls.
Proof.
  unfold whitespaceNames. induction calls as [|d l IH]; auto. cbn [map filter].
  assert (E : hasFlag (callFlags (withUserDefined d)) CWhitespace = hasFlag (callFlags d) CWhitespace) by (apply (userDefined_flags d 2); discriminate). rewrite E.
  destruct (hasFlag (callFlags d) CWhitespace); cbn [map]; rewrite ?userDefined_name, IH; auto.
Qed.
Lemma userDefined_grammar_none calls nm : grammarOf (map withUserDefined calls) nm <> None <-> grammarOf calls nm <> None.
Proof.
  pose proof (userDefined_grammar calls nm) as H. destruct (grammarOf (map withUserDefined calls) nm), (grammarOf calls nm); simpl in H; try contradiction; split; congruence.
Qed.
Lemma userDefined_allDefined calls : allDefined calls -> allDefined (map withUserDefined calls).
Proof.
  intros H d Hd. apply in_map_iff in Hd. destruct Hd as (d0 & <- & Hd). specialize (H d0 Hd). destruct d0; simpl in *; auto.
  - intros it Hit. apply userDefined_grammar_none. auto.
  - intros o Ho. apply userDefined_grammar_none. auto.
Qed.
Lemma userDefined_kwPlain calls : keywordsPlain calls -> keywordsPlain (map withUserDefined calls).
Proof.
  intros H d Hd Hf. apply in_map_iff in Hd. destruct Hd as (d0 & <- & Hd). specialize (H d0 Hd).
  change CKeyword with (2 ^ 4)%N in *. rewrite userDefined_flags in Hf by discriminate. specialize (H Hf).
  change CNoWhitespace with (2 ^ 3)%N in *. destruct d0; auto; rewrite userDefined_flags by discriminate; auto.
Qed.

Lemma hasWs_dec calls : hasWhitespaceDef calls \/ noWhitespaceDefs calls.
Proof.
  unfold hasWhitespaceDef, noWhitespaceDefs. induction calls as [|d calls [(x & H1 & H2)|IH]].
  - right. intros d [].
  - left. exists x. split; auto. right; auto.
  - destruct (hasFlag (callFlags d) CWhitespace) eqn:E; [left; exists d; split; auto; left; auto|]. right. intros x [<-|Hx]; auto.
Qed.
Lemma noWs_names calls : noWhitespaceDefs calls -> whitespaceNames calls = [].
Proof. intros H. unfold whitespaceNames. rewrite filter_none; auto. Qed.

(** what an initialized syntax is, for any list of successful definition calls *)
Record setup (calls : list defcall) (s' : syntax) (PL : pheap) (root : addr) (name : string) (R1 : string -> option rule) : Prop := mkSetup {
  su_root : sRoot s' = Some root;
  su_name : rootName calls = Some name;
  su_live : liveParsers (parsers s') (sKeywords s') root PL;
  su_ok : apiOk R1 name PL (sKeywords s') root;
  su_gen : forall K n w, grammarOf calls n <> None -> (gen R1 K n w <-> wgen (grammarOf calls) K (whitespaceNames calls) name n w);
  su_ranges : sensibleRanges calls -> rangesOk PL;
  su_kws : kwsOk calls PL (sKeywords s');
  su_def : grammarOf calls name <> None;
  su_alias : forall n r, R1 n = Some r -> ruleAlias r = false -> visible calls n;
  su_rules : (noWhitespaceDefs calls /\ R1 = grammarOf calls) \/
             (hasWhitespaceDef calls /\ exists R0, (forall n, sameOpt (R0 n) (grammarOf calls n)) /\
                wsShape R0 (whitespaceNames calls) name (patchName [name; "wsroot"%string]) R1) }.

Lemma rootName_defined calls name : rootName calls = Some name -> grammarOf calls name <> None.
Proof.
  intros H. apply grammar_names. assert (Hd : exists d, In d calls /\ callName d = name).
  { unfold rootName in H. destruct (find isRoot calls) as [d|] eqn:E.
    - apply find_some in E. inversion H; subst. exists d. tauto.
    - destruct calls as [|d0 calls] using rev_ind; [discriminate|]. rewrite map_app in H. simpl in H. rewrite last_app_one in H. inversion H. exists d0. split; auto. apply in_or_app; right; left; auto. }
  destruct Hd as (d & Hd & <-). destruct (callObjs_split d) as (chs & o & Ec & _ & En & _). rewrite <- En. apply in_map, in_flat_map. exists d. split; auto. rewrite Ec. apply in_or_app; right; left; auto.
Qed.

Lemma userDefined_visible calls n : visible (map withUserDefined calls) n -> visible calls n.
Proof.
  intros (d & Hd & H1 & H2 & H3). apply in_map_iff in Hd. destruct Hd as (d0 & <- & Hd). exists d0. rewrite userDefined_name in H1.
  change CAlias with (2 ^ 1)%N in *. change CWhitespace with (2 ^ 2)%N in *. rewrite userDefined_flags in H2, H3 by discriminate. auto.
Qed.
Theorem setup_init calls s fuel s' : defineAll emptySyntax calls = (s, None) -> wsReady calls -> Init fuel s = Ok (s', None) ->
  exists PL root name R1, setup calls s' PL root name R1.
Proof.
  intros Hd Hw HI. destruct (hasWs_dec calls) as [Hws|Hno].
  - destruct (Hw Hws) as [Ha Hk]. apply defineAll_raw in Hd. destruct Hd as [Hd Hv].
    destruct (setup_raw_ws (map withUserDefined calls) s fuel s') as (PL & root & name & R1 & H1 & H2 & H3 & H4 & H5 & H6 & H7 & H8 & H9 & R0 & H10 & H11); auto.
    + destruct Hws as (d & Hin & Hf). exists (withUserDefined d). split; [apply in_map; auto|]. change CWhitespace with (2 ^ 2)%N. rewrite userDefined_flags by discriminate. auto.
    + apply userDefined_allDefined; auto.
    + split.
      * intros d Hin. apply in_map_iff in Hin. destruct Hin as (d0 & <- & Hin). rewrite userDefined_name. exists [callName d0]. exists (callName d0), []. split; auto. split; auto. split; [|constructor]. apply valid_colonFree; auto.
      * left. intros n (d & Hin & <-). apply in_map_iff in Hin. destruct Hin as (d0 & <- & Hin). rewrite userDefined_name. apply valid_colonFree; auto.
    + apply userDefined_kwPlain; auto.
    + exists PL, root, name, R1. rewrite userDefined_root in H2. constructor; auto.
      * intros K n w Hg. rewrite H5 by (apply userDefined_grammar_none; auto). rewrite userDefined_wsNames. apply wgen_same. intros nm. apply userDefined_grammar.
      * intros Hs. apply H6. apply userDefined_ranges; auto.
      * apply userDefined_kws in H7. auto.
      * apply userDefined_grammar_none; auto.
      * intros n r Hn Hr. apply userDefined_visible. eauto.
      * right. split; auto. exists R0. split; [intros n; eapply sameOpt_trans; [apply H10|apply userDefined_grammar]|]. rewrite userDefined_wsNames in H11. auto.
  - destruct (setup_noWs calls s fuel s' Hd Hno HI) as (PL & root & name & H1 & H2 & H3 & H4 & H5 & H6).
    exists PL, root, name, (grammarOf calls). constructor; auto.
    + intros K n w _. rewrite noWs_names by auto. symmetry. apply wgen_plain.
    + apply rootName_defined; auto.
    + intros n r. apply grammar_alias. auto.
Qed.

(** C02, with or without whitespace: an accepted input is a text of the root definition *)
Theorem api_sound_ws calls s fuel s' input e n toks : defineAll emptySyntax calls = (s, None) -> wsReady calls -> sensibleRanges calls ->
  Parse fuel s input e = Ok (s', Tree n toks) ->
  exists name, rootName calls = Some name /\ wgen (grammarOf calls) (keywordTexts calls) (whitespaceNames calls) name name input.
Proof.
  intros Hd Hw Hs HP. unfold Parse in HP. binv HP. destruct x as [s1 [err|]]; [discriminate|].
  destruct (setup_init _ _ _ _ Hd Hw E) as (PL & root & name & R1 & [Er En Epi A Hg Rg Kw Hdf _ _]). rewrite Er in HP. binv HP. rewrite (live_run _ _ _ _ Epi) in E0.
  inversion HP; subst. clear HP. exists name. split; auto. apply Hg; auto. destruct A as [A1 A2 A3 (o & Ho & No & Eo) A5 _ _ _ _].
  unfold parseInput in E0. apply run_tree in E0. destruct E0 as (-> & -> & _ & c & ob & c1 & rest & ok & c2 & Hp & _ & Hob & Hst & _).
  rewrite Ho in Hob. inversion Hob; subst ob.
  apply (parse_sound PL (sKeywords s') (keywordTexts calls) input A1 A2 (Rg Hs) (proj1 Kw)) in Hp.
  apply (ci_G _ _ _ _ Hp) in Hst. pose proof (Hst root o Ho No eq_refl) as Hl.
  rewrite slice_full in Hl. rewrite <- Eo. apply (A5 root o _ _ Ho No). auto.
Qed.
