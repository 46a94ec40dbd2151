(** The graph of the parsers, the graph of the rules and the graph of the definition calls give the
    same outcomes. *)
From Verif Require Import Base Utf8 IdSet Results Parser Build Syntax ListFacts ResultsFacts ParseFacts TermFacts NoPanic Lang Sound RunFacts Restrict Grammar WsLang ApiSpec InitWalk InitRun InitOk SyntaxFacts InitCore InitSpec InitFuel Rep Live LangGen Api WsObjs WsGen WsShape WsNames WsDistinct Utf8Facts WsApi RefSpec RefFuel RefParse RefBuild RefRun.

(** ** simulations of graphs *)
Section SIM.
Context {A B : Type}.
Variables (G1 : A -> option (gobj A)) (G2 : B -> option (gobj B)) (Rel : A -> B -> Prop).
Definition sameItems : list (A * (nat * option nat)) -> list (B * (nat * option nat)) -> Prop :=
  Forall2 (fun x y => Rel (fst x) (fst y) /\ snd x = snd y).
Definition sameObj (a : option (gobj A)) (b : option (gobj B)) : Prop :=
  match a, b with
  | None, None => True
  | Some (GChar n c r), Some (GChar n' c' r') => n = n' /\ c = c' /\ r = r'
  | Some (GSeq l k its), Some (GSeq l' k' its') => l = l' /\ k = k' /\ sameItems its its'
  | Some (GChoice l os), Some (GChoice l' os') => l = l' /\ Forall2 Rel os os'
  | _, _ => False
  end.
Definition sim : Prop := forall a b, Rel a b -> sameObj (G1 a) (G2 b).

Lemma evalItems_sim r1 r2 : (forall a b o, Rel a b -> r1 a o = r2 b o) ->
  forall k its its' c o, sameItems its its' -> evalItems r1 k its c o = evalItems r2 k its' c o.
Proof.
  intros Hr. induction k as [|k IH]; intros its its' c o H; auto. cbn [evalItems].
  destruct H as [|[x [mn mx]] [y b] its its' [Hxy E] H]; auto. cbn [fst snd] in *. subst b.
  rewrite (Hr _ _ o Hxy). destruct (r2 y o) as [| |t ns]; auto.
  - destruct (mn <=? c); auto.
  - destruct (o <? t); [|rewrite (IH its its') by auto; auto].
    destruct (match mx with Some m => S c =? m | None => false end); [rewrite (IH its its') by auto; auto|].
    rewrite (IH ((x, (mn, mx)) :: its) ((y, (mn, mx)) :: its')); auto. constructor; auto.
Qed.
Lemma evalOptions_sim r1 r2 : (forall a b o, Rel a b -> r1 a o = r2 b o) ->
  forall os os' o best, Forall2 Rel os os' -> evalOptions r1 os o best = evalOptions r2 os' o best.
Proof.
  intros Hr os os' o best H. revert best. induction H as [|x y os os' Hxy H IH]; intros best; simpl; auto.
  rewrite (Hr _ _ o Hxy). destruct (r2 y o); auto.
Qed.
Variables (K : list (list rune)) (input : list rune).
Hypothesis Hsim : sim.
Lemma eval_sim n : forall a b o, Rel a b -> eval G1 K input n a o = eval G2 K input n b o.
Proof.
  induction n as [|n IH]; intros a b o H; auto. cbn [eval]. pose proof (Hsim a b H) as Hs. unfold sameObj in Hs.
  destruct (G1 a) as [[cn ch rs|l k its|l os]|], (G2 b) as [[cn' ch' rs'|l' k' its'|l' os']|]; try contradiction; auto.
  - destruct Hs as (-> & -> & ->). auto.
  - destruct Hs as (-> & -> & Hi). rewrite (evalItems_sim _ _ IH n its its' 0 o Hi). auto.
  - destruct Hs as (-> & Ho). rewrite (evalOptions_sim _ _ IH os os' o NoMatch Ho). auto.
Qed.
Lemma Gives_sim a b o r : Rel a b -> (Gives G1 K input a o r <-> Gives G2 K input b o r).
Proof.
  intros H. unfold Gives. split; intros (H1 & n & Hn); split; auto; exists n; [rewrite <- (eval_sim n a b o H)|rewrite (eval_sim n a b o H)]; auto.
Qed.
End SIM.

Definition isGChar {A} (o : option (gobj A)) : bool := match o with Some (GChar _ _ _) => true | _ => false end.

(** ** the graph of a set of rules *)
Definition ruleBounds (it : seqItem) : nat * option nat := toBounds (itemRange (normalizeItemRange it)).
Definition ruleGraph (R : string -> option rule) (n : string) : option (gobj string) :=
  match R n with
  | None => None
  | Some (RChar cn ch rs) => Some (GChar cn ch rs)
  | Some (RSeq ct its) => Some (GSeq (heapLabel n ct) (hasFlag ct CNoKeyword) (map (fun it => (siName it, ruleBounds it)) its))
  | Some (RChoice ct os) => Some (GChoice (heapLabel n ct) os)
  end.
Lemma bounds_norm it : ruleBounds it = bounds it.
Proof.
  unfold ruleBounds, bounds, toBounds, itemRange, normalizeItemRange.
  destruct (Z.eqb_spec (siMin it) 0), (Z.eqb_spec (siMax it) 0); simpl; auto;
    repeat match goal with |- context [Z.leb ?a ?b] => destruct (Z.leb_spec a b); simpl end;
    repeat match goal with |- context [Z.ltb ?a ?b] => destruct (Z.ltb_spec a b); simpl end; try lia; auto;
    try (f_equal; lia).
Qed.
Lemma heapLabel_same n ct ct' : sameFlags ct ct' -> heapLabel n ct = heapLabel n ct'.
Proof. intros (_ & _ & H). unfold heapLabel. rewrite H. auto. Qed.

Section HEAP.
Variables (R : string -> option rule) (P : pheap).
Hypothesis Hrule : forall a o, nth_error P a = Some o -> nonChar o -> ruleOk R P a /\ forall x, In x (kidsOf o) -> ruleOk R P x.
Definition heapRel (a : addr) (n : string) : Prop := hasName P a n /\ ruleOk R P a.
Lemma heap_sim : sim (heapGraph P) (ruleGraph R) heapRel.
Proof.
  intros a n [(o & Ho & Hn) Hr]. unfold heapGraph, ruleGraph. unfold ruleOk in Hr. rewrite Ho in *.
  assert (Hk : nonChar o -> forall x, In x (kidsOf o) -> ruleOk R P x) by (intros Hc; eapply Hrule; eauto).
  destruct o as [nm i cn ch rs|nm i ct items ranges gs ac|nm i ct options gs]; simpl in Hn; subst nm.
  - rewrite Hr. simpl. auto.
  - destruct Hr as (ct' & its & rest & -> & Hf & Hi & -> & _). simpl. split; [apply heapLabel_same; auto|]. split; [apply Hf|].
    specialize (Hk I). simpl in Hk. clear - Hi Hk. unfold sameItems. induction Hi as [|x it items its Hx Hi IH]; simpl; constructor; auto.
    + simpl. split; [|reflexivity]. split; auto. apply Hk; left; auto.
    + apply IH. intros; apply Hk; right; auto.
  - destruct Hr as (ct' & os & -> & Hf & Hi). simpl. split; [apply heapLabel_same; auto|].
    specialize (Hk I). simpl in Hk. clear - Hi Hk. induction Hi as [|x it items its Hx Hi IH]; simpl; constructor; auto.
    + split; auto. apply Hk; left; auto.
    + apply IH. intros; apply Hk; right; auto.
Qed.
End HEAP.

(** ** the rules and the definition calls *)
Definition repeated (calls : list defcall) (k : key) : Prop :=
  match k with
  | KRest m i | KOpt m i => exists it, itemOf calls m i = Some it /\ snd (bounds it) <> Some 1
  | _ => True
  end.
Record ruleKeys (calls : list defcall) (R1 : string -> option rule) (name : string) (rel : string -> key -> Prop) : Prop := mkRuleKeys {
  rk_sim : sim (ruleGraph R1) (graphOf calls) rel;
  rk_all : forall n, R1 n <> None -> exists k, rel n k;
  rk_root : rel name (KDef name);
  rk_repeated : forall n k, rel n k -> repeated calls k;
  rk_nokw : forall n ct os, R1 n = Some (RChoice ct os) -> hasFlag ct CNoKeyword = true ->
    exists m ct' os', grammarOf calls m = Some (RChoice ct' os') /\ hasFlag ct' CNoKeyword = true }.

Lemma sameOpt_seq a ct its : sameOpt a (Some (RSeq ct its)) -> exists ct0 its0, a = Some (RSeq ct0 its0) /\ sameFlags ct0 ct /\ Forall2 sameItem its0 its.
Proof. destruct a as [r|]; simpl; [|tauto]. intros H. inversion H; subst. eauto. Qed.

Lemma spacing_false calls : noWhitespaceDefs calls -> spacing calls = false.
Proof.
  intros H. unfold spacing. apply Bool.not_true_is_false. intros X. apply existsb_exists in X. destruct X as (d & Hd & Hf). rewrite H in Hf by auto. discriminate.
Qed.
Lemma spacing_true calls : hasWhitespaceDef calls -> spacing calls = true.
Proof. intros (d & Hd & Hf). unfold spacing. apply existsb_exists. eauto. Qed.

Lemma keys_noWs calls name : noWhitespaceDefs calls -> ruleKeys calls (grammarOf calls) name (fun n k => k = KDef n).
Proof.
  intros Hno. constructor; eauto 7; [|intros n k ->; exact I]. intros n k ->. unfold ruleGraph, graphOf, bodyOf. rewrite spacing_false by auto. simpl.
  assert (Hl : forall ct, labelOf calls n ct = heapLabel n ct).
  { intros ct. unfold labelOf, heapLabel. rewrite spacing_false, noWs_names by auto. simpl. rewrite !orb_false_r. auto. }
  destruct (grammarOf calls n) as [[cn ch rs|ct its|ct os]|]; simpl; auto.
  - split; auto. split; auto. clear. induction its; simpl; constructor; auto. simpl. split; auto. apply bounds_norm.
  - split; auto. clear. induction os; simpl; constructor; auto.
Qed.

Section WS.
Variables (calls : list defcall) (name : string) (R0 R1 : string -> option rule).
Hypothesis Hws : hasWhitespaceDef calls.
Hypothesis Hname : rootName calls = Some name.
Hypothesis Hdef : grammarOf calls name <> None.
Hypothesis Hall : allDefined calls.
Hypothesis Hsame : forall n, sameOpt (R0 n) (grammarOf calls n).
Let wsroot := patchName [name; "wsroot"%string].
Hypothesis Hsh : wsShape R0 (whitespaceNames calls) name wsroot R1.

Definition restName (m : string) (i : nat) (it : seqItem) : string := patchName [siName it; m; "wsrest"%string; itoaNat i].
Definition optName (m : string) (i : nat) (it : seqItem) : string := patchName [siName it; m; "wsopt"%string; itoaNat i].
Definition itemAt (m : string) (i : nat) (it : seqItem) : Prop :=
  exists ct items, R0 m = Some (RSeq ct items) /\ compact ct = false /\ nth_error items i = Some it /\ siMax it <> 1%Z.
Definition wsRel (n : string) (k : key) : Prop :=
  match k with
  | KDef m => n = m /\ R0 m <> None
  | KBody m => n = wsroot /\ m = name
  | KWs => n = whitespaceName
  | KRest m i => exists it, itemAt m i it /\ n = restName m i it
  | KOpt m i => exists it, itemAt m i it /\ (siMin it <= 0)%Z /\ n = optName m i it
  end.

Lemma defined_R0 n : R0 n <> None <-> grammarOf calls n <> None.
Proof. pose proof (Hsame n) as H. destruct (R0 n), (grammarOf calls n); simpl in H; try contradiction; split; congruence. Qed.

Lemma callRules_refs n ct its it : grammarOf calls n = Some (RSeq ct its) -> In it its -> grammarOf calls (siName it) <> None.
Proof.
  intros H Hit. apply ruleIn_pair in H. apply in_flat_map in H. destruct H as (d & Hd & H).
  assert (Hin : forall nm, In nm (map fst (callRules d)) -> grammarOf calls nm <> None).
  { intros nm Hnm. apply some_ruleIn. apply in_map_iff in Hnm. destruct Hnm as (p & <- & Hp). apply in_map, in_flat_map. eauto. }
  pose proof (Hall d Hd) as Ha. destruct d as [nm c|nm c cn ch rs|nm c chars|nm c items|nm c opts]; simpl in H.
  - destruct H as [H|[H|[]]]; inversion H; subst. destruct Hit as [<-|[]]. apply Hin. left; auto.
  - destruct H as [H|[H|[]]]; inversion H; subst. destruct Hit as [<-|[]]. apply Hin. left; auto.
  - apply in_app_or in H. destruct H as [H|[H|[]]].
    + exfalso. clear - H. revert H. generalize 0. induction chars; intros i; simpl; [tauto|]. intros [H|H]; [inversion H|eauto].
    + inversion H; subst. apply in_map_iff in Hit. destruct Hit as (i & <- & Hi). apply in_seq in Hi. apply Hin. simpl. rewrite map_app. apply in_or_app; left.
      simpl. assert (Hg : forall cs j, i - j < List.length cs -> j <= i -> In (childName n i) (map fst (charRules n j cs))).
      { induction cs as [|c0 cs IH]; intros j; simpl; [lia|]. intros H1 H2. destruct (Nat.eq_dec i j); [left; subst; auto|]. right. apply IH; lia. }
      apply Hg; lia.
  - destruct H as [H|[]]; inversion H; subst. auto.
  - destruct H as [H|[]]; inversion H; subst.
Qed.
Lemma callRules_opts n ct os o : grammarOf calls n = Some (RChoice ct os) -> In o os -> grammarOf calls o <> None.
Proof.
  intros H Hit. apply ruleIn_pair in H. apply in_flat_map in H. destruct H as (d & Hd & H).
  pose proof (Hall d Hd) as Ha. destruct d as [nm c|nm c cn ch rs|nm c chars|nm c items|nm c opts]; simpl in H.
  - destruct H as [H|[H|[]]]; inversion H; subst.
  - destruct H as [H|[H|[]]]; inversion H; subst.
  - apply in_app_or in H. destruct H as [H|[H|[]]]; [|inversion H].
    exfalso. clear - H. revert H. generalize 0. induction chars; intros i; simpl; [tauto|]. intros [H|H]; [inversion H|eauto].
  - destruct H as [H|[]]; inversion H; subst.
  - destruct H as [H|[]]; inversion H; subst. auto.
Qed.
Lemma ws_refs m ct items it : R0 m = Some (RSeq ct items) -> In it items -> R0 (siName it) <> None.
Proof.
  intros H Hit. pose proof (Hsame m) as Hs. rewrite H in Hs. destruct (grammarOf calls m) as [r|] eqn:E; [|destruct Hs]. inversion Hs; subst.
  apply defined_R0. match goal with X : Forall2 sameItem items ?x |- _ => assert (exists it', In it' x /\ siName it' = siName it) as (it' & H1 & <-) by
    (clear - X Hit; induction X as [|a b la lb [Eq _] X IH]; [destruct Hit|]; destruct Hit as [<-|Hit]; [exists b; split; [left; auto|auto]|destruct (IH Hit) as (y & Hy1 & Hy2); exists y; split; [right; auto|auto]]) end.
  eapply callRules_refs; eauto.
Qed.
Lemma ws_opts m ct os o : R0 m = Some (RChoice ct os) -> In o os -> R0 o <> None.
Proof.
  intros H Hit. pose proof (Hsame m) as Hs. rewrite H in Hs. destruct (grammarOf calls m) as [r|] eqn:E; [|destruct Hs]. inversion Hs; subst.
  apply defined_R0. eapply callRules_opts; eauto.
Qed.
Lemma wsNames_R0 n : In n (whitespaceNames calls) -> R0 n <> None.
Proof.
  intros H. apply defined_R0, grammar_names. rewrite <- ws_names in H. apply in_map_iff in H. destruct H as (o & <- & Ho). apply filter_In in Ho. apply in_map. tauto.
Qed.

Definition restItem (m : string) (i : nat) (it : seqItem) : seqItem :=
  mkItem (restName m i it) (if Z.ltb 0 (siMin it) then (siMin it - 1)%Z else 0%Z) (if Z.ltb 1 (siMax it) then (siMax it - 1)%Z else (-1)%Z).
Lemma rest_in m items : forall i j it, nth_error items j = Some it -> siMax it <> 1%Z ->
  In (newSequence (restName m (i + j) it) CAlias [whitespaceItem; mkItem (siName it) 1 1]) (fst (wsItems m i items)).
Proof.
  induction items as [|x items IH]; intros i j it Hj Hm; [destruct j; discriminate|]. cbn [wsItems].
  destruct (wsItems m (S i) items) as [defs rest] eqn:E. destruct j as [|j].
  - simpl in Hj. inversion Hj; subst x. destruct (Z.eqb_spec (siMax it) 1); [contradiction|]. rewrite Nat.add_0_r.
    destruct (0 <? siMin it)%Z; left; auto.
  - simpl in Hj. pose proof (IH (S i) j it Hj Hm) as H. rewrite E in H. simpl in H. replace (i + S j) with (S (i + j)) by lia.
    destruct (siMax x =? 1)%Z; auto. destruct (0 <? siMin x)%Z; simpl; auto.
Qed.
Lemma opt_in m items : forall i j it, nth_error items j = Some it -> siMax it <> 1%Z -> (siMin it <= 0)%Z ->
  In (newSequence (optName m (i + j) it) CAlias ((if 0 <? i + j then [whitespaceItem] else []) ++ [mkItem (siName it) 1 1; restItem m (i + j) it])) (fst (wsItems m i items)).
Proof.
  induction items as [|x items IH]; intros i j it Hj Hm Hmin; [destruct j; discriminate|]. cbn [wsItems].
  destruct (wsItems m (S i) items) as [defs rest] eqn:E. destruct j as [|j].
  - simpl in Hj. inversion Hj; subst x. destruct (Z.eqb_spec (siMax it) 1); [contradiction|]. rewrite Nat.add_0_r.
    unfold restItem. destruct (Z.ltb_spec 0 (siMin it)); [lia|]. right. left. reflexivity.
  - simpl in Hj. pose proof (IH (S i) j it Hj Hm Hmin) as H. rewrite E in H. simpl in H. replace (i + S j) with (S (i + j)) by lia.
    destruct (siMax x =? 1)%Z; auto. destruct (0 <? siMin x)%Z; simpl; auto.
Qed.

Lemma normal_norm it : normal it -> normalizeItemRange it = it.
Proof.
  unfold normal, normalizeItemRange. destruct it as [nm mn mx]; simpl. intros [H1 H2].
  destruct (Z.eqb_spec mn 0), (Z.eqb_spec mx 0); simpl; try lia; destruct (Z.leb_spec mn 0), (Z.leb_spec mx 0); simpl; f_equal; lia.
Qed.
Lemma sameItem_bounds it0 it : normal it0 -> sameItem it0 it -> siName it0 = siName it /\ bounds it = toBounds (siMin it0, siMax it0) /\ ruleBounds it0 = toBounds (siMin it0, siMax it0).
Proof.
  intros Hn [H1 H2]. split; auto. rewrite <- bounds_norm. unfold ruleBounds. rewrite <- H2. rewrite (normal_norm it0 Hn). auto.
Qed.
Lemma rest_bounds m i it0 it : normal it0 -> sameItem it0 it -> siMax it0 <> 1%Z -> ruleBounds (restItem m i it0) = lessOne (bounds it).
Proof.
  intros Hn Hs H1. destruct (sameItem_bounds it0 it Hn Hs) as (_ & -> & _). destruct Hn as [N1 N2].
  unfold ruleBounds, restItem, lessOne, toBounds, itemRange, normalizeItemRange. simpl.
  destruct (Z.ltb_spec 0 (siMin it0)), (Z.ltb_spec 1 (siMax it0)), (Z.ltb_spec 0 (siMax it0)); simpl; try lia;
  repeat match goal with
    | |- context [Z.eqb ?a ?b] => destruct (Z.eqb_spec a b); simpl; try lia
    | |- context [Z.leb ?a ?b] => destruct (Z.leb_spec a b); simpl; try lia
    | |- context [Z.ltb ?a ?b] => destruct (Z.ltb_spec a b); simpl; try lia end;
  repeat (f_equal; try lia).
Qed.

Lemma spaced_rel m ct items : R0 m = Some (RSeq ct items) -> compact ct = false -> Forall normal items ->
  forall its0 its, Forall2 sameItem its0 its -> forall i, (forall j it0, nth_error its0 j = Some it0 -> nth_error items (i + j) = Some it0) ->
  sameItems wsRel (map (fun it => (siName it, ruleBounds it)) (snd (wsItems m i its0))) (spacedItems m i its).
Proof.
  intros Hm Hc Hn. induction 1 as [|it0 it its0 its Hit H IH]; intros i Hi; [constructor|].
  assert (Hat : nth_error items i = Some it0) by (rewrite <- (Hi 0 it0 eq_refl), Nat.add_0_r; auto).
  assert (Hin : In it0 items) by (eapply nth_error_In; eauto).
  assert (Hnorm : normal it0) by (rewrite Forall_forall in Hn; auto).
  assert (Href : R0 (siName it0) <> None) by (eapply ws_refs; eauto).
  specialize (IH (S i)). assert (Hi' : forall j it1, nth_error its0 j = Some it1 -> nth_error items (S i + j) = Some it1).
  { intros j it1 Hj. replace (S i + j) with (i + S j) by lia. apply Hi. auto. }
  specialize (IH Hi'). cbn [wsItems spacedItems]. destruct (wsItems m (S i) its0) as [defs rest] eqn:E. simpl in IH.
  destruct (sameItem_bounds it0 it Hnorm Hit) as (En & Eb & Eb0).
  assert (Hsp : sameItems wsRel (map (fun it => (siName it, ruleBounds it)) (if 0 <? i then [whitespaceItem] else [])) (if i =? 0 then [] else [spaces])).
  { destruct i; simpl; constructor; [|constructor]. simpl. auto. }
  assert (Hsingle : wsRel (fst ((fun it => (siName it, ruleBounds it)) (mkItem (siName it0) 1 1))) (fst (single (KDef (siName it)))) /\
                    snd ((fun it => (siName it, ruleBounds it)) (mkItem (siName it0) 1 1)) = snd (single (KDef (siName it)))).
  { simpl. split; [split; auto; congruence|reflexivity]. }
  destruct (Z.eqb_spec (siMax it0) 1) as [E1|Hne].
  - assert (Ebb : bounds it = (Z.to_nat (siMin it0), Some 1)) by (rewrite Eb, E1; reflexivity). 
    assert (Hmax : forall (A : Type) (a b c : A), match bounds it with (_, Some 1) => a | (S _, _) => b | (O, _) => c end = a).
    { intros A a b c. rewrite Ebb. destruct (Z.to_nat (siMin it0)); auto. }
    rewrite Hmax. simpl snd. rewrite map_app, <- app_assoc.
    apply Forall2_app; [exact Hsp|]. simpl. constructor; auto. simpl. split; [split; [exact En|rewrite <- En; exact Href]|].  rewrite Eb0, Ebb, E1. reflexivity.
  - assert (Hrest : wsRel (restName m i it0) (KRest m i)).
    { exists it0. split; auto. exists ct, items. auto. }
    assert (Hmax : forall (A : Type) (a b c : A), match bounds it with (_, Some 1) => a | (S _, _) => b | (O, _) => c end = match fst (bounds it) with S _ => b | O => c end).
    { intros A a b c. rewrite Eb. unfold toBounds. simpl. destruct (Z.ltb_spec 0 (siMax it0)).
      - destruct (Z.to_nat (siMax it0)) as [|[|k]] eqn:Ek; try lia; destruct (Z.to_nat (siMin it0)); auto.
      - destruct (Z.to_nat (siMin it0)); auto. }
    rewrite Hmax. rewrite Eb at 1. cbn [fst toBounds].
    destruct (Z.ltb_spec 0 (siMin it0)) as [Hpos|Hneg].
    + destruct (Z.to_nat (siMin it0)) as [|k] eqn:Ek; [lia|]. simpl snd. rewrite map_app, <- app_assoc. apply Forall2_app; [exact Hsp|].
      constructor; [exact Hsingle|]. constructor; [|exact IH]. split; [exact Hrest|].
      cbn [snd]. rewrite <- (rest_bounds m i it0 it Hnorm Hit Hne). unfold restItem. destruct (Z.ltb_spec 0 (siMin it0)); [reflexivity|lia].
    + destruct (Z.to_nat (siMin it0)) as [|k] eqn:Ek; [|lia]. simpl. constructor; [|exact IH]. simpl. split; [|reflexivity].
      exists it0. split; [exists ct, items; auto|]. split; [lia|reflexivity].
Qed.

Lemma wsItems_only m items : forall i x, In x (fst (wsItems m i items)) -> exists j it, nth_error items j = Some it /\ siMax it <> 1%Z /\
  (dName x = restName m (i + j) it \/ (siMin it <= 0)%Z /\ dName x = optName m (i + j) it).
Proof.
  induction items as [|y items IH]; intros i x; cbn [wsItems]; [intros []|].
  destruct (wsItems m (S i) items) as [defs rest] eqn:E. specialize (IH (S i)). rewrite E in IH. simpl in IH.
  assert (Hd : In x defs -> exists j it, nth_error (y :: items) j = Some it /\ siMax it <> 1%Z /\ (dName x = restName m (i + j) it \/ (siMin it <= 0)%Z /\ dName x = optName m (i + j) it)).
  { intros Hx. destruct (IH x Hx) as (j & it & H1 & H2 & H3). exists (S j), it. replace (i + S j) with (S (i + j)) by lia. auto. }
  destruct (Z.eqb_spec (siMax y) 1); auto. destruct (Z.ltb_spec 0 (siMin y)); simpl.
  - intros [<-|Hx]; auto. exists 0, y. split; auto. split; auto. left. rewrite Nat.add_0_r. auto.
  - intros [<-|[<-|Hx]]; auto; exists 0, y; split; auto; split; auto; rewrite Nat.add_0_r; [left; auto|right; split; auto; lia].
Qed.

Lemma labels n ct ct0 : hasFlag ct0 CAlias = (hasFlag ct CAlias || existsb (String.eqb n) (whitespaceNames calls) || String.eqb n name)%bool ->
  forall n', (hasFlag ct0 CAlias = false -> n' = n) -> heapLabel n' ct0 = labelOf calls n ct.
Proof.
  intros H n' Hn. unfold heapLabel, labelOf, isRootName. rewrite Hname, (spacing_true calls Hws), (String.eqb_sym name n). cbn [andb]. rewrite <- H.
  destruct (hasFlag ct0 CAlias); auto. rewrite Hn; auto.
Qed.

Lemma body_sim m : R0 m <> None -> sameObj wsRel (ruleGraph R1 (if String.eqb m name then wsroot else m)) (bodyOf calls m).
Proof.
  intros Hm. destruct (R0 m) as [r|] eqn:Er; [|contradiction]. destruct (sh_body _ _ _ _ _ Hsh m r Er) as (ct & Hb & Hf).
  unfold ruleGraph. rewrite Hb. pose proof (Hsame m) as Hs. rewrite Er in Hs. unfold bodyOf.
  destruct (grammarOf calls m) as [r'|] eqn:Eg; [|destruct Hs]. destruct Hs as [cn ch rs|c c' its its' Hfl Hits|c c' os Hfl].
  - simpl. auto.
  - destruct Hf as [Hf1 Hf2]; [discriminate|]. simpl in Hf1, Hf2. destruct Hfl as (Fl1 & Fl2 & Fl3). rewrite Fl3 in Hf2. simpl. split; [|split].
    + apply labels; auto. intros X. rewrite X in Hf2. symmetry in Hf2. apply orb_false_iff in Hf2. destruct Hf2 as [_ ->]. auto.
    + congruence.
    + rewrite (spacing_true calls Hws), <- Fl2. simpl. pose proof (sh_normal _ _ _ _ _ Hsh _ _ _ Er) as Hn.
      destruct (compact c) eqn:Ec; simpl.
      * assert (Hr : forall it, In it its -> R0 (siName it) <> None) by (intros; eapply ws_refs; eauto).
        clear - Hits Hr Hn. induction Hits as [|x y its its' Hxy Hits IH]; simpl; constructor.
        -- inversion Hn; subst. destruct (sameItem_bounds x y) as (E1 & E2 & E3); auto. simpl. split; [split; auto; rewrite <- E1; apply Hr; left; auto|congruence].
        -- inversion Hn; subst. apply IH; auto. intros; apply Hr; right; auto.
      * apply (spaced_rel m c its); auto.
  - destruct Hf as [Hf1 Hf2]; [discriminate|]. simpl in Hf1, Hf2. destruct Hfl as (Fl1 & Fl2 & Fl3). rewrite Fl3 in Hf2. simpl. split.
    + apply labels; auto. intros X. rewrite X in Hf2. symmetry in Hf2. apply orb_false_iff in Hf2. destruct Hf2 as [_ ->]. auto.
    + assert (Hr : forall o, In o os -> R0 o <> None) by (intros; eapply ws_opts; eauto). clear - Hr. induction os; simpl; constructor.
      * simpl. split; auto. apply Hr; left; auto.
      * apply IHos. intros; apply Hr; right; auto.
Qed.

Lemma itemAt_of m i it0 : itemAt m i it0 -> exists it, itemOf calls m i = Some it /\ sameItem it0 it /\ normal it0 /\ R0 (siName it0) <> None.
Proof.
  intros (ct & items & Hm & Hc & Hi & _). pose proof (Hsame m) as Hs. rewrite Hm in Hs. unfold itemOf.
  pose proof (sh_normal _ _ _ _ _ Hsh _ _ _ Hm) as Hn. assert (Hin : In it0 items) by (eapply nth_error_In; eauto).
  destruct (grammarOf calls m) as [r'|] eqn:Eg; [|destruct Hs]. inversion Hs as [|c c' its its' Hfl Hits|]; subst.
  assert (Hex : exists it, nth_error its' i = Some it /\ sameItem it0 it).
  { clear - Hits Hi. revert i Hi. induction Hits as [|x y l l' Hxy Hits IH]; intros [|i] Hi; try discriminate; simpl in *.
    - inversion Hi; subst. eauto.
    - eauto. }
  destruct Hex as (it & H1 & H2). exists it. split; auto. split; auto. split; [rewrite Forall_forall in Hn; auto|]. eapply ws_refs; eauto.
Qed.

Lemma ws_sim : sim (ruleGraph R1) (graphOf calls) wsRel.
Proof.
  intros n k H. destruct k as [m|m| |m i|m i]; simpl in H.
  - destruct H as [-> Hm]. cbn [graphOf]. unfold isRootName. rewrite Hname, (spacing_true calls Hws). simpl.
    pose proof (body_sim m Hm) as Hb. rewrite (String.eqb_sym name m). destruct (String.eqb_spec m name) as [->|]; auto.
    unfold ruleGraph. rewrite (sh_root _ _ _ _ _ Hsh). simpl. split; [reflexivity|]. split; auto.
    constructor; [simpl; auto|]. constructor; [simpl; auto|]. constructor; [simpl; auto|constructor].
  - destruct H as [-> ->]. assert (Hm : R0 name <> None) by (apply defined_R0; auto). pose proof (body_sim name Hm) as Hb. rewrite String.eqb_refl in Hb. exact Hb.
  - subst n. unfold ruleGraph. rewrite (sh_ws _ _ _ _ _ Hsh). simpl. split; auto.
    assert (Hr : forall o, In o (whitespaceNames calls) -> R0 o <> None) by apply wsNames_R0. clear - Hr. induction (whitespaceNames calls); simpl; constructor.
    + simpl. split; auto. apply Hr; left; auto.
    + apply IHl. intros; apply Hr; right; auto.
  - destruct H as (it0 & Hat & ->). destruct (itemAt_of _ _ _ Hat) as (it & Hit & Hs & Hn & Hd). simpl. rewrite Hit. simpl.
    destruct Hat as (ct & items & Hm & Hc & Hi & H1). pose proof (rest_in m items 0 i it0 Hi H1) as Hin. simpl in Hin.
    apply (sh_helper _ _ _ _ _ Hsh _ _ _ _ Hm Hc) in Hin. simpl in Hin. unfold ruleGraph. rewrite Hin. simpl. split; [reflexivity|]. split; auto.
    destruct Hs as [Hs1 _]. constructor; [simpl; auto|]. constructor; [simpl; split; auto; split; congruence|constructor].
  - destruct H as (it0 & Hat & Hmin & ->). destruct (itemAt_of _ _ _ Hat) as (it & Hit & Hs & Hn & Hd). simpl. rewrite Hit. simpl.
    pose proof Hat as (ct & items & Hm & Hc & Hi & H1). pose proof (opt_in m items 0 i it0 Hi H1 Hmin) as Hin. cbn [Nat.add] in Hin.
    apply (sh_helper _ _ _ _ _ Hsh _ _ _ _ Hm Hc) in Hin. unfold ruleGraph. simpl in Hin. rewrite Hin. simpl. split; [reflexivity|]. split; auto.
    pose proof (rest_bounds m i it0 it Hn Hs H1) as Hrb. destruct Hs as [Hs1 _].
    assert (Htail : sameItems wsRel (map (fun it => (siName it, ruleBounds it)) [mkItem (siName it0) 1 1; restItem m i it0]) [single (KDef (siName it)); (KRest m i, lessOne (bounds it))]).
    { constructor; [simpl; split; auto; split; congruence|]. constructor; [|constructor]. cbn [fst snd]. split; [exists it0; auto|auto]. }
    destruct i; simpl; auto. constructor; auto. simpl. auto.
Qed.

Lemma keys_ws : ruleKeys calls R1 name wsRel.
Proof.
  constructor.
  - apply ws_sim.
  - intros n Hn. destruct (sh_only _ _ _ _ _ Hsh n Hn) as [->|[->|[(m & Hm & Enn)|(m & ct & items & x & Hm & Hc & Hx & Enn)]]]; try subst n.
    + exists KWs. simpl. auto.
    + exists (KDef name). simpl. split; auto. apply defined_R0; auto.
    + destruct (String.eqb_spec m name) as [Em|Em]; [exists (KBody name); simpl; auto|exists (KDef m); simpl; auto].
    + destruct (wsItems_only _ _ _ _ Hx) as (j & it & Hj & H1 & [E|[Hmin E]]); rewrite E.
      * exists (KRest m j). exists it. split; auto. exists ct, items. auto.
      * exists (KOpt m j). exists it. split; auto. exists ct, items. auto.
  - simpl. split; auto. apply defined_R0; auto.
  - intros n k H.
    assert (Hr : forall m i it0, itemAt m i it0 -> exists it, itemOf calls m i = Some it /\ snd (bounds it) <> Some 1).
    { intros m i it0 Hat. destruct (itemAt_of _ _ _ Hat) as (it & Hit & Hs & Hn & _). exists it. split; auto.
      destruct (sameItem_bounds it0 it Hn Hs) as (_ & -> & _). destruct Hat as (_ & _ & _ & _ & _ & H1). unfold toBounds. simpl.
      destruct (Z.ltb_spec 0 (siMax it0)); [|discriminate]. intros X; inversion X. lia. }
    destruct k as [m|m| |m i|m i]; simpl in *; auto; [destruct H as (it & H & _)|destruct H as (it & H & _)]; eapply Hr; eauto.
  - intros n ct os Hn Hk. assert (Hsome : R1 n <> None) by congruence.
    destruct (sh_only _ _ _ _ _ Hsh n Hsome) as [E|[E|[(m & Hm & E)|(m & c & items & x & Hm & Hc & Hx & E)]]]; rewrite E in Hn.
    + rewrite (sh_ws _ _ _ _ _ Hsh) in Hn. inversion Hn; subst ct. discriminate.
    + rewrite (sh_root _ _ _ _ _ Hsh) in Hn. discriminate.
    + destruct (R0 m) as [r|] eqn:Er; [|contradiction]. destruct (sh_body _ _ _ _ _ Hsh m r Er) as (c & Hb & Hf). rewrite Hb in Hn.
      destruct r as [cn ch rs|c0 its|c0 os0]; try discriminate. inversion Hn; subst c os0. destruct Hf as [Hf _]; [discriminate|]. simpl in Hf.
      pose proof (Hsame m) as Hs. rewrite Er in Hs. destruct (grammarOf calls m) as [r'|] eqn:Eg; [|destruct Hs]. inversion Hs; subst.
      match goal with X : sameFlags c0 ?c' |- _ => exists m, c', os; split; auto; destruct X as [X _]; congruence end.
    + rewrite (sh_helper _ _ _ _ _ Hsh _ _ _ _ Hm Hc Hx) in Hn. apply wsItems_alias in Hx. destruct Hx as (_ & its & Ex). rewrite Ex in Hn. discriminate.
Qed.
End WS.

Theorem setup_keys calls s' PL root name R1 : setup calls s' PL root name R1 -> wsReady calls -> exists rel, ruleKeys calls R1 name rel.
Proof.
  intros Su Hw. destruct (su_rules _ _ _ _ _ _ Su) as [[Hno ->]|(Hws & R0 & Hs & Hsh)].
  - eexists. apply keys_noWs; auto.
  - exists (wsRel name R0). apply keys_ws; auto; [apply Su|apply Su|apply Hw; auto].
Qed.
