(** Parse and the reference semantics of the definition calls. *)
From Verif Require Import Base Utf8 IdSet Results Parser Build Syntax ListFacts ResultsFacts ParseFacts TermFacts NoPanic Lang Sound RunFacts Restrict Grammar WsLang ApiSpec InitWalk InitRun InitOk SyntaxFacts InitCore InitSpec InitFuel Rep Live LangGen Api WsObjs WsGen WsShape WsNames WsDistinct Utf8Facts WsApi ApiFacts RefSpec RefFuel RefParse RefBuild RefRun RefSim.

(** ** single characters in the graph of the calls *)
Lemma charRules_child n r chars : forall i nm, In (nm, r) (charRules n i chars) -> exists j, nm = childName n j.
Proof.
  induction chars as [|c chars IH]; intros i nm; simpl; [intros []|]. intros [H|H]; [inversion H; subst; eauto|eauto].
Qed.
Lemma charRules_kind n r chars : forall i nm, In (nm, r) (charRules n i chars) -> exists cn ch rs, r = RChar cn ch rs.
Proof.
  induction chars as [|c chars IH]; intros i nm; simpl; [intros []|]. intros [H|H]; [inversion H; subst; eauto|eauto].
Qed.
Lemma child_colon n i m : colonFree m -> m <> childName n i.
Proof. intros H ->. apply H. unfold childName. rewrite list_ascii_app. apply in_or_app. right. left. reflexivity. Qed.
Lemma nodup_pair {A B} (l : list (A * B)) k x y : NoDup (map fst l) -> In (k, x) l -> In (k, y) l -> x = y.
Proof.
  induction l as [|[a b] l IH]; simpl; [tauto|]. intros Hn [E1|H1] [E2|H2]; inversion Hn as [|? ? N1 N2]; subst; auto.
  - congruence.
  - inversion E1; subst. exfalso. apply N1. apply (in_map fst) in H2. exact H2.
  - inversion E2; subst. exfalso. apply N1. apply (in_map fst) in H1. exact H1.
Qed.
Lemma call_rule d : exists r, In (callName d, r) (callRules d) /\ forall cn ch rs, r <> RChar cn ch rs.
Proof.
  destruct d as [nm c|nm c cn ch rs|nm c chars|nm c items|nm c opts]; simpl.
  - eexists. split; [right; left; reflexivity|discriminate].
  - eexists. split; [right; left; reflexivity|discriminate].
  - eexists. split; [apply in_or_app; right; left; reflexivity|discriminate].
  - eexists. split; [left; reflexivity|discriminate].
  - eexists. split; [left; reflexivity|discriminate].
Qed.
Lemma def_notChar calls n : NoDup (map fst (flat_map callRules calls)) -> In n (map callName calls) ->
  forall cn ch rs, ~ In (n, RChar cn ch rs) (flat_map callRules calls).
Proof.
  intros Hnd Hn cn ch rs H. apply in_map_iff in Hn. destruct Hn as (d & <- & Hd). destruct (call_rule d) as (r & Hr & Hc).
  apply (Hc cn ch rs). eapply nodup_pair; eauto. apply in_flat_map. eauto.
Qed.

Lemma root_called calls r : rootName calls = Some r -> In r (map callName calls).
Proof.
  intros Er. unfold rootName in Er. destruct (find isRoot calls) as [e|] eqn:Ef; [apply find_some in Ef; inversion Er; subst; apply in_map; tauto|].
  destruct calls as [|d1 c1] using rev_ind; [discriminate|]. rewrite map_app in Er. simpl in Er. rewrite last_app_one in Er. inversion Er. apply in_map, in_or_app; right; left; auto.
Qed.

Section GRAPH.
Variable calls : list defcall.
Hypothesis Hnd : NoDup (map fst (flat_map callRules calls)).
Hypothesis Hrefs : refersToDefs calls.

Notation G := (graphOf calls).
Definition charKey (k : key) : bool := isGChar (G k).

Lemma def_key n : In n (map callName calls) -> charKey (KDef n) = false.
Proof.
  intros Hn. unfold charKey. simpl. destruct (spacing calls && isRootName calls n); auto. unfold bodyOf.
  pose proof (def_notChar calls n Hnd Hn) as H. destruct (grammarOf calls n) as [[cn ch rs|ct its|ct os]|] eqn:Eg; auto. exfalso. eapply H. apply ruleIn_pair. exact Eg.
Qed.
Lemma other_key k : (forall n, k <> KDef n) -> (forall n, k <> KBody n) -> charKey k = false.
Proof.
  unfold charKey. destruct k as [n|n| |n i|n i]; intros H1 H2; auto.
  - exfalso; eapply H1; eauto.
  - exfalso; eapply H2; eauto.
  - simpl. destruct (itemOf calls n i); auto.
  - simpl. destruct (itemOf calls n i); auto.
Qed.
Lemma spaced_keys m its : forall i, (forall it, In it its -> charKey (KDef (siName it)) = false) -> forall x, In x (spacedItems m i its) -> charKey (fst x) = false.
Proof.
  induction its as [|it its IH]; intros i H x; simpl; [intros []|].
  assert (Hsp : forall y, In y (if i =? 0 then [] else [spaces]) -> charKey (fst y) = false).
  { intros y. destruct (i =? 0); [intros []|]. intros [<-|[]]. reflexivity. }
  assert (Hit : charKey (KDef (siName it)) = false) by (apply H; left; auto).
  assert (Hrest : charKey (KRest m i) = false) by (apply other_key; discriminate).
  assert (Hopt : charKey (KOpt m i) = false) by (apply other_key; discriminate).
  rewrite in_app_iff. intros [Hx|Hx]; [|apply (IH (S i)); auto; intros; apply H; right; auto].
  destruct (bounds it) as [mn mx].
  assert (Hx' : In x ((if i =? 0 then [] else [spaces]) ++ [plainItem it; single (KDef (siName it)); (KRest m i, lessOne (mn, mx)); (KOpt m i, (0, Some 1))])).
  { destruct mx as [[|[|mx]]|]; destruct mn as [|mn]; rewrite ?in_app_iff in *; simpl in Hx |- *; tauto. }
  apply in_app_or in Hx'. destruct Hx' as [Hy|[<-|[<-|[<-|[<-|[]]]]]]; auto.
Qed.
Lemma graph_apart k l kw items : repeated calls k -> G k = Some (GSeq l kw items) ->
  (forall x, In x items -> charKey (fst x) = true) \/ (forall x, In x items -> charKey (fst x) = false).
Proof.
  assert (Hbody : forall n l kw items, bodyOf calls n = Some (GSeq l kw items) ->
     (forall x, In x items -> charKey (fst x) = true \/ isRootName calls (match fst x with KDef m => m | _ => ""%string end) = true /\ charKey (fst x) = true) \/ (forall x, In x items -> charKey (fst x) = false)).
  { clear k l kw items. intros n l kw items. unfold bodyOf. destruct (grammarOf calls n) as [r|] eqn:Eg; [|discriminate]. pose proof Eg as Hg. apply ruleIn_pair in Hg.
    apply in_flat_map in Hg. destruct Hg as (d & Hd & Hin). destruct r as [cn ch rs|ct its|ct os]; try discriminate. intros E; inversion E; subst; clear E.
    assert (Hchild : forall j cn ch rs, grammarOf calls (childName n j) = Some (RChar cn ch rs) -> charKey (KDef (childName n j)) = true).
    { intros j cn ch rs Hg. unfold charKey. simpl. unfold bodyOf. rewrite Hg.
      assert (Hr : isRootName calls (childName n j) = false).
      { unfold isRootName. destruct (rootName calls) as [r|] eqn:Er; auto. apply Bool.not_true_is_false. intros X. apply String.eqb_eq in X.
        subst r. apply root_called in Er. apply (def_notChar calls _ Hnd Er cn ch rs). apply ruleIn_pair. exact Hg. }
      rewrite Hr, andb_false_r. auto. }
    destruct d as [nm c|nm c cn ch rs|nm c chars|nm c items|nm c opts]; simpl in Hin.
    - destruct Hin as [H|[H|[]]]; inversion H; subst. left. intros x Hx. left.
      assert (Ex : x = plainItem (once (childName n 0))). { destruct (spacing calls && negb (compact ct)); simpl in Hx; destruct Hx as [<-|[]]; auto. }
      subst x. cbn [fst plainItem siName once]. eapply Hchild. apply (ruleIn_unique _ _ _ Hnd). apply in_flat_map. exists (DAnyChar n ct). split; auto. left. reflexivity.
    - destruct Hin as [H|[H|[]]]; inversion H; subst. left. intros x Hx. left.
      assert (Ex : x = plainItem (once (childName n 0))). { destruct (spacing calls && negb (compact ct)); simpl in Hx; destruct Hx as [<-|[]]; auto. }
      subst x. cbn [fst plainItem siName once]. eapply Hchild. apply (ruleIn_unique _ _ _ Hnd). apply in_flat_map. exists (DClass n ct cn ch rs). split; auto. left. reflexivity.
    - apply in_app_or in Hin. destruct Hin as [Hin|[H|[]]]; [apply charRules_kind in Hin; destruct Hin as (? & ? & ? & Hin); discriminate|]. inversion H; subst.
      assert (Hcomp : compact (N.lor c CNoWhitespace) = true).
      { unfold compact. change CNoWhitespace with (2 ^ 3)%N. rewrite hasFlag_bit, N.lor_spec, N.pow2_bits_true, orb_true_r. auto. }
      rewrite Hcomp, andb_false_r. left. intros x Hx. left. apply in_map_iff in Hx. destruct Hx as (it & <- & Hit). apply in_map_iff in Hit. destruct Hit as (i & <- & Hi). apply in_seq in Hi.
      cbn [fst plainItem siName once]. destruct (nth_error chars i) as [r|] eqn:Er; [|apply nth_error_None in Er; lia].
      eapply Hchild. apply (ruleIn_unique _ _ _ Hnd). apply in_flat_map. exists (DCharSequence n c chars). split; auto. simpl. apply in_or_app; left.
      assert (Hg : forall cs j q, nth_error cs q = Some r -> In (childName n (j + q), RChar false [r] []) (charRules n j cs)).
      { clear. induction cs as [|c0 cs IH]; intros j q Hq; [destruct q; discriminate|]. destruct q as [|q]; simpl in *.
        - inversion Hq; subst. left. rewrite Nat.add_0_r. auto.
        - right. replace (j + S q) with (S j + q) by lia. auto. }
      apply (Hg chars 0 i Er).
    - destruct Hin as [H|[]]; inversion H; subst. pose proof (Hrefs _ Hd) as Hr. simpl in Hr. right.
      destruct (spacing calls && negb (compact ct)).
      + apply spaced_keys. intros it Hit. apply def_key; auto.
      + intros x Hx. apply in_map_iff in Hx. destruct Hx as (it & <- & Hit). apply def_key; auto.
    - destruct Hin as [H|[]]; inversion H. }
  assert (Hbody' : forall n l kw items, bodyOf calls n = Some (GSeq l kw items) ->
     (forall x, In x items -> charKey (fst x) = true) \/ (forall x, In x items -> charKey (fst x) = false)).
  { intros n l' kw' items' H. destruct (Hbody n l' kw' items' H) as [H1|H1]; auto. left. intros x Hx. destruct (H1 x Hx) as [|[_ ?]]; auto. }

  clear Hbody.
  assert (Hrep : forall n i it, itemOf calls n i = Some it -> snd (bounds it) <> Some 1 -> charKey (KDef (siName it)) = false).
  { intros n i it Hit Hb. unfold itemOf in Hit. destruct (grammarOf calls n) as [[cn ch rs|ct its|ct os]|] eqn:Eg; try discriminate.
    apply nth_error_In in Hit. apply ruleIn_pair in Eg. apply in_flat_map in Eg. destruct Eg as (d & Hd & Hin).
    assert (Honce : forall m, it = once m -> False) by (intros m ->; apply Hb; reflexivity).
    destruct d as [nm c|nm c cn ch rs|nm c chars|nm c items'|nm c opts]; simpl in Hin.
    - destruct Hin as [H|[H|[]]]; inversion H; subst. destruct Hit as [<-|[]]. exfalso; eapply Honce; eauto.
    - destruct Hin as [H|[H|[]]]; inversion H; subst. destruct Hit as [<-|[]]. exfalso; eapply Honce; eauto.
    - apply in_app_or in Hin. destruct Hin as [Hin|[H|[]]]; [apply charRules_kind in Hin; destruct Hin as (? & ? & ? & Hin); discriminate|]. inversion H; subst.
      apply in_map_iff in Hit. destruct Hit as (j & <- & _). exfalso; eapply Honce; eauto.
    - destruct Hin as [H|[]]; inversion H; subst. apply def_key. apply (Hrefs _ Hd); auto.
    - destruct Hin as [H|[]]; inversion H. }
  intros Hsc. destruct k as [n|n| |n i|n i]; simpl.
  - destruct (spacing calls && isRootName calls n) eqn:E; [|apply Hbody'].
    intros H; inversion H; subst. apply andb_true_iff in E. destruct E as [_ E].
    right. intros x [<-|[<-|[<-|[]]]]; try reflexivity. cbn [fst single].
    unfold charKey. simpl. unfold isRootName in E. destruct (rootName calls) as [r|] eqn:Er; [|discriminate]. apply String.eqb_eq in E. subst r.
    pose proof (def_notChar calls n Hnd (root_called _ _ Er)) as Hc. unfold bodyOf. destruct (grammarOf calls n) as [[cn ch rs|ct its|ct os]|] eqn:Eg; auto. exfalso. eapply Hc. apply ruleIn_pair. exact Eg.
  - apply Hbody'.
  - discriminate.
  - destruct Hsc as (it & Hit & Hb). rewrite Hit. simpl. intros H; inversion H; subst; clear H. right. intros x [<-|[<-|[]]]; [reflexivity|]. eapply Hrep; eauto.
  - destruct Hsc as (it & Hit & Hb). rewrite Hit. simpl. intros H; inversion H; subst; clear H. right. intros x Hx.
    apply in_app_or in Hx. destruct Hx as [Hx|[<-|[<-|[]]]].
    + destruct (i =? 0); [destruct Hx|]. destruct Hx as [<-|[]]. reflexivity.
    + eapply Hrep; eauto.
    + apply other_key; discriminate.
Qed.
Lemma graph_options k l os : G k = Some (GChoice l os) -> forall o, In o os -> charKey o = false.
Proof.
  assert (Hbody : forall n, bodyOf calls n = Some (GChoice l os) -> forall o, In o os -> charKey o = false).
  { intros n. unfold bodyOf. destruct (grammarOf calls n) as [[cn ch rs|ct its|ct os']|] eqn:Eg; try discriminate. intros E; inversion E; subst; clear E.
    apply ruleIn_pair in Eg. apply in_flat_map in Eg. destruct Eg as (d & Hd & Hin).
    destruct d as [nm c|nm c cn ch rs|nm c chars|nm c items'|nm c opts]; simpl in Hin.
    - destruct Hin as [H|[H|[]]]; inversion H.
    - destruct Hin as [H|[H|[]]]; inversion H.
    - apply in_app_or in Hin. destruct Hin as [Hin|[H|[]]]; [apply charRules_kind in Hin; destruct Hin as (? & ? & ? & Hin); discriminate|inversion H].
    - destruct Hin as [H|[]]; inversion H.
    - destruct Hin as [H|[]]; inversion H; subst. intros o Ho. apply in_map_iff in Ho. destruct Ho as (x & <- & Hx). apply def_key. apply (Hrefs _ Hd); auto. }
  destruct k as [n|n| |n i|n i]; simpl; try apply Hbody.
  - destruct (spacing calls && isRootName calls n); [discriminate|apply Hbody].
  - intros H; inversion H; subst. intros o Ho. apply in_map_iff in Ho. destruct Ho as (x & <- & Hx). apply def_key. unfold whitespaceNames in Hx.
    apply in_map_iff in Hx. destruct Hx as (d & <- & Hd). apply filter_In in Hd. apply in_map. tauto.
  - destruct (itemOf calls n i); discriminate.
  - destruct (itemOf calls n i); discriminate.
Qed.
End GRAPH.

Section MEANS.
Variables (calls : list defcall) (s' : syntax) (PL : pheap) (root : addr) (name : string) (R1 : string -> option rule).
Hypothesis Hnd : NoDup (map fst (flat_map callRules calls)).
Hypothesis Hws : wsReady calls.
Hypothesis Hkw : literalKeywords calls.
Hypothesis Hrefs : refersToDefs calls.
Hypothesis Hnokw : nokwOnSequences calls.
Hypothesis Su : setup calls s' PL root name R1.

Let A := su_ok _ _ _ _ _ _ Su.

Lemma heap_char a n : heapRel R1 PL a n -> charAt PL a = isGChar (ruleGraph R1 n).
Proof.
  intros H. pose proof (heap_sim R1 PL (ao_rule _ _ _ _ _ A) a n H) as Hs. unfold charAt. unfold sameObj, heapGraph, isGChar in *.
  destruct H as [(o & Ho & _) _]. rewrite Ho in *. destruct o, (ruleGraph R1 n) as [[]|]; auto; contradiction.
Qed.
Lemma key_char rel n k : ruleKeys calls R1 name rel -> rel n k -> isGChar (ruleGraph R1 n) = charKey calls k.
Proof.
  intros RK H. pose proof (rk_sim _ _ _ _ RK n k H) as Hs. unfold charKey, isGChar, sameObj in *.
  destruct (ruleGraph R1 n) as [[]|], (graphOf calls k) as [[]|]; auto; contradiction.
Qed.
Lemma setup_apart : charsApart PL.
Proof.
  destruct (setup_keys _ _ _ _ _ _ Su Hws) as (rel & RK).
  assert (Hnon : forall x : addr, charAt PL x = false -> nth_error PL x <> None -> exists ox, nth_error PL x = Some ox /\ nonChar ox).
  { intros x H1 H2. unfold charAt in H1. destruct (nth_error PL x) as [o|]; [|contradiction]. exists o. split; auto. destruct o; [discriminate|exact I|exact I]. }
  split.
  - intros a nm id commit items ranges gs Ho x Hx. destruct (ao_rule _ _ _ _ _ A _ _ Ho I) as [Hr Hk]. simpl in Hk. unfold ruleOk in Hr. rewrite Ho in Hr.
    destruct Hr as (ct' & its & rest & HR & Hf & Hi & _ & Hac).
    destruct (rk_all _ _ _ _ RK nm) as (k & Hrel); [congruence|]. pose proof (rk_sim _ _ _ _ RK _ _ Hrel) as Hs. unfold sameObj in Hs. unfold ruleGraph at 1 in Hs. rewrite HR in Hs.
    destruct (graphOf calls k) as [[cn ch rs|l kw gits|l os]|] eqn:Eg; try contradiction. destruct Hs as (_ & _ & Hits).
    assert (Hpair : Forall2 (fun (x : addr) y => charAt PL x = charKey calls (fst y) /\ nth_error PL x <> None) items gits).
    { clear Hac Hx Eg Ho HR. revert gits Hits. induction Hi as [|y it items its Hy Hi IH]; intros gits Hits; inversion Hits; subst; constructor.
      - destruct H1 as [H1 _]. simpl in H1. assert (Hrel' : heapRel R1 PL y (siName it)) by (split; auto; apply Hk; left; auto). split.
        + rewrite (heap_char _ _ Hrel'). apply (key_char rel); auto.
        + destruct Hy as (oy & Hoy & _). congruence.
      - apply IH; auto. intros; apply Hk; right; auto. }
    destruct (graph_apart calls Hnd Hrefs k l kw gits (rk_repeated _ _ _ _ RK _ _ Hrel) Eg) as [Hc|Hc].
    + exfalso. assert (Ht : forallb (charAt PL) items = true); [|congruence]. clear - Hpair Hc. induction Hpair as [|y z items gits [H1 _] Hp IH]; simpl; auto.
      rewrite H1, Hc by (left; auto). simpl. apply IH. intros; apply Hc; right; auto.
    + assert (Hx' : charAt PL x = false /\ nth_error PL x <> None).
      { clear - Hpair Hc Hx. induction Hpair as [|y z items gits [H1 H2] Hp IH]; [destruct Hx|]. destruct Hx as [<-|Hx]; [split; auto; rewrite H1; apply Hc; left; auto|].
        apply IH; auto. intros; apply Hc; right; auto. }
      apply Hnon; tauto.
  - intros a nm id commit options gs Ho x Hx. destruct (ao_rule _ _ _ _ _ A _ _ Ho I) as [Hr Hk]. simpl in Hk. unfold ruleOk in Hr. rewrite Ho in Hr.
    destruct Hr as (ct' & os & HR & Hf & Hi).
    destruct (rk_all _ _ _ _ RK nm) as (k & Hrel); [congruence|]. pose proof (rk_sim _ _ _ _ RK _ _ Hrel) as Hs. unfold sameObj in Hs. unfold ruleGraph at 1 in Hs. rewrite HR in Hs.
    destruct (graphOf calls k) as [[cn ch rs|l kw gits|l gos]|] eqn:Eg; try contradiction. destruct Hs as (_ & Hits).
    assert (Hpair : Forall2 (fun (x : addr) y => charAt PL x = charKey calls y /\ nth_error PL x <> None) options gos).
    { clear Hx Eg Ho HR. revert gos Hits. induction Hi as [|y it items its Hy Hi IH]; intros gits Hits; inversion Hits; subst; constructor.
      - assert (Hrel' : heapRel R1 PL y it) by (split; auto; apply Hk; left; auto). split.
        + rewrite (heap_char _ _ Hrel'). apply (key_char rel); auto.
        + destruct Hy as (oy & Hoy & _). congruence.
      - apply IH; auto. intros; apply Hk; right; auto. }
    pose proof (graph_options calls Hnd Hrefs k l gos Eg) as Hc.
    assert (Hx' : charAt PL x = false /\ nth_error PL x <> None).
    { clear - Hpair Hc Hx. induction Hpair as [|y z items gits [H1 H2] Hp IH]; [destruct Hx|]. destruct Hx as [<-|Hx]; [split; auto; rewrite H1; apply Hc; left; auto|].
      apply IH; auto. intros; apply Hc; right; auto. }
    apply Hnon; tauto.
Qed.
Lemma setup_nokw : nokwSequences PL.
Proof.
  destruct (setup_keys _ _ _ _ _ _ Su Hws) as (rel & RK). intros a nm id commit options gs Ho.
  destruct (ao_rule _ _ _ _ _ A _ _ Ho I) as [Hr _]. unfold ruleOk in Hr. rewrite Ho in Hr. destruct Hr as (ct' & os & HR & (Hf & _) & _). rewrite Hf.
  apply Bool.not_true_is_false. intros X. destruct (rk_nokw _ _ _ _ RK _ _ _ HR X) as (m & c & os' & Hg & Hc).
  apply ruleIn_pair in Hg. apply in_flat_map in Hg. destruct Hg as (d & Hd & Hin).
  destruct d as [n1 c1|n1 c1 cn ch rs|n1 c1 chars|n1 c1 items'|n1 c1 opts]; simpl in Hin.
  - destruct Hin as [H|[H|[]]]; inversion H.
  - destruct Hin as [H|[H|[]]]; inversion H.
  - apply in_app_or in Hin. destruct Hin as [Hin|[H|[]]]; [apply charRules_kind in Hin; destruct Hin as (? & ? & ? & Hin); discriminate|inversion H].
  - destruct Hin as [H|[]]; inversion H.
  - destruct Hin as [H|[]]; inversion H; subst. rewrite (Hnokw _ _ _ Hd) in Hc. discriminate.
Qed.

Lemma root_heapRel : heapRel R1 PL root name.
Proof.
  destruct (ao_nonChar _ _ _ _ _ A) as (o & Ho & Hn & En). split; [exists o; auto|]. exact (proj1 (ao_rule _ _ _ _ _ A _ _ Ho Hn)).
Qed.
Lemma means_heap input r : Means calls input name 0 r <-> Gives (heapGraph PL) (keywordTexts calls) input root 0 r.
Proof.
  destruct (setup_keys _ _ _ _ _ _ Su Hws) as (rel & RK). unfold Means.
  rewrite (Gives_sim (heapGraph PL) (ruleGraph R1) (heapRel R1 PL) (keywordTexts calls) input (heap_sim R1 PL (ao_rule _ _ _ _ _ A)) root name 0 r root_heapRel).
  symmetry. apply (Gives_sim _ _ rel); [apply RK|apply RK].
Qed.
Lemma root_labelled input t ns : Gives (heapGraph PL) (keywordTexts calls) input root 0 (Match t ns) -> exists below, ns = [Node name 0 t below].
Proof.
  intros [_ (n & E)]. destruct n as [|n]; [discriminate|]. cbn [eval] in E. destruct (ao_nonChar _ _ _ _ _ A) as (o & Ho & Hn & En).
  pose proof (ao_visible _ _ _ _ _ A _ Ho) as Hv. unfold heapGraph in E at 1. rewrite Ho in E.
  destruct o as [|nm i ct items ranges gs ac|nm i ct options gs]; [destruct Hn| |]; simpl in Hv, En; subst nm; unfold heapLabel in E; rewrite Hv in E.
  - destruct (evalItems _ _ _ _ _) as [| |t1 ns1]; try discriminate. destruct (_ && _); [discriminate|]. simpl in E. inversion E; subst. eauto.
  - destruct (evalOptions _ _ _ _) as [| |t1 ns1]; try discriminate. simpl in E. inversion E; subst. eauto.
Qed.
Lemma kws_in : (forall w, In w (keywordTexts calls) -> exists kw, In kw (sKeywords s') /\ literal PL kw w) /\
  (forall kw, In kw (sKeywords s') -> exists w, In w (keywordTexts calls) /\ literal PL kw w).
Proof. destruct (su_kws _ _ _ _ _ _ Su) as [H1 H2]. split; auto. Qed.
Theorem setup_accept input ns : ~ In runeError input -> Means calls input name 0 (Match (List.length input) ns) ->
  exists t fuel0, ns = [t] /\ forall fuel, fuel0 <= fuel -> parseInput PL (sKeywords s') root fuel input REof = Ok (Tree t input).
Proof.
  intros Hv Hm. apply means_heap in Hm. destruct (root_labelled _ _ _ Hm) as (below & ->).
  destruct (ao_nonChar _ _ _ _ _ A) as (o & Ho & Hn & En). destruct (ao_pwf _ _ _ _ _ A) as [W1 W2 W3 W4].
  destruct (run_accept PL (sKeywords s') (keywordTexts calls) input (ao_ids _ _ _ _ _ A) (ao_gens _ _ _ _ _ A) (proj1 kws_in) (proj2 kws_in) setup_nokw Hv W1 W2 W3 setup_apart root o Ho Hn _ Hm) as (f & Hf).
  eexists _, f. split; [reflexivity|]. exact Hf.
Qed.
Theorem setup_only input r fuel t toks : ~ In runeError input -> Means calls input name 0 r ->
  parseInput PL (sKeywords s') root fuel input REof = Ok (Tree t toks) -> r = Match (List.length input) [t] /\ toks = input.
Proof.
  intros Hv Hm Hr. pose proof Hm as Hm0. apply means_heap in Hm.
  destruct (ao_nonChar _ _ _ _ _ A) as (o & Ho & Hn & En). destruct (ao_pwf _ _ _ _ _ A) as [W1 W2 W3 W4].
  destruct (run_only PL (sKeywords s') (keywordTexts calls) input (ao_ids _ _ _ _ _ A) (ao_gens _ _ _ _ _ A) (proj1 kws_in) (proj2 kws_in) setup_nokw Hv root o Ho Hn r fuel t toks Hm Hr) as (ns & ->).
  destruct (setup_accept input ns Hv Hm0) as (t1 & f & -> & Hf).
  pose proof (Hf (f + fuel) ltac:(lia)) as H1. assert (H2 : parseInput PL (sKeywords s') root (f + fuel) input REof = Ok (Tree t toks)).
  { assert (Hle : fuel <= f + fuel) by lia. pose proof (FuelFacts.parseInput_mono PL (sKeywords s') root fuel (f + fuel) input REof Hle) as X. rewrite Hr in X. apply X. discriminate. }
  rewrite H2 in H1. inversion H1; subst. auto.
Qed.
End MEANS.
