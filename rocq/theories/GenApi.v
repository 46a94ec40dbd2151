(** The parsers of an initialized syntax meet what the generated function needs. *)
From Verif Require Import Base Utf8 IdSet Results Parser Build Syntax ListFacts ResultsFacts ParseFacts TermFacts NoPanic Lang Sound RunFacts Restrict Grammar WsLang ApiSpec InitWalk InitRun InitOk SyntaxFacts InitCore InitSpec InitFuel Rep Live LangGen Api WsObjs WsGen WsShape WsNames WsDistinct Utf8Facts WsApi ApiFacts RefSpec RefFuel RefParse RefBuild RefRun RefSim RefApi DefineFacts.
From Verif Require Import Generate GoSpec GenWalk GenSim GenRun.

Lemma colon_split a b x y : ~ In (Ascii.ascii_of_nat 58) a -> ~ In (Ascii.ascii_of_nat 58) b ->
  a ++ Ascii.ascii_of_nat 58 :: x = b ++ Ascii.ascii_of_nat 58 :: y -> a = b /\ x = y.
Proof.
  revert b. induction a as [|c a IH]; intros [|d b] Ha Hb H; simpl in H.
  - inversion H; auto.
  - inversion H; subst. exfalso. apply Hb. left; auto.
  - inversion H; subst. exfalso. apply Ha. left; auto.
  - inversion H; subst. destruct (IH b) as [E1 E2]; auto; [intros X; apply Ha; right; auto|intros X; apply Hb; right; auto|]. subst. auto.
Qed.
Lemma childName_inj2 n m i j : colonFree n -> colonFree m -> childName n i = childName m j -> n = m /\ i = j.
Proof.
  intros Hn Hm H. assert (E : n = m).
  { unfold childName in H. apply (f_equal list_ascii_of_string) in H. rewrite !list_ascii_app in H. simpl in H.
    apply colon_split in H; auto. destruct H as [H _]. rewrite <- (string_of_list_ascii_of_string n), H. apply string_of_list_ascii_of_string. }
  subst m. split; auto. eapply childName_inj; eauto.
Qed.

Section GRAPH.
Variable calls : list defcall.
Variable s0 : syntax.
Hypothesis Hdef : Defined calls s0.
Hypothesis Hrefs : refersToDefs calls.
Let Hvalid : forall d, In d calls -> isValidSymbol (callName d) = true := proj2 (defineAll_raw _ _ _ Hdef).
Notation G := (graphOf calls).

Lemma graph_once k l kw items i kx b : repeated calls k -> G k = Some (GSeq l kw items) -> nth_error items i = Some (kx, b) -> charKey calls kx = true ->
  exists n, colonFree n /\ kx = KDef (childName n i) /\ (k = KDef n /\ spacing calls && isRootName calls n = false \/ k = KBody n)%bool.
Proof.
  assert (Hbody : forall n l kw items, bodyOf calls n = Some (GSeq l kw items) -> nth_error items i = Some (kx, b) -> charKey calls kx = true ->
     colonFree n /\ kx = KDef (childName n i)).
  { clear k l kw items. intros n l kw items. unfold bodyOf. destruct (grammarOf calls n) as [r|] eqn:Eg; [|discriminate]. pose proof Eg as Hg. apply ruleIn_pair in Hg.
    apply in_flat_map in Hg. destruct Hg as (d & Hd & Hin). destruct r as [cn ch rs|ct its|ct os]; try discriminate. intros E; inversion E; subst; clear E. intros Hi Hc.
    pose proof (valid_colonFree _ (Hvalid d Hd)) as Hcf.
    destruct d as [nm c|nm c cn ch rs|nm c chars|nm c items|nm c opts]; simpl in Hin, Hcf.
    - destruct Hin as [H|[H|[]]]; inversion H; subst. split; auto.
      destruct (spacing calls && negb (compact ct)); simpl in Hi; destruct i as [|[|i]]; simpl in Hi; inversion Hi; auto.
    - destruct Hin as [H|[H|[]]]; inversion H; subst. split; auto.
      destruct (spacing calls && negb (compact ct)); simpl in Hi; destruct i as [|[|i]]; simpl in Hi; inversion Hi; auto.
    - apply in_app_or in Hin. destruct Hin as [Hin|[H|[]]]; [apply charRules_kind in Hin; destruct Hin as (? & ? & ? & Hin); discriminate|]. inversion H; subst. split; auto.
      assert (Hcomp : compact (N.lor c CNoWhitespace) = true).
      { unfold compact. change CNoWhitespace with (2 ^ 3)%N. rewrite hasFlag_bit, N.lor_spec, N.pow2_bits_true, orb_true_r. auto. }
      rewrite Hcomp, andb_false_r in Hi. rewrite !nth_error_map in Hi. destruct (nth_error (seq 0 (List.length chars)) i) as [j|] eqn:Ej; simpl in Hi; [|discriminate].
      assert (L : i < List.length chars) by (rewrite <- (seq_length (List.length chars) 0); apply nth_error_Some; congruence).
      apply nth_error_nth with (d := 0) in Ej. rewrite seq_nth in Ej by auto. simpl in Ej. subst j. inversion Hi; auto.
    - exfalso. destruct Hin as [H|[]]; inversion H; subst. pose proof (Hrefs _ Hd) as Hr. simpl in Hr. apply nth_error_In in Hi.
      assert (Hno : forall it, In it its -> charKey calls (KDef (siName it)) = false) by (intros; eapply def_key; eauto using defined_names).
      destruct (spacing calls && negb (compact ct)).
      + pose proof (spaced_keys calls _ _ 0 Hno _ Hi) as X. simpl in X. congruence.
      + apply in_map_iff in Hi. destruct Hi as (it & E & Hit). inversion E; subst. rewrite Hno in Hc by auto. discriminate.
    - destruct Hin as [H|[]]; inversion H. }
  assert (Hnone : forall x, In x items -> charKey calls (fst x) = false -> nth_error items i = Some x -> x = (kx, b) -> charKey calls kx = true -> False) by (intros x _ H1 _ -> H2; simpl in H1; congruence).
  intros Hsc HG Hi Hc. destruct k as [n|n| |n q|n q]; simpl in HG.
  - destruct (spacing calls && isRootName calls n) eqn:E; [exfalso|destruct (Hbody _ _ _ _ HG Hi Hc) as (H1 & H2); exists n; split; auto].
    destruct (graph_apart calls (defined_names _ _ Hdef) Hrefs (KDef n) l kw items Hsc) as [H|H]; [simpl; rewrite E; auto| |].
    + inversion HG; subst. specialize (H spaces (or_introl eq_refl)). discriminate.
    + specialize (H _ (nth_error_In _ _ Hi)). simpl in H. congruence.
  - destruct (Hbody _ _ _ _ HG Hi Hc) as (H1 & H2). exists n. split; auto.
  - discriminate.
  - exfalso. destruct (graph_apart calls (defined_names _ _ Hdef) Hrefs (KRest n q) l kw items Hsc HG) as [H|H]; [|specialize (H _ (nth_error_In _ _ Hi)); simpl in H; congruence].
    destruct (itemOf calls n q); [|discriminate]. simpl in HG. inversion HG; subst. specialize (H spaces (or_introl eq_refl)). discriminate.
  - exfalso. destruct (graph_apart calls (defined_names _ _ Hdef) Hrefs (KOpt n q) l kw items Hsc HG) as [H|H]; [|specialize (H _ (nth_error_In _ _ Hi)); simpl in H; congruence].
    pose proof Hsc as (it & Hit & Hb). rewrite Hit in HG. simpl in HG. inversion HG; subst.
    specialize (H (KRest n q, lessOne (bounds it))). cbn [fst] in H. rewrite other_key in H by discriminate. assert (X : false = true) by (apply H, in_or_app; right; right; left; auto). discriminate.
Qed.
End GRAPH.

(** what [rel] says of definitions and of the body of the root *)
Lemma setup_keys2 calls s' PL root name R1 : setup calls s' PL root name R1 -> wsReady calls -> exists rel, ruleKeys calls R1 name rel /\
  (forall n m, rel n (KDef m) -> n = m) /\ (forall n n' m, rel n (KBody m) -> rel n' (KBody m) -> n = n') /\
  (forall n m, rel n (KBody m) -> spacing calls && isRootName calls m = true)%bool.
Proof.
  intros Su Hw. destruct (su_rules _ _ _ _ _ _ Su) as [[Hno ->]|(Hws & R0 & Hs & Hsh)].
  - eexists. split; [apply keys_noWs; auto|]. split; [|split]; intros; congruence.
  - exists (wsRel name R0). split; [apply keys_ws; auto; [apply Su|apply Su|apply Hw; auto]|]. split; [|split].
    + intros n m [-> _]. auto.
    + intros n n' m [-> _] [-> _]. auto.
    + intros n m [_ ->]. unfold isRootName. rewrite (su_name _ _ _ _ _ _ Su), String.eqb_refl, andb_true_r.
      destruct Hws as (d & Hd & Hf). unfold spacing. apply existsb_exists. exists d. auto.
Qed.

Section SETUP.
Variables (calls : list defcall) (s s' : syntax) (PL : pheap) (root : addr) (name : string) (R1 : string -> option rule).
Hypothesis Hdef : Defined calls s.
Hypothesis Hws : wsReady calls.
Hypothesis Hkw : literalKeywords calls.
Hypothesis Hrefs : refersToDefs calls.
Hypothesis Su : setup calls s' PL root name R1.
Let A := su_ok _ _ _ _ _ _ Su.
Let P := parsers s'.
Let live := usedIn PL.

Lemma kids_same o : kids o = kidsOf o.
Proof. destruct o; auto. Qed.
Lemma used_same a : live a -> nth_error P a = nth_error PL a.
Proof.
  destruct (su_live _ _ _ _ _ _ Su) as (lv & E & (C1 & C2 & C3) & Hr). rewrite E. intros [(o & Ho & No)|(p & o & Ho & No & Hx)].
  - rewrite E in Ho. rewrite Ho. destruct o; [destruct No| |]; [apply restrict_seq in Ho|apply restrict_choice in Ho]; apply Ho.
  - symmetry. apply restrict_live. rewrite E in Ho. destruct o; [destruct No| |]; [apply restrict_seq in Ho|apply restrict_choice in Ho]; destruct Ho as [H1 H2]; eauto.
Qed.
Lemma live_obj a : live a -> exists o, nth_error PL a = Some o.
Proof.
  intros [(o & Ho & No)|(p & o & Ho & No & Hx)]; eauto. destruct (ao_kids _ _ _ _ _ A) as [K1 K2]. destruct o; [destruct No| |]; simpl in Hx.
  - destruct (K1 _ _ _ _ _ _ _ _ _ Ho Hx) as (ox & H & _). eauto.
  - destruct (K2 _ _ _ _ _ _ _ Ho Hx) as (ox & H & _). eauto.
Qed.
Lemma live_kids a o x : live a -> nth_error PL a = Some o -> In x (kids o) -> live x.
Proof. intros _ Ho Hx. rewrite kids_same in Hx. right. exists a, o. split; auto. split; auto. destruct o; [destruct Hx|exact I|exact I]. Qed.
Lemma live_name x y ox oy : live x -> live y -> nth_error PL x = Some ox -> nth_error PL y = Some oy -> nodeName ox = nodeName oy -> x = y.
Proof.
  destruct (ao_ident _ _ _ _ _ A) as (bn & bi & H). intros Hx Hy Ex Ey E. destruct (H x ox Hx Ex) as [H1 _]. destruct (H y oy Hy Ey) as [H2 _]. congruence.
Qed.
Lemma live_id x y ox oy : live x -> live y -> nth_error PL x = Some ox -> nth_error PL y = Some oy -> nodeID ox = nodeID oy -> x = y.
Proof.
  destruct (ao_ident _ _ _ _ _ A) as (bn & bi & H). intros Hx Hy Ex Ey E. destruct (H x ox Hx Ex) as [_ H1]. destruct (H y oy Hy Ey) as [_ H2]. congruence.
Qed.

(** the key of a character that is an item *)
Lemma char_item rel p op i x ox : ruleKeys calls R1 name rel -> nth_error PL p = Some op -> nth_error (kids op) i = Some x ->
  nth_error PL x = Some ox -> isCh ox = true ->
  exists k n, rel (nodeName op) k /\ colonFree n /\ rel (nodeName ox) (KDef (childName n i)) /\ (k = KDef n /\ spacing calls && isRootName calls n = false \/ k = KBody n)%bool.
Proof.
  intros RK Hp Hi Hox Hc. assert (Hxin : In x (kidsOf op)) by (rewrite <- kids_same; eapply nth_error_In; eauto).
  destruct op as [|nm id commit items ranges gs ac|nm id commit options gs]; [destruct Hxin| |].
  - destruct (ao_rule _ _ _ _ _ A _ _ Hp I) as [Hr Hk]. simpl in Hk. unfold ruleOk in Hr. rewrite Hp in Hr. simpl in Hi.
    destruct Hr as (ct' & its & rest & HR & Hf & Hits & _ & Hac).
    destruct (rk_all _ _ _ _ RK nm) as (k & Hrel); [congruence|]. pose proof (rk_sim _ _ _ _ RK _ _ Hrel) as Hs. unfold sameObj in Hs. unfold ruleGraph at 1 in Hs. rewrite HR in Hs.
    destruct (graphOf calls k) as [[cn ch rs|l kw gits|l os]|] eqn:Eg; try contradiction. destruct Hs as (_ & _ & Hg).
    assert (Hpair : exists kx b, nth_error gits i = Some (kx, b) /\ rel (nodeName ox) kx).
    { clear - Hits Hg Hi Hox. revert its gits i Hits Hg Hi. induction items as [|y items IH]; intros its gits i Hits Hg Hi; [destruct i; discriminate|].
      inversion Hits; subst. inversion Hg; subst. destruct i as [|i]; simpl in Hi.
      - inversion Hi; subst y. destruct y1 as [kx b]. exists kx, b. split; auto. destruct H1 as (o1 & E1 & E2). rewrite Hox in E1. inversion E1; subst o1. rewrite E2. apply H2.
      - simpl. eapply IH; eauto. }
    destruct Hpair as (kx & b & Hgi & Hrx).
    assert (Hck : charKey calls kx = true).
    { rewrite <- (key_char calls name R1 rel (nodeName ox) kx); auto.
      assert (Hrel' : heapRel R1 PL x (nodeName ox)) by (split; [exists ox; auto|apply Hk; auto]).
      rewrite <- (heap_char calls s' PL root name R1 Su x (nodeName ox) Hrel'). unfold charAt. rewrite Hox. destruct ox; try discriminate. auto. }
    destruct (graph_once calls s Hdef Hrefs k l kw gits i kx b (rk_repeated _ _ _ _ RK _ _ Hrel) Eg Hgi Hck) as (n & N1 & -> & N2).
    exists k, n. auto.
  - exfalso. destruct (setup_apart calls s' PL root name R1 (defined_names _ _ Hdef) Hws Hrefs Su) as [_ H2]. destruct (H2 _ _ _ _ _ _ Hp x Hxin) as (o1 & E1 & No). rewrite Hox in E1. inversion E1; subst o1. destruct ox; [destruct No|discriminate|discriminate].
Qed.
Lemma live_once p q op oq i j x ox : live p -> live q -> nth_error PL p = Some op -> nth_error PL q = Some oq ->
  nth_error (kids op) i = Some x -> nth_error (kids oq) j = Some x -> nth_error PL x = Some ox -> isCh ox = true -> p = q /\ i = j.
Proof.
  intros Hlp Hlq Hp Hq Hi Hj Hox Hc. destruct (setup_keys2 _ _ _ _ _ _ Su Hws) as (rel & RK & K1 & K2 & K3).
  destruct (char_item rel p op i x ox RK Hp Hi Hox Hc) as (k1 & n1 & R1' & C1 & X1 & Y1).
  destruct (char_item rel q oq j x ox RK Hq Hj Hox Hc) as (k2 & n2 & R2' & C2 & X2 & Y2).
  apply K1 in X1. apply K1 in X2. rewrite X1 in X2. apply childName_inj2 in X2; auto. destruct X2 as [-> ->]. split; auto.
  apply (live_name p q op oq); auto. destruct Y1 as [[-> S1]| ->], Y2 as [[-> S2]| ->].
  - apply K1 in R1'. apply K1 in R2'. congruence.
  - apply K3 in R2'. congruence.
  - apply K3 in R1'. congruence.
  - eapply K2; eauto.
Qed.

Lemma nonChar_isCh o : nonChar o -> isCh o = false.
Proof. destruct o; simpl; auto. intros []. Qed.

Theorem setup_generates n : List.length P < n -> exists fn, program P (sKeywords s') root n = Ok fn /\
  forall fuel input e, exists out, call fn fuel input e = Some out /\ sameButName (definitionName name) (parseInput P (sKeywords s') root fuel input e) out /\
    (rootNamed P root -> out = parseInput P (sKeywords s') root fuel input e).
Proof.
  intros Hn. enough (HH : exists fn, program P (sKeywords s') root n = Ok fn /\
    forall fuel input e, exists out, call fn fuel input e = Some out /\ (forall o, nth_error P root = Some o -> sameButName (definitionName (nodeName o)) (parseInput P (sKeywords s') root fuel input e) out) /\
    (rootNamed P root -> out = parseInput P (sKeywords s') root fuel input e)).
  { destruct HH as (fn & E1 & E2). exists fn. split; auto. intros fuel input e. destruct (E2 fuel input e) as (out & E3 & E4 & E5). exists out. split; auto. split; auto.
    destruct (ao_nonChar _ _ _ _ _ A) as (o & Ho & No & En). rewrite <- En. apply E4. rewrite used_same; auto. left; eauto. }
  apply run_ok with (live := live); auto.
  - intros a Ha. rewrite used_same by auto. apply live_obj; auto.
  - intros a o x Ha Ho Hx. rewrite used_same in Ho by auto. eapply live_kids; eauto.
  - intros x y ox oy Hx Hy. rewrite !used_same by auto. apply live_name; auto.
  - intros x y ox oy Hx Hy. rewrite !used_same by auto. apply live_id; auto.
  - intros p q op oq i j x ox Hp Hq Ep Eq Hi Hj Ex Hc. rewrite used_same in Ep by auto. rewrite used_same in Eq by auto.
    assert (live x) by (eapply live_kids; [exact Hp|exact Ep|eapply nth_error_In; eauto]). rewrite used_same in Ex by auto. eapply live_once; eauto.
  - intros a n0 i c os gs x ox Ha Ho Hx Ex. rewrite used_same in Ho by auto. assert (live x) by (eapply live_kids; [exact Ha|exact Ho|auto]). rewrite used_same in Ex by auto.
    destruct (setup_apart calls s' PL root name R1 (defined_names _ _ Hdef) Hws Hrefs Su) as [_ H2]. destruct (H2 _ _ _ _ _ _ Ho x Hx) as (o1 & E1 & No). rewrite Ex in E1. inversion E1; subst o1. apply nonChar_isCh; auto.
  - intros k Hk. destruct (proj2 (su_kws _ _ _ _ _ _ Su) Hkw k Hk) as (w & _ & Hl).
    assert (Ho : exists o, nth_error PL k = Some o /\ nonChar o).
    { destruct Hl as (nm & id & commit & items & rs & gs & Ho & _). eexists. split; [exact Ho|exact I]. }
    destruct Ho as (o & Ho & No). assert (live k) by (left; eauto). split; auto. intros (o1 & H1 & H2). rewrite used_same in H1 by auto. rewrite Ho in H1. inversion H1; subst o1.
    rewrite nonChar_isCh in H2 by auto. discriminate.
  - destruct (ao_nonChar _ _ _ _ _ A) as (o & Ho & No & _). assert (live root) by (left; eauto). split; auto. intros (o1 & H1 & H2). rewrite used_same in H1 by auto. rewrite Ho in H1. inversion H1; subst o1.
    rewrite nonChar_isCh in H2 by auto. discriminate.
Qed.
End SETUP.
