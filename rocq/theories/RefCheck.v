(** A check for definitions without left recursion, and the closure of the graph of the calls. *)
From Verif Require Import Base Utf8 IdSet Results Parser Build Syntax ListFacts ResultsFacts ParseFacts TermFacts NoPanic Lang Sound RunFacts Restrict Grammar WsLang ApiSpec InitWalk InitRun InitOk SyntaxFacts InitCore InitSpec InitFuel Rep Live LangGen Api WsObjs WsGen WsShape WsNames WsDistinct Utf8Facts WsApi ApiFacts RefSpec RefFuel RefParse RefBuild RefRun RefSim RefApi RefTotal.

Definition key_eq (a b : key) : bool :=
  match a, b with
  | KDef n, KDef m => String.eqb n m
  | KBody n, KBody m => String.eqb n m
  | KWs, KWs => true
  | KRest n i, KRest m j => String.eqb n m && (i =? j)
  | KOpt n i, KOpt m j => String.eqb n m && (i =? j)
  | _, _ => false
  end.

Section CHECK.
Variable calls : list defcall.
Notation G := (graphOf calls).

Definition ruleKeysOf (p : string * rule) : list key :=
  let n := fst p in
  [KDef n; KBody n] ++
  match snd p with RSeq _ items => map (KRest n) (seq 0 (List.length items)) ++ map (KOpt n) (seq 0 (List.length items)) | _ => [] end.
Definition keysOf : list key := KWs :: flat_map ruleKeysOf (flat_map callRules calls).

(** the members of a table of empty keys *)
Definition member (l : list key) (k : key) : bool := existsb (key_eq k) l.
Definition emptyStep (l : list key) (k : key) : bool :=
  match G k with
  | Some (GSeq _ _ items) => forallb (fun x => (fst (snd x) =? 0) || member l (fst x)) items
  | Some (GChoice _ options) => existsb (member l) options
  | _ => false
  end.
Fixpoint emptyKeys (n : nat) : list key :=
  match n with O => [] | S n' => filter (emptyStep (emptyKeys n')) keysOf end.
Fixpoint firstItems (E : key -> bool) (items : list (key * (nat * option nat))) : list key :=
  match items with
  | [] => []
  | (x, (mn, _)) :: items' => x :: if (mn =? 0) || E x then firstItems E items' else []
  end.
Definition starts (E : key -> bool) (k : key) : list key :=
  match G k with
  | Some (GSeq _ _ items) => firstItems E items
  | Some (GChoice _ options) => options
  | _ => []
  end.
Fixpoint depth (E : key -> bool) (n : nat) (k : key) : nat :=
  match n with O => 0 | S n' => S (fold_right (fun x m => Nat.max (depth E n' x) m) 0 (starts E k)) end.
Definition leftFree (rounds : nat) : bool :=
  let E := member (emptyKeys rounds) in
  forallb (fun k => implb (emptyStep (emptyKeys rounds) k) (E k)) keysOf &&
  forallb (fun k => forallb (fun x => depth E rounds x <? depth E rounds k) (starts E k)) keysOf.

Lemma keys_cover k : G k <> None -> In k keysOf.
Proof.
  assert (Hrule : forall n r, grammarOf calls n = Some r -> forall k, In k (ruleKeysOf (n, r)) -> In k keysOf).
  { intros n r H k' Hk. right. apply in_flat_map. exists (n, r). split; auto. apply ruleIn_pair. auto. }
  assert (Hbody : forall n, bodyOf calls n <> None -> exists r, grammarOf calls n = Some r).
  { intros n H. unfold bodyOf in H. destruct (grammarOf calls n); eauto. congruence. }
  assert (Hitem : forall n i, itemOf calls n i <> None -> exists ct items, grammarOf calls n = Some (RSeq ct items) /\ i < List.length items).
  { intros n i H. unfold itemOf in H. destruct (grammarOf calls n) as [[]|]; try congruence. eexists _, _. split; eauto. apply nth_error_Some. auto. }
  destruct k as [n|n| |n i|n i]; simpl; intros H.
  - assert (exists r, grammarOf calls n = Some r) as (r & Hr).
    { destruct (spacing calls && isRootName calls n) eqn:E; [|auto]. apply andb_true_iff in E. destruct E as [_ E]. unfold isRootName in E.
      destruct (rootName calls) as [r|] eqn:Er; [|discriminate]. apply String.eqb_eq in E. subst r. apply rootName_defined in Er. destruct (grammarOf calls n); eauto. congruence. }
    apply (Hrule _ _ Hr). left; auto.
  - destruct (Hbody n H) as (r & Hr). apply (Hrule _ _ Hr). right; left; auto.
  - left; auto.
  - destruct (Hitem n i) as (ct & items & Hg & Hi); [destruct (itemOf calls n i); simpl in H; congruence|]. apply (Hrule _ _ Hg). right; right. simpl. apply in_or_app; left.
    apply in_map, in_seq. lia.
  - destruct (Hitem n i) as (ct & items & Hg & Hi); [destruct (itemOf calls n i); simpl in H; congruence|]. apply (Hrule _ _ Hg). right; right. simpl. apply in_or_app; right.
    apply in_map, in_seq. lia.
Qed.

Lemma firstItems_In E before x b behind : (forall y mn mx, In (y, (mn, mx)) before -> mn = 0 \/ E y = true) -> In x (firstItems E (before ++ (x, b) :: behind)).
Proof.
  induction before as [|[y [mn mx]] before IH]; intros H; simpl.
  - destruct b as [mn mx]. left; auto.
  - right. assert (Hy : (mn =? 0) || E y = true).
    { destruct (H y mn mx) as [->|Hy]; [left; auto|reflexivity|rewrite Hy; apply orb_true_r]. }
    rewrite Hy. apply IH. intros; eapply H; right; eauto.
Qed.

Theorem leftFree_ok rounds : leftFree rounds = true -> noLeftRecursion calls.
Proof.
  intros H. unfold leftFree in H. set (E := member (emptyKeys rounds)) in *. apply andb_true_iff in H. destruct H as [H1 H2].
  rewrite forallb_forall in H1, H2. exists E, (depth E rounds). split.
  - intros k. pose proof (keys_cover k) as Hc. destruct (G k) as [[cn ch rs|lb nk items|lb options]|] eqn:Eg; auto; assert (Hin : In k keysOf) by (apply Hc; discriminate); specialize (H1 k Hin);
      unfold emptyStep in H1; rewrite Eg in H1.
    + intros Hi. destruct (E k); auto. assert (X : forallb (fun x => (fst (snd x) =? 0) || member (emptyKeys rounds) (fst x)) items = true).
      { apply forallb_forall. intros [x [mn mx]] Hx. simpl. destruct (Hi x mn mx Hx) as [->|Hx']; [reflexivity|]. unfold E in Hx'. rewrite Hx'. apply orb_true_r. }
      rewrite X in H1. discriminate.
    + intros x Hx HEx. destruct (E k); auto. assert (X : existsb (member (emptyKeys rounds)) options = true) by (apply existsb_exists; exists x; auto). rewrite X in H1. discriminate.
  - intros a x Hs. assert (Hin : In a keysOf) by (apply keys_cover; auto; destruct Hs; congruence). specialize (H2 a Hin). rewrite forallb_forall in H2.
    assert (Hx : In x (starts E a)).
    { unfold starts. destruct Hs as [l k before b behind Eg Hb|l options Eg Ho]; rewrite Eg; auto. apply firstItems_In; auto. }
    specialize (H2 x Hx). apply Nat.ltb_lt in H2. auto.
Qed.

(** every key that is referred to is there *)
Lemma graph_closed : allDefined calls -> forall k, match G k with
  | Some (GSeq _ _ items) => forall x b, In (x, b) items -> G x <> None
  | Some (GChoice _ options) => forall x, In x options -> G x <> None
  | _ => True end.
Proof.
  intros Hall.
  assert (Hdef : forall n, grammarOf calls n <> None -> G (KDef n) <> None).
  { intros n H. simpl. destruct (spacing calls && isRootName calls n); [discriminate|]. unfold bodyOf. destruct (grammarOf calls n) as [[]|]; congruence. }
  assert (Hws : G KWs <> None) by (simpl; discriminate).
  assert (Hsp : forall m ct all, grammarOf calls m = Some (RSeq ct all) -> forall its i, (forall j it, nth_error its j = Some it -> nth_error all (i + j) = Some it) ->
     forall x b, In (x, b) (spacedItems m i its) -> G x <> None).
  { intros m ct all Hm. induction its as [|it its IH]; intros i Hi x b; cbn [spacedItems]; [intros []|]. rewrite in_app_iff. intros [Hx|Hx].
    - pose proof (Hi 0 it eq_refl) as Hit. rewrite Nat.add_0_r in Hit.
      assert (Hr : G (KRest m i) <> None /\ G (KOpt m i) <> None) by (simpl; unfold itemOf; rewrite Hm, Hit; simpl; split; discriminate). destruct Hr as [Hr Ho].
      assert (Hk : G (KDef (siName it)) <> None) by (apply Hdef; eapply callRules_refs; eauto; eapply nth_error_In; eauto).
      assert (Hx' : In (x, b) ((if i =? 0 then [] else [spaces]) ++ [plainItem it; single (KDef (siName it)); (KRest m i, lessOne (bounds it)); (KOpt m i, (0, Some 1))])).
      { destruct (bounds it) as [mn mx]. destruct mx as [[|[|mx]]|]; destruct mn as [|mn]; rewrite ?in_app_iff in *; simpl in Hx |- *; tauto. }
      apply in_app_or in Hx'. destruct Hx' as [Hx'|[Hx'|[Hx'|[Hx'|[Hx'|[]]]]]].
      + destruct (i =? 0); [destruct Hx'|]. destruct Hx' as [Hx'|[]]. inversion Hx'; subst; auto.
      + inversion Hx'; subst; auto.
      + inversion Hx'; subst; auto.
      + inversion Hx'; subst; auto.
      + inversion Hx'; subst; auto.
    - apply (IH (S i)) in Hx; auto. intros j it' Hj. replace (S i + j) with (i + S j) by lia. apply Hi. auto. }
  assert (Hbody : forall n, match bodyOf calls n with
    | Some (GSeq _ _ items) => forall x b, In (x, b) items -> G x <> None
    | Some (GChoice _ options) => forall x, In x options -> G x <> None
    | _ => True end).
  { intros n. unfold bodyOf. destruct (grammarOf calls n) as [[cn ch rs|ct its|ct os]|] eqn:Eg; auto.
    - intros x b. destruct (spacing calls && negb (compact ct)).
      + intros Hx. eapply (Hsp n ct its Eg its 0); eauto.
      + intros Hx. apply in_map_iff in Hx. destruct Hx as (it & Ex & Hit). inversion Ex; subst. apply Hdef. eapply callRules_refs; eauto.
    - intros x Hx. apply in_map_iff in Hx. destruct Hx as (o & <- & Ho). apply Hdef. eapply callRules_opts; eauto. }
  intros k. destruct k as [n|n| |n i|n i]; cbn [graphOf]; try apply Hbody.
  - destruct (spacing calls && isRootName calls n) eqn:E; [|apply Hbody].
    assert (Hb : G (KBody n) <> None).
    { apply andb_true_iff in E. destruct E as [_ E]. unfold isRootName in E. destruct (rootName calls) as [r|] eqn:Er; [|discriminate]. apply String.eqb_eq in E. subst r.
      apply rootName_defined in Er. simpl. unfold bodyOf. destruct (grammarOf calls n) as [[]|]; congruence. }
    intros x b [H|[H|[H|[]]]]; inversion H; subst; auto.
  - intros x Hx. apply in_map_iff in Hx. destruct Hx as (o & <- & Ho). apply Hdef. rewrite <- ws_names in Ho. apply in_map_iff in Ho. destruct Ho as (d & <- & Hd). apply filter_In in Hd.
    apply grammar_names, in_map. tauto.
  - unfold itemOf. destruct (grammarOf calls n) as [[cn ch rs|ct its|ct os]|] eqn:Eg; simpl; auto. destruct (nth_error its i) as [it|] eqn:Ei; simpl; auto.
    assert (Hk : G (KDef (siName it)) <> None) by (apply Hdef; eapply callRules_refs; eauto; eapply nth_error_In; eauto).
    intros x b [H|[H|[]]]; inversion H; subst; auto.
  - unfold itemOf. destruct (grammarOf calls n) as [[cn ch rs|ct its|ct os]|] eqn:Eg; simpl; auto. destruct (nth_error its i) as [it|] eqn:Ei; simpl; auto.
    assert (Hk : G (KDef (siName it)) <> None) by (apply Hdef; eapply callRules_refs; eauto; eapply nth_error_In; eauto).
    intros x b Hx. apply in_app_or in Hx. destruct Hx as [Hx|[H|[H|[]]]]; [|inversion H; subst; auto|].
    + destruct (i =? 0); [destruct Hx|]. destruct Hx as [Hx|[]]. inversion Hx; subst. auto.
    + inversion H; subst. simpl. unfold itemOf. rewrite Eg, Ei. simpl. discriminate.
Qed.

Theorem means_total input n o : allDefined calls -> noLeftRecursion calls -> grammarOf calls n <> None ->
  exists r, Means calls input n o r /\ forall r', Means calls input n o r' -> r' = r.
Proof.
  intros Hall (E & rank & HE & Hr) Hn.
  assert (Hk : G (KDef n) <> None).
  { simpl. destruct (spacing calls && isRootName calls n); [discriminate|]. unfold bodyOf. destruct (grammarOf calls n) as [[]|]; congruence. }
  destruct (eval_total G (keywordTexts calls) input E rank HE Hr (graph_closed Hall) (List.length input - o) o (Nat.le_refl _) (rank (KDef n)) (KDef n) (Nat.le_refl _) Hk) as (m & Hm).
  exists (eval G (keywordTexts calls) input m (KDef n) o). split; [split; eauto|]. intros r' Hr'. eapply Gives_fun; [exact Hr'|]. split; eauto.
Qed.
End CHECK.

(** ** Parse *)
Section PARSE.
Variables (calls : list defcall) (s s' : syntax) (name : string) (input : list rune) (r : outcome).
Hypothesis Hdef : usable calls s.
Hypothesis Hws : wsReady calls.
Hypothesis Hkw : literalKeywords calls.
Hypothesis Hrefs : refersToDefs calls.
Hypothesis Hnokw : nokwOnSequences calls.
Hypothesis Hinit : Inits s s' None.
Hypothesis Hroot : rootName calls = Some name.
Hypothesis Hvalid : ~ In runeError input.
Hypothesis Hm : Means calls input name 0 r.

Theorem parse_means s2 t toks : Parses s input REof s2 (Tree t toks) <-> s2 = s' /\ toks = input /\ r = Match (List.length input) [t].
Proof.
  split.
  - intros HP. destruct (Parses_tree _ _ _ _ _ _ _ Hdef HP) as (fuel & PL & root & name1 & R1 & Su & Hr).
    pose proof (su_name _ _ _ _ _ _ Su) as E. rewrite Hroot in E. inversion E; subst name1.
    destruct (setup_only calls s2 PL root name R1 (proj1 Hdef) Hws Hkw Hrefs Hnokw Su input r fuel t toks Hvalid Hm Hr) as [H1 H2]. split; auto.
    apply Parses_run in HP. destruct HP as (f & [err|] & HI & H); [discriminate|]. destruct Hinit as (f' & HI').
    destruct (Nat.le_ge_cases f f') as [L|L].
    + pose proof (Init_mono _ _ s L) as X. rewrite HI in X. specialize (X ltac:(discriminate)). congruence.
    + pose proof (Init_mono _ _ s L) as X. rewrite HI' in X. specialize (X ltac:(discriminate)). congruence.
  - intros (-> & -> & Er). pose proof Hm as Hm'. rewrite Er in Hm'. destruct Hinit as (f' & HI').
    destruct (proj2 Hdef _ _ HI') as (PL & root & name1 & R1 & Su). pose proof (su_name _ _ _ _ _ _ Su) as E. rewrite Hroot in E. inversion E; subst name1.
    destruct (setup_accept calls s' PL root name R1 (proj1 Hdef) Hws Hkw Hrefs Hnokw Su input [t] Hvalid Hm') as (t1 & f & Et & Hf). inversion Et; subst t1.
    exists (f + f'). unfold Parse. assert (L : f' <= f + f') by lia. pose proof (Init_mono _ _ s L) as X. rewrite HI' in X. rewrite X by discriminate. cbn [bind].
    rewrite (su_root _ _ _ _ _ _ Su). rewrite (live_run _ _ _ _ (su_live _ _ _ _ _ _ Su)). rewrite (Hf (f + f') ltac:(lia)). reflexivity.
Qed.
Theorem means_nested s2 t toks : Parses s input REof s2 (Tree t toks) -> wellNested t.
Proof.
  intros HP. apply parse_means in HP. destruct HP as (_ & _ & E). destruct Hm as [_ (n & En)]. rewrite E in En. apply eval_nested in En. destruct En as [_ En]. inversion En; auto.
Qed.
End PARSE.

(** ** the statements of PropRef.v *)
Lemma grammar_call calls d : In d calls -> grammarOf calls (callName d) <> None.
Proof.
  intros Hd. apply grammar_names. destruct (callObjs_split d) as (chs & o & Ec & _ & En & _). rewrite <- En. apply in_map, in_flat_map. exists d. split; auto. rewrite Ec. apply in_or_app; right; left; auto.
Qed.
Lemma refers_all calls : refersToDefs calls -> allDefined calls.
Proof.
  intros H d Hd. specialize (H d Hd). assert (X : forall n, In n (map callName calls) -> grammarOf calls n <> None).
  { intros n Hn. apply in_map_iff in Hn. destruct Hn as (d' & <- & Hd'). apply grammar_call; auto. }
  destruct d; auto.
Qed.
Lemma literal_ready calls : refersToDefs calls -> literalKeywords calls -> wsReady calls.
Proof.
  intros H Hk _. split; [apply refers_all; auto|]. intros d Hd Hf. destruct (Hk d Hd Hf) as (n & ct & chars & ->). exact I.
Qed.
Theorem u_means_one calls s input n o : usable calls s -> refersToDefs calls -> noLeftRecursion calls -> grammarOf calls n <> None ->
  exists r, Means calls input n o r /\ forall r', Means calls input n o r' -> r' = r.
Proof. intros _ Hr Hl Hn. apply means_total; auto using refers_all. Qed.

Theorem u_parse_outcome calls s s' name input r :
  usable calls s -> refersToDefs calls -> literalKeywords calls -> nokwOnSequences calls ->
  rootName calls = Some name -> Inits s s' None -> ~ In runeError input -> Means calls input name 0 r ->
  forall s2 t toks, Parses s input REof s2 (Tree t toks) <-> s2 = s' /\ toks = input /\ r = Match (List.length input) [t].
Proof. intros Hd Hr Hk Hn Hroot Hi Hv Hm. eapply parse_means; eauto using literal_ready. Qed.

Lemma u_accepts_one calls s s' name input ns :
  usable calls s -> refersToDefs calls -> literalKeywords calls -> nokwOnSequences calls ->
  rootName calls = Some name -> Inits s s' None -> ~ In runeError input ->
  Means calls input name 0 (Match (List.length input) ns) -> exists t, ns = [t].
Proof.
  intros Hd Hr Hk Hn Hroot (f & HI) Hv Hm. pose proof (literal_ready _ Hr Hk) as Hws.
  destruct (proj2 Hd _ _ HI) as (PL & root & name1 & R1 & Su). pose proof (su_name _ _ _ _ _ _ Su) as E. rewrite Hroot in E. inversion E; subst name1.
  destruct (setup_accept calls s' PL root name R1 (proj1 Hd) Hws Hk Hr Hn Su input ns Hv Hm) as (t & _ & Et & _). eauto.
Qed.

Theorem u_accepts_iff calls s s' name input :
  usable calls s -> refersToDefs calls -> literalKeywords calls -> nokwOnSequences calls -> noLeftRecursion calls ->
  rootName calls = Some name -> Inits s s' None -> ~ In runeError input ->
  ((exists t, Parses s input REof s' (Tree t input)) <-> (exists ns, Means calls input name 0 (Match (List.length input) ns))).
Proof.
  intros Hd Hr Hk Hn Hl Hroot Hi Hv.
  destruct (u_means_one calls s input name 0 Hd Hr Hl (rootName_defined _ _ Hroot)) as (r & Hm & Hu).
  pose proof (u_parse_outcome calls s s' name input r Hd Hr Hk Hn Hroot Hi Hv Hm) as H. split.
  - intros (t & HP). apply H in HP. destruct HP as (_ & _ & ->). eauto.
  - intros (ns & Hm'). pose proof (Hu _ Hm') as E. destruct (u_accepts_one calls s s' name input ns Hd Hr Hk Hn Hroot Hi Hv Hm') as (t & Et). subst ns. exists t. apply H. auto.
Qed.

Lemma Parses_Inits s input e s' t toks : Parses s input e s' (Tree t toks) -> Inits s s' None.
Proof. intros HP. apply Parses_run in HP. destruct HP as (f & [err|] & HI & H); [discriminate|]. exists f. auto. Qed.

Theorem u_tree_means calls s s' name input t toks :
  usable calls s -> refersToDefs calls -> literalKeywords calls -> nokwOnSequences calls -> noLeftRecursion calls ->
  rootName calls = Some name -> ~ In runeError input -> Parses s input REof s' (Tree t toks) ->
  toks = input /\ Means calls input name 0 (Match (List.length input) [t]).
Proof.
  intros Hd Hr Hk Hn Hl Hroot Hv HP.
  destruct (u_means_one calls s input name 0 Hd Hr Hl (rootName_defined _ _ Hroot)) as (r & Hm & _).
  pose proof (proj1 (u_parse_outcome calls s s' name input r Hd Hr Hk Hn Hroot (Parses_Inits _ _ _ _ _ _ HP) Hv Hm s' t toks) HP) as (_ & -> & E). subst r. auto.
Qed.
Theorem u_tree_nested calls s s' name input t toks :
  usable calls s -> refersToDefs calls -> literalKeywords calls -> nokwOnSequences calls -> noLeftRecursion calls ->
  rootName calls = Some name -> ~ In runeError input -> Parses s input REof s' (Tree t toks) -> wellNested t.
Proof.
  intros Hd Hr Hk Hn Hl Hroot Hv HP. destruct (u_tree_means calls s s' name input t toks Hd Hr Hk Hn Hl Hroot Hv HP) as [_ Hm].
  eapply means_nested; eauto using literal_ready, Parses_Inits.
Qed.
Theorem u_accepted_safe calls s s' name input ns :
  usable calls s -> refersToDefs calls -> literalKeywords calls -> nokwOnSequences calls ->
  rootName calls = Some name -> Inits s s' None -> ~ In runeError input ->
  Means calls input name 0 (Match (List.length input) ns) -> ~ ParsePanics s input REof.
Proof.
  intros Hd Hr Hk Hn Hroot Hi Hv Hm. destruct (u_accepts_one calls s s' name input ns Hd Hr Hk Hn Hroot Hi Hv Hm) as (t & ->).
  eapply Parses_noPanic. apply (u_parse_outcome calls s s' name input _ Hd Hr Hk Hn Hroot Hi Hv Hm). eauto.
Qed.

(** the syntaxes of definition calls *)
Theorem means_one calls s input n o : Defined calls s -> refersToDefs calls -> noLeftRecursion calls -> grammarOf calls n <> None ->
  exists r, Means calls input n o r /\ forall r', Means calls input n o r' -> r' = r.
Proof. intros _ Hr Hl Hn. apply means_total; auto using refers_all. Qed.
Definition parse_outcome calls s s' name input r (Hd : Defined calls s) (Hr : refersToDefs calls) (Hk : literalKeywords calls) := u_parse_outcome calls s s' name input r (defined_usable calls s Hd (literal_ready calls Hr Hk)) Hr Hk.
Definition accepts_iff calls s s' name input (Hd : Defined calls s) (Hr : refersToDefs calls) (Hk : literalKeywords calls) := u_accepts_iff calls s s' name input (defined_usable calls s Hd (literal_ready calls Hr Hk)) Hr Hk.
Definition tree_means calls s s' name input t toks (Hd : Defined calls s) (Hr : refersToDefs calls) (Hk : literalKeywords calls) := u_tree_means calls s s' name input t toks (defined_usable calls s Hd (literal_ready calls Hr Hk)) Hr Hk.
Definition tree_nested calls s s' name input t toks (Hd : Defined calls s) (Hr : refersToDefs calls) (Hk : literalKeywords calls) := u_tree_nested calls s s' name input t toks (defined_usable calls s Hd (literal_ready calls Hr Hk)) Hr Hk.
Definition accepted_safe calls s s' name input ns (Hd : Defined calls s) (Hr : refersToDefs calls) (Hk : literalKeywords calls) := u_accepted_safe calls s s' name input ns (defined_usable calls s Hd (literal_ready calls Hr Hk)) Hr Hk.
