(** Related graphs give the same outcomes, with definitions that start with themselves. *)
From Verif Require Import Base Utf8 IdSet Results Parser Build Syntax ListFacts ResultsFacts ParseFacts TermFacts NoPanic Lang Sound RunFacts Restrict Grammar WsLang ApiSpec InitWalk InitRun InitOk SyntaxFacts InitCore InitSpec InitFuel Rep Live LangGen Api WsObjs WsGen WsShape WsNames WsDistinct Utf8Facts WsApi RefSpec RefFuel RefParse RefBuild RefRun RefSim LeftSpec GrowSpec GrowFuel.

Section SIM.
Context {A B : Type}.
Variables (eqA : A -> A -> bool) (eqB : B -> B -> bool).
Variables (G1 : A -> option (gobj A)) (G2 : B -> option (gobj B)) (Rel : A -> B -> Prop).
Variables (K : list (list rune)) (input : list rune).
Hypothesis Hsim : sim G1 G2 Rel.
Hypothesis Heq : forall a b a' b', Rel a b -> Rel a' b' -> eqA a a' = eqB b b'.

Lemma isExtension_sim e e' x x' : Rel e e' -> Rel x x' -> isExtension eqA G1 e x = isExtension eqB G2 e' x'.
Proof.
  intros He Hx. unfold isExtension. pose proof (Hsim x x' Hx) as Hs. unfold sameObj in Hs.
  destruct (G1 x) as [[cn ch rs|l k its|l os]|], (G2 x') as [[cn' ch' rs'|l' k' its'|l' os']|]; try contradiction; auto.
  destruct Hs as (_ & <- & Hi). destruct k; auto. destruct Hi as [|[y b] [y' b'] its its' [Hy Eb] Hi]; auto. simpl in Hy, Eb. subst b'.
  destruct b as [[|[|]] [[|[|]]|]]; auto.
Qed.
Lemma existsb_sim x x' os os' : Rel x x' -> Forall2 Rel os os' -> existsb (eqA x) os = existsb (eqB x') os'.
Proof. intros Hx. induction 1 as [|y y' os os' Hy H IH]; simpl; auto. rewrite (Heq _ _ _ _ Hx Hy), IH. auto. Qed.
Lemma extending_sim x x' : Rel x x' -> extending eqA G1 x = extending eqB G2 x'.
Proof.
  intros Hx. unfold extending. pose proof (Hsim x x' Hx) as Hs. unfold sameObj in Hs.
  destruct (G1 x) as [[cn ch rs|l k its|l os]|], (G2 x') as [[cn' ch' rs'|l' k' its'|l' os']|]; try contradiction; auto.
  destruct Hs as (_ & <- & Hi). destruct k; auto. destruct Hi as [|[y b] [y' b'] its its' [Hy Eb] Hi]; auto. simpl in Hy, Eb. subst b'.
  assert (E : match G1 y with Some (GChoice _ options) => existsb (eqA x) options | _ => false end = match G2 y' with Some (GChoice _ options) => existsb (eqB x') options | _ => false end).
  { pose proof (Hsim y y' Hy) as Hs. unfold sameObj in Hs. destruct (G1 y) as [[]|], (G2 y') as [[]|]; try contradiction; auto. apply existsb_sim; tauto. }
  destruct b as [[|[|]] [[|[|]]|]]; auto.
Qed.
Lemma filter_sim (p : A -> bool) (q : B -> bool) os os' : (forall x x', Rel x x' -> p x = q x') -> Forall2 Rel os os' -> Forall2 Rel (filter p os) (filter q os').
Proof. intros Hp. induction 1 as [|y y' os os' Hy H IH]; simpl; auto. rewrite <- (Hp _ _ Hy). destruct (p y); auto. Qed.
Lemma map_sim (p : A -> bool) (q : B -> bool) os os' : (forall x x', Rel x x' -> p x = q x') -> Forall2 Rel os os' -> map p os = map q os'.
Proof. intros Hp. induction 1 as [|y y' os os' Hy H IH]; simpl; auto. rewrite (Hp _ _ Hy), IH. auto. Qed.
Lemma exts_sim e e' os os' : Rel e e' -> Forall2 Rel os os' -> Forall2 Rel (extensionsOf eqA G1 e os) (extensionsOf eqB G2 e' os').
Proof. intros He. apply filter_sim. intros; apply isExtension_sim; auto. Qed.
Lemma bases_sim e e' os os' : Rel e e' -> Forall2 Rel os os' -> Forall2 Rel (basesOf eqA G1 e os) (basesOf eqB G2 e' os').
Proof. intros He. apply filter_sim. intros; f_equal; apply isExtension_sim; auto. Qed.
Lemma inBlocks_sim e e' os os' : Rel e e' -> Forall2 Rel os os' -> inBlocks eqA G1 e os = inBlocks eqB G2 e' os'.
Proof.
  intros He Ho. unfold inBlocks. f_equal; f_equal; apply map_sim; auto; intros; [|f_equal]; apply isExtension_sim; auto.
Qed.
Lemma evalRound_sim r1 r2 k label from : (forall a b o, Rel a b -> r1 a o = r2 b o) ->
  forall xs xs' t ns, Forall2 Rel xs xs' -> evalRound G1 r1 k label from xs t ns = evalRound G2 r2 k label from xs' t ns.
Proof.
  intros Hr xs xs' t ns H. revert t ns. induction H as [|x x' xs xs' Hx H IH]; intros t ns; cbn [evalRound]; auto.
  pose proof (Hsim x x' Hx) as Hs. unfold sameObj in Hs.
  destruct (G1 x) as [[cn ch rs|l n its|l os]|], (G2 x') as [[cn' ch' rs'|l' n' its'|l' os']|]; try contradiction; auto.
  destruct Hs as (<- & _ & Hi). destruct Hi as [|y y' its its' _ Hi]; auto.
  rewrite (evalItems_sim Rel r1 r2 Hr k its its' 0 t Hi). destruct (evalItems r2 k its' 0 t); auto. destruct (t <? to); auto.
Qed.
Lemma evalGrow_sim r1 r2 k label from : (forall a b o, Rel a b -> r1 a o = r2 b o) ->
  forall j xs xs' t ns, Forall2 Rel xs xs' -> evalGrow G1 r1 k label from j xs t ns = evalGrow G2 r2 k label from j xs' t ns.
Proof.
  intros Hr. induction j as [|j IH]; intros xs xs' t ns H; cbn [evalGrow]; auto.
  rewrite (evalRound_sim r1 r2 k label from Hr xs xs' t ns H). destruct (evalRound G2 r2 k label from xs' t ns); auto. destruct (t <? to); auto.
Qed.
Lemma evalL_sim n : forall a b o, Rel a b -> evalL eqA G1 K input n a o = evalL eqB G2 K input n b o.
Proof.
  induction n as [|n IH]; intros a b o H; auto. cbn [evalL]. pose proof (Hsim a b H) as Hs. unfold sameObj in Hs.
  destruct (G1 a) as [[cn ch rs|l k its|l os]|], (G2 b) as [[cn' ch' rs'|l' k' its'|l' os']|]; try contradiction; auto.
  - destruct Hs as (-> & -> & ->). auto.
  - destruct Hs as (-> & -> & Hi). rewrite (extending_sim a b H), (evalItems_sim Rel _ _ IH n its its' 0 o Hi). auto.
  - destruct Hs as (-> & Ho). rewrite (inBlocks_sim a b os os' H Ho), (evalOptions_sim Rel _ _ IH os os' o NoMatch Ho).
    rewrite (evalOptions_sim Rel _ _ IH _ _ o NoMatch (bases_sim a b os os' H Ho)).
    pose proof (exts_sim a b os os' H Ho) as Hx. destruct Hx as [|x x' xs xs' Hx Hxs]; auto.
    destruct (inBlocks eqB G2 b os'); auto. destruct (evalOptions _ (basesOf eqB G2 b os') o NoMatch); auto. destruct (o <? to); auto.
    apply evalGrow_sim; auto.
Qed.
Theorem GivesL_sim a b o r : Rel a b -> (GivesL eqA G1 K input a o r <-> GivesL eqB G2 K input b o r).
Proof.
  intros H. unfold GivesL. split; intros (H1 & n & Hn); split; auto; exists n; [rewrite <- (evalL_sim n a b o H)|rewrite (evalL_sim n a b o H)]; auto.
Qed.
End SIM.

Lemma keyEqb_spec a b : keyEqb a b = true <-> a = b.
Proof.
  destruct a, b; simpl; rewrite ?andb_true_iff, ?String.eqb_eq, ?Nat.eqb_eq; intuition congruence.
Qed.

(** ** the names of the rules are the keys *)
Lemma grammar_comps calls n : properNames calls -> grammarOf calls n <> None -> exists c, comps n c.
Proof.
  intros [Hn _] H. apply grammar_names in H. apply in_map_iff in H. destruct H as (o & <- & Ho). apply in_flat_map in Ho. destruct Ho as (d & Hd & Ho).
  destruct (Hn d Hd) as (c & Hc). destruct (callObjs_names d o Ho) as [->|(_ & i & ->)]; [eauto|]. eexists. apply comps_child; eauto.
Qed.
Lemma grammar_seq_call calls n ct its : grammarOf calls n = Some (RSeq ct its) -> exists d, In d calls /\ callName d = n.
Proof.
  intros H. apply ruleIn_pair in H. apply in_flat_map in H. destruct H as (d & Hd & H). exists d. split; auto.
  destruct d as [nm c|nm c cn ch rs|nm c chars|nm c items|nm c opts]; simpl in H.
  - destruct H as [H|[H|[]]]; inversion H; auto.
  - destruct H as [H|[H|[]]]; inversion H; auto.
  - apply in_app_or in H. destruct H as [H|[H|[]]]; [|inversion H; auto].
    exfalso. clear - H. revert H. generalize 0. induction chars; intros i; simpl; [tauto|]. intros [H|H]; [inversion H|eauto].
  - destruct H as [H|[]]; inversion H; auto.
  - destruct H as [H|[]]; inversion H; auto.
Qed.

Section WSINJ.
Variables (calls : list defcall) (name : string) (R0 : string -> option rule).
Hypothesis Hdef : grammarOf calls name <> None.
Hypothesis Hall : allDefined calls.
Hypothesis Hsame : forall n, sameOpt (R0 n) (grammarOf calls n).
Hypothesis Hproper : properNames calls.
Let wsroot := patchName [name; "wsroot"%string].

Lemma R0_comps n : R0 n <> None -> exists c, comps n c.
Proof. intros H. apply (grammar_comps calls); auto. apply (defined_R0 calls R0 Hsame); auto. Qed.
Lemma item_names m i it : itemAt R0 m i it -> (exists c, comps (siName it) c) /\ (exists c, comps m c) /\ exists d, In d calls /\ callName d = m.
Proof.
  intros (ct & items & Hm & Hc & Hi & _). split; [|split].
  - apply R0_comps. eapply (ws_refs calls R0 Hall Hsame); eauto. eapply nth_error_In; eauto.
  - apply R0_comps. congruence.
  - pose proof (Hsame m) as Hs. rewrite Hm in Hs. destruct (grammarOf calls m) as [r'|] eqn:Eg; [|destruct Hs]. inversion Hs; subst. eapply grammar_seq_call; eauto.
Qed.
Definition madeName (n : string) : Prop := exists m i it kind, itemAt R0 m i it /\ (kind = "wsrest" \/ kind = "wsopt")%string /\ n = patchName [siName it; m; kind; itoaNat i].
Lemma made_inj m i it kind m' i' it' kind' : itemAt R0 m i it -> itemAt R0 m' i' it' -> (kind = "wsrest" \/ kind = "wsopt")%string -> (kind' = "wsrest" \/ kind' = "wsopt")%string ->
  patchName [siName it; m; kind; itoaNat i] = patchName [siName it'; m'; kind'; itoaNat i'] -> m = m' /\ kind = kind' /\ i = i'.
Proof.
  intros H H' Hk Hk' E. destruct (item_names _ _ _ H) as ((ci & Ci) & (cm & Cm) & Hm), (item_names _ _ _ H') as ((ci' & Ci') & (cm' & Cm') & Hm').
  apply (helper_inj _ _ _ _ _ _ _ _ _ ci cm ci' cm' (proj2 Hproper)) in E; auto using kind_free. tauto.
Qed.
Lemma made_shape n : madeName n -> exists lc, lc <> [] /\ Forall colonFree lc /\ n = String.concat ":" lc /\ (exists x, In x (tl lc) /\ ~ isItoa x) /\ exists pre k, lc = pre ++ [itoaNat k].
Proof.
  intros (m & i & it & kind & H & Hk & ->). destruct (item_names _ _ _ H) as ((cx & Hcx) & (co & Hco) & _).
  destruct (comps_free _ _ Hcx), (comps_free _ _ Hco).
  exists (cx ++ co ++ [kind; itoaNat i]). split; [destruct cx; [congruence|discriminate]|]. split; [apply free_helper; auto using kind_free|].
  split; [apply patch_comps; auto|]. split.
  - exists kind. split; [|apply kind_not; auto]. destruct cx; [congruence|]. simpl. apply in_or_app. right. apply in_or_app. right. left. auto.
  - exists (cx ++ co ++ [kind]), i. rewrite <- !app_assoc. auto.
Qed.
Lemma made_not_defined n : madeName n -> R0 n <> None -> False.
Proof.
  intros H Hn. destruct (R0_comps n Hn) as (c & Hc). destruct (made_shape n H) as (lc & A1 & A2 & A3 & A4 & _). exact (comps_bad _ lc A1 A2 A3 A4 c Hc).
Qed.
Lemma wsroot_cat : exists cr, cr <> [] /\ Forall colonFree (cr ++ ["wsroot"%string]) /\ wsroot = String.concat ":" (cr ++ ["wsroot"%string]).
Proof.
  destruct (grammar_comps calls name Hproper Hdef) as (cr & Hcr). destruct (comps_free _ _ Hcr) as [H1 H2]. exists cr. split; auto. split.
  - apply Forall_app. split; auto. constructor; [unfold colonFree; simpl; intuition discriminate|constructor].
  - destruct Hcr as (c & ds & Ec & En & _). unfold wsroot, patchName. rewrite cat_app by (auto; discriminate). rewrite <- En. reflexivity.
Qed.
Lemma wsroot_not_defined : R0 wsroot <> None -> False.
Proof.
  intros Hn. destruct (R0_comps _ Hn) as (c & Hc). destruct wsroot_cat as (cr & H1 & H2 & E). refine (comps_bad _ (cr ++ ["wsroot"%string]) _ H2 E _ c Hc); [destruct cr; discriminate|].
  exists "wsroot"%string. split; [|apply itoa_not; reflexivity]. destruct cr; [congruence|]. simpl. apply in_or_app. right; left; auto.
Qed.
Lemma ws_free : Forall colonFree [""; "ws"]%string.
Proof. constructor; [unfold colonFree; simpl; tauto|]. constructor; [unfold colonFree; simpl; intuition discriminate|constructor]. Qed.
Lemma ws_not_defined : R0 whitespaceName <> None -> False.
Proof.
  intros Hn. destruct (R0_comps _ Hn) as (c & Hc). refine (comps_bad _ [""; "ws"]%string _ ws_free eq_refl _ c Hc); [discriminate|].
  exists "ws"%string. split; [left; auto|apply itoa_not; reflexivity].
Qed.
Lemma made_last n lc x : madeName n -> Forall colonFree (lc ++ [x]) -> ~ isItoa x -> n <> String.concat ":" (lc ++ [x]).
Proof.
  intros Hh Hf Hx E. destruct (made_shape n Hh) as (l1 & A1 & A2 & A3 & _ & pre & k & A5). rewrite A3 in E.
  apply cat_inj in E; auto; [|destruct lc; discriminate]. rewrite A5 in E. apply app_inj_tail in E. destruct E as [_ E]. apply Hx. exists k. auto.
Qed.
Lemma made_not_ws : ~ madeName whitespaceName.
Proof. intros H. apply (made_last _ [""]%string "ws"%string H ws_free); [apply itoa_not; reflexivity|reflexivity]. Qed.
Lemma made_not_wsroot : ~ madeName wsroot.
Proof. intros H. destruct wsroot_cat as (cr & _ & H2 & E). apply (made_last _ cr "wsroot"%string H H2); [apply itoa_not; reflexivity|exact E]. Qed.
Lemma ws_not_wsroot : whitespaceName <> wsroot.
Proof.
  intros E. destruct wsroot_cat as (cr & H1 & H2 & E2). rewrite E2 in E. change whitespaceName with (String.concat ":" [""; "ws"]%string) in E.
  apply cat_inj in E; auto; [|discriminate|destruct cr; discriminate|exact ws_free]. change [""; "ws"]%string with ([""%string] ++ ["ws"%string])%list in E. apply app_inj_tail in E. destruct E as [_ E]. discriminate.
Qed.

Notation rel := (wsRel name R0).
Lemma rel_cases n k : rel n k -> (R0 n <> None /\ k = KDef n) \/ (n = wsroot /\ k = KBody name) \/ (n = whitespaceName /\ k = KWs) \/
  (exists m i it kind, itemAt R0 m i it /\ (kind = "wsrest" \/ kind = "wsopt")%string /\ n = patchName [siName it; m; kind; itoaNat i] /\
     k = if String.eqb kind "wsrest" then KRest m i else KOpt m i).
Proof.
  intros H. destruct k as [m|m| |m i|m i]; simpl in H.
  - destruct H as [-> H]. auto.
  - destruct H as [-> ->]. auto.
  - auto.
  - destruct H as (it & Hat & ->). right; right; right. exists m, i, it, "wsrest"%string. auto.
  - destruct H as (it & Hat & _ & ->). right; right; right. exists m, i, it, "wsopt"%string. auto.
Qed.
Theorem wsRel_key n k k' : rel n k -> rel n k' -> k = k'.
Proof.
  intros H H'.
  assert (Hmade : forall m i it kind, itemAt R0 m i it -> (kind = "wsrest" \/ kind = "wsopt")%string -> n = patchName [siName it; m; kind; itoaNat i] -> madeName n)
    by (intros m i it kind; exists m, i, it, kind; auto).
  assert (Hwd : n = wsroot -> R0 n <> None -> False) by (intros ->; apply wsroot_not_defined).
  assert (Hsd : n = whitespaceName -> R0 n <> None -> False) by (intros ->; apply ws_not_defined).
  assert (Hws : n = whitespaceName -> n = wsroot -> False) by (intros E1 E2; apply ws_not_wsroot; congruence).
  assert (Hmw : madeName n -> n = wsroot -> False) by (intros Hm ->; apply made_not_wsroot; auto).
  assert (Hms : madeName n -> n = whitespaceName -> False) by (intros Hm ->; apply made_not_ws; auto).
  pose proof (made_not_defined n) as Hmd.
  apply rel_cases in H. apply rel_cases in H'.
  destruct H as [[H ->]|[[H ->]|[[H ->]|(m & i & it & kind & Hat & Hk & En & ->)]]], H' as [[H' ->]|[[H' ->]|[[H' ->]|(m' & i' & it' & kind' & Hat' & Hk' & En' & ->)]]];
    auto; try (exfalso; eauto; fail).
  destruct (made_inj m i it kind m' i' it' kind') as (-> & -> & ->); auto. congruence.
Qed.
Theorem wsRel_name n n' k : rel n k -> rel n' k -> n = n'.
Proof.
  intros H H'. destruct k as [m|m| |m i|m i]; simpl in H, H'.
  - destruct H as [-> _], H' as [-> _]. auto.
  - destruct H as [-> _], H' as [-> _]. auto.
  - congruence.
  - destruct H as (it & (ct & its & E1 & _ & E2 & _) & ->), H' as (it' & (ct' & its' & E1' & _ & E2' & _) & ->). congruence.
  - destruct H as (it & (ct & its & E1 & _ & E2 & _) & _ & ->), H' as (it' & (ct' & its' & E1' & _ & E2' & _) & _ & ->). congruence.
Qed.
End WSINJ.

Theorem setup_keysI calls s' PL root name R1 : setup calls s' PL root name R1 -> wsReady calls -> (hasWhitespaceDef calls -> properNames calls) ->
  exists rel, ruleKeys calls R1 name rel /\ (forall n k k', rel n k -> rel n k' -> k = k') /\ (forall n n' k, rel n k -> rel n' k -> n = n').
Proof.
  intros Su Hw Hp. destruct (su_rules _ _ _ _ _ _ Su) as [[Hno ->]|(Hws & R0 & Hs & Hsh)].
  - eexists. split; [apply keys_noWs; auto|]. split; [intros n k k' -> ->; auto|intros n n' k -> E; congruence].
  - exists (wsRel name R0). split; [apply keys_ws; auto; [apply Su|apply Su|apply Hw; auto]|]. split.
    + intros n k k'. apply (wsRel_key calls); auto; [apply Su|apply Hw; auto].
    + intros n n' k. apply wsRel_name.
Qed.

(** ** the parsers and the keys *)
Section KEYS.
Variables (calls : list defcall) (s' : syntax) (PL : pheap) (root : addr) (name : string) (R1 : string -> option rule).
Hypothesis Hws : wsReady calls.
Hypothesis Hproper : hasWhitespaceDef calls -> properNames calls.
Hypothesis Su : setup calls s' PL root name R1.
Let A := su_ok _ _ _ _ _ _ Su.

Theorem heap_keys : exists keyOf : addr -> key -> Prop, sim (heapGraph PL) (graphOf calls) keyOf /\
  (forall a k a' k', keyOf a k -> keyOf a' k' -> Nat.eqb a a' = keyEqb k k') /\ keyOf root (KDef name).
Proof.
  destruct (setup_keysI _ _ _ _ _ _ Su Hws Hproper) as (rel & RK & Hk & Hn).
  exists (fun a k => usedIn PL a /\ exists n, heapRel R1 PL a n /\ rel n k). split; [|split].
  - intros a k (_ & n & Hr & Hnk).
    pose proof (heap_sim R1 PL (ao_rule _ _ _ _ _ A) a n Hr) as H1. pose proof (rk_sim _ _ _ _ RK n k Hnk) as H2.
    assert (Hused : forall x ob, nth_error PL a = Some ob -> nonChar ob -> In x (kidsOf ob) -> usedIn PL x) by (intros x ob Ho Hc Hx; right; exists a, ob; auto).
    unfold sameObj, heapGraph in *. destruct (nth_error PL a) as [[nm i cn ch rs|nm i ct items ranges gs ac|nm i ct options gs]|], (ruleGraph R1 n) as [[cn' ch' rs'|l' kw' its'|l' os']|]; try contradiction;
      destruct (graphOf calls k) as [[cn2 ch2 rs2|l2 kw2 its2|l2 os2]|]; try contradiction; auto.
    + destruct H1 as (-> & -> & ->). auto.
    + destruct H1 as (-> & -> & H1), H2 as (-> & -> & H2). split; auto. split; auto.
      assert (Hu : forall x b, In (x, b) (objItems items ranges) -> usedIn PL x).
      { intros x b Hx. eapply Hused; [reflexivity|exact I|]. simpl. unfold objItems in Hx. apply in_combine_l in Hx. auto. }
      clear - H1 H2 Hu. unfold sameItems in *. revert its2 H2.
      match type of H1 with Forall2 _ ?l _ => change (forall x b, In (x, b) l -> usedIn PL x) in Hu; revert Hu; remember l as l0 eqn:El; clear El; intros Hu end.
      induction H1 as [|[x bx] y its its' [Hx Ex] H1 IH]; intros its2 H2; inversion H2 as [|? z ? ? [Hz Ez] H2']; subst; constructor.
      * simpl in *. split; [split; [apply (Hu x bx); left; auto|exists (fst y); auto]|congruence].
      * apply IH; auto. intros; eapply Hu; right; eauto.
    + destruct H1 as (-> & H1), H2 as (-> & H2). split; auto.
      assert (Hu : forall x, In x options -> usedIn PL x) by (intros x Hx; eapply Hused; [reflexivity|exact I|exact Hx]).
      clear - H1 H2 Hu. revert os2 H2.
      induction H1 as [|x y os os' Hx H1 IH]; intros os2 H2; inversion H2 as [|? z ? ? Hz H2']; subst; constructor.
      * split; [apply Hu; left; auto|exists y; auto].
      * apply IH; auto. intros; apply Hu; right; auto.
  - intros a k a' k' (Ha & n & Hr & Hnk) (Ha' & n' & Hr' & Hnk').
    apply Bool.eq_iff_eq_true. rewrite Nat.eqb_eq, keyEqb_spec. split.
    + intros E; destruct E. destruct Hr as [(o & Ho & En) _], Hr' as [(o' & Ho' & En') _]. assert (En0 : n = n') by congruence. rewrite <- En0 in Hnk'. exact (Hk n k k' Hnk Hnk').
    + intros E; destruct E. assert (En0 : n = n') by exact (Hn n n' k Hnk Hnk'). destruct (ao_ident _ _ _ _ _ A) as (byName & byId & Hid).
      destruct Hr as [(o & Ho & En) _], Hr' as [(o' & Ho' & En') _]. destruct (Hid _ _ Ha Ho), (Hid _ _ Ha' Ho'). congruence.
  - destruct (ao_nonChar _ _ _ _ _ A) as (o & Ho & Hc & En). split; [left; eauto|]. exists name. split; [|apply RK]. split; [exists o; auto|]. exact (proj1 (ao_rule _ _ _ _ _ A _ _ Ho Hc)).
Qed.
Theorem meansL_heap input r : MeansL calls input name 0 r <-> GivesL Nat.eqb (heapGraph PL) (keywordTexts calls) input root 0 r.
Proof.
  destruct heap_keys as (keyOf & H1 & H2 & H3). symmetry. apply (GivesL_sim _ _ _ _ keyOf); auto.
Qed.
End KEYS.
