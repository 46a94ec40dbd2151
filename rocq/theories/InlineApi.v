(** Parse when alias definitions are written out. *)
From Verif Require Import Base Utf8 Parser Build Syntax Grammar WsLang ApiSpec ApiFacts RefSpec RefFuel RefFacts RefCheck OrderSpec OrderFacts InlineSpec InlineSim.

Section WRITE.
Variables (calls : list defcall) (sel : string -> bool) (s : syntax).
Notation calls' := (map (writeOut calls sel) calls).
Notation wItem := (writeItem calls sel). Notation wOption := (writeOption calls sel).
Hypothesis Hd : Defined calls s.
Hypothesis Hroot : forall n, sel n = true -> rootName calls <> Some n.
Hypothesis Hsp : spacedAlike calls sel.

Lemma write_name d : callName (writeOut calls sel d) = callName d. Proof. destruct d; auto. Qed.
Lemma write_flags d : callFlags (writeOut calls sel d) = callFlags d. Proof. destruct d; auto. Qed.
Lemma names_write : map callName calls' = map callName calls.
Proof. rewrite map_map. apply map_ext. apply write_name. Qed.
Lemma spacing_write : spacing calls' = spacing calls.
Proof. unfold spacing. generalize calls at 2 3. intros l. induction l as [|d l IH]; simpl; auto. rewrite write_flags, IH. auto. Qed.
Lemma ws_write : whitespaceNames calls' = whitespaceNames calls.
Proof. unfold whitespaceNames. generalize calls at 2 3. intros l. induction l as [|d l IH]; simpl; auto. rewrite write_flags. destruct (hasFlag _ _); simpl; rewrite ?write_name, IH; auto. Qed.
Lemma root_write : rootName calls' = rootName calls.
Proof.
  unfold rootName. assert (E : find isRoot calls' = option_map (writeOut calls sel) (find isRoot calls)).
  { generalize calls at 2 4. intros l. induction l as [|d l IH]; simpl; auto. unfold isRoot at 1 3. rewrite write_flags. destruct (hasFlag _ _); auto. }
  rewrite E. destruct (find isRoot calls) as [d|]; simpl; [rewrite write_name; auto|]. rewrite map_map. f_equal. apply map_ext. intros d. rewrite write_name. auto.
Qed.
Lemma texts_write : keywordTexts calls' = keywordTexts calls.
Proof. unfold keywordTexts. generalize calls at 2 3. intros l. induction l as [|d l IH]; simpl; auto. rewrite IH. destruct d; auto. Qed.
Lemma label_write n ct : labelOf calls' n ct = labelOf calls n ct.
Proof. unfold labelOf, isRootName. rewrite ws_write, spacing_write, root_write. auto. Qed.

(** the rules of the definitions *)
Definition written (n : string) (r r' : option rule) : Prop :=
  r = r' \/
  (exists ct items, In (DSequence n ct items) calls /\ r = Some (RSeq ct items) /\ r' = Some (RSeq ct (flat_map wItem items))) \/
  (exists ct options, In (DChoice n ct options) calls /\ r = Some (RChoice ct options) /\ r' = Some (RChoice ct (flat_map wOption options))).
Lemma rule_write n : written n (grammarOf calls n) (grammarOf calls' n).
Proof.
  unfold grammarOf. assert (X : forall l, incl l calls -> written n (ruleIn (flat_map callRules l) n) (ruleIn (flat_map callRules (map (writeOut calls sel) l)) n)).
  { induction l as [|d l IH]; intros Hl; [left; auto|]. assert (Hl' : incl l calls) by (intros x Hx; apply Hl; right; auto). specialize (IH Hl'). cbn [map flat_map].
    assert (Y : callRules (writeOut calls sel d) = callRules d -> written n (ruleIn (callRules d ++ flat_map callRules l) n) (ruleIn (callRules (writeOut calls sel d) ++ flat_map callRules (map (writeOut calls sel) l)) n)).
    { intros ->. induction (callRules d) as [|[k r] rs IHr]; [exact IH|]. cbn [ruleIn app]. destruct (String.eqb k n); [left; auto|exact IHr]. }
    destruct d as [m ct|m ct cn ch rs|m ct chars|m ct items|m ct options]; try (apply Y; reflexivity); cbn [writeOut callRules app ruleIn]; (destruct (String.eqb_spec m n) as [->|]; [|exact IH]); right; [left|right]; eexists _, _; (split; [apply Hl; left; reflexivity|auto]). }
  apply X. intros x; auto.
Qed.
Lemma call_rule d : In d calls -> forall n r, In (n, r) (callRules d) -> grammarOf calls n = Some r.
Proof. intros Hin n r Hr. eapply grammar_rule; eauto. apply in_flat_map. eauto. Qed.
Lemma callOf_in n d : callOf calls n = Some d -> In d calls /\ callName d = n.
Proof. unfold callOf. intros H. apply find_some in H. destruct H as [H1 H2]. apply String.eqb_eq in H2. auto. Qed.
Lemma not_root n : sel n = true -> isRootName calls n = false.
Proof. intros H. unfold isRootName. destruct (rootName calls) as [r|] eqn:E; auto. destruct (String.eqb_spec r n); auto. subst. exfalso. eapply Hroot; eauto. Qed.
Lemma seqBody_graph n ct items : seqBody calls sel n = Some (ct, items) ->
  graphOf calls (KDef n) = Some (GSeq None false (if spacing calls && negb (compact ct) then spacedItems n 0 items else map plainItem items)) /\
  grammarOf calls n = Some (RSeq ct items).
Proof.
  unfold seqBody. destruct (sel n) eqn:Es; [|discriminate]. destruct (callOf calls n) as [[ | | |m ct0 items0| ]|] eqn:Ec; try discriminate. destruct (hasFlag ct0 CAlias && negb (hasFlag ct0 CNoKeyword))%bool eqn:Ef; [|discriminate]. intros H. injection H as <- <-.
  apply callOf_in in Ec. destruct Ec as [Ec En]. cbn [callName] in En. subst m. pose proof (call_rule _ Ec n (RSeq ct0 items0) (or_introl eq_refl)) as Hg. split; auto.
  apply andb_true_iff in Ef. destruct Ef as [Ea Ek]. apply negb_true_iff in Ek. cbn [graphOf]. rewrite (not_root n Es), andb_false_r. unfold bodyOf, labelOf. rewrite Hg, Ea, Ek. reflexivity.
Qed.
Lemma choiceBody_graph n options : choiceBody calls sel n = Some options -> graphOf calls (KDef n) = Some (GChoice None (map KDef options)).
Proof.
  unfold choiceBody. destruct (sel n) eqn:Es; [|discriminate]. destruct (callOf calls n) as [[ | | | |m ct0 options0]|] eqn:Ec; try discriminate. destruct (hasFlag ct0 CAlias) eqn:Ea; [|discriminate]. intros H. injection H as <-.
  apply callOf_in in Ec. destruct Ec as [Ec En]. cbn [callName] in En. subst m. pose proof (call_rule _ Ec n (RChoice ct0 options0) (or_introl eq_refl)) as Hg.
  cbn [graphOf]. rewrite (not_root n Es), andb_false_r. unfold bodyOf, labelOf. rewrite Hg, Ea. reflexivity.
Qed.

(** keys that mean the same *)
Inductive ksim : key -> key -> Prop :=
| ks_def n : ksim (KDef n) (KDef n)
| ks_body n : ksim (KBody n) (KBody n)
| ks_ws : ksim KWs KWs
| ks_rest n i n' i' it : itemOf calls n i = Some it -> itemOf calls' n' i' = Some it -> ksim (KRest n i) (KRest n' i')
| ks_opt n i n' i' it : itemOf calls n i = Some it -> itemOf calls' n' i' = Some it -> (i =? 0) = (i' =? 0) -> ksim (KOpt n i) (KOpt n' i').
Notation isim := (itemsSim (graphOf calls) ksim). Notation osim := (optionsSim (graphOf calls) ksim).
Lemma spaced_app n a : forall i b, spacedItems n i (a ++ b) = spacedItems n i a ++ spacedItems n (i + List.length a) b.
Proof. induction a as [|it a IH]; intros i b; cbn [spacedItems app List.length]; [rewrite Nat.add_0_r; auto|]. rewrite IH, <- app_assoc, Nat.add_succ_r. auto. Qed.
(** the same items in two places *)
Lemma spaced_same n n' tl tl' : isim tl tl' -> forall items i i', (i =? 0) = (i' =? 0) ->
  (forall j it, nth_error items j = Some it -> itemOf calls n (i + j) = Some it /\ itemOf calls' n' (i' + j) = Some it) ->
  isim (spacedItems n i items ++ tl) (spacedItems n' i' items ++ tl').
Proof.
  intros Ht. induction items as [|it items IH]; intros i i' Ei Hj; cbn [spacedItems app]; auto.
  destruct (Hj 0 it eq_refl) as [J1 J2]. rewrite Nat.add_0_r in J1, J2.
  assert (Hrest : isim (spacedItems n (S i) items ++ tl) (spacedItems n' (S i') items ++ tl')).
  { apply IH; auto. intros j x Hx. specialize (Hj (S j) x Hx). rewrite !Nat.add_succ_r in Hj. exact Hj. }
  rewrite <- !app_assoc. assert (K1 : ksim (KDef (siName it)) (KDef (siName it))) by constructor. assert (K2 : ksim (KRest n i) (KRest n' i')) by (econstructor; eauto). assert (K3 : ksim (KOpt n i) (KOpt n' i')) by (econstructor; eauto).
  assert (K4 : forall x x', isim x x' -> isim ((if i =? 0 then [] else [spaces]) ++ x) ((if i' =? 0 then [] else [spaces]) ++ x')). { intros x x' Hx. rewrite <- Ei. destruct (i =? 0); auto. cbn [app]. apply is_keep; auto. constructor. }
  destruct (bounds it) as [[|mn] [[|[|m]]|]] eqn:Eb; unfold plainItem, single; rewrite ?Eb; rewrite <- ?app_assoc; cbn [app]; try (apply K4; cbn [app]); repeat (apply is_keep; auto).
Qed.
(** a sequence with whitespace between the items *)
Lemma spaced_write n : spacing calls = true -> forall items i i',
  (forall it ctX itemsX, In it items -> isOnce it = true -> seqBody calls sel (siName it) = Some (ctX, itemsX) -> compact ctX = false /\ exists first rest, itemsX = first :: rest /\ (fst (bounds first) <> 0 \/ snd (bounds first) = Some 1)) ->
  (i =? 0) = (i' =? 0) -> (forall j it, nth_error items j = Some it -> itemOf calls n (i + j) = Some it) ->
  (forall j it, nth_error (flat_map wItem items) j = Some it -> itemOf calls' n (i' + j) = Some it) ->
  isim (spacedItems n i items) (spacedItems n i' (flat_map wItem items)).
Proof.
  intros Hspc. induction items as [|it items IH]; intros i i' Hx Ei H1 H2; cbn [flat_map]; [constructor|].
  change (it :: items) with ([it] ++ items). rewrite !spaced_app. cbn [List.length]. rewrite Nat.add_1_r.
  assert (P1 : forall j x, nth_error items j = Some x -> itemOf calls n (S i + j) = Some x) by (intros j x Hj; specialize (H1 (S j) x Hj); rewrite Nat.add_succ_r in H1; exact H1).
  assert (P2 : forall j x, nth_error (flat_map wItem items) j = Some x -> itemOf calls' n (i' + List.length (wItem it) + j) = Some x).
  { intros j x Hj. rewrite <- Nat.add_assoc. apply H2. cbn [flat_map]. rewrite nth_error_app2 by lia. rewrite Nat.add_comm, Nat.add_sub. auto. }
  assert (P3 : forall j x, nth_error (wItem it) j = Some x -> itemOf calls' n (i' + j) = Some x).
  { intros j x Hj. apply H2. cbn [flat_map]. rewrite nth_error_app1; auto. apply nth_error_Some. congruence. }
  assert (Hx' : forall y ctX itemsX, In y items -> isOnce y = true -> seqBody calls sel (siName y) = Some (ctX, itemsX) -> compact ctX = false /\ exists first rest, itemsX = first :: rest /\ (fst (bounds first) <> 0 \/ snd (bounds first) = Some 1)) by (intros; eapply Hx; eauto; right; auto).
  destruct (seqBody calls sel (siName it)) as [[ctX itemsX]|] eqn:Es; [destruct (isOnce it) eqn:Eo|].
  - assert (Ew : wItem it = itemsX) by (unfold writeItem; rewrite Es, Eo; auto). rewrite Ew in *.
    destruct (Hx it ctX itemsX (or_introl eq_refl) Eo Es) as [Hc (first & rest & Ef & Hf)]. destruct (seqBody_graph _ _ _ Es) as [Hg Hr]. rewrite Hspc, Hc in Hg. cbn [andb negb] in Hg.
    assert (Eb : bounds it = (1, Some 1)) by (unfold isOnce in Eo; destruct (bounds it) as [[|[|]] [[|[|]]|]]; congruence).
    assert (Htl : isim (spacedItems n (S i) items) (spacedItems n (i' + List.length itemsX) (flat_map wItem items))).
    { apply IH; auto. rewrite Ef. cbn [List.length]. rewrite Nat.add_succ_r. auto. }
    assert (HX : forall j x, nth_error itemsX j = Some x -> itemOf calls (siName it) j = Some x) by (intros j x Hj; unfold itemOf; rewrite Hr; exact Hj).
    cbn [spacedItems]. rewrite Eb. unfold plainItem. rewrite Eb, app_nil_r. destruct (i =? 0) eqn:E0; cbn [app].
    + symmetry in Ei. apply Nat.eqb_eq in Ei. subst i'. eapply is_write; [exact Hg|]. apply spaced_same; auto.
    + clear Ew. subst itemsX. cbn [spacedItems] in *. rewrite <- Ei. rewrite ?app_nil_r in *. rewrite <- ?app_assoc in *.
      assert (Hs : isim (spacedItems (siName it) 1 rest ++ spacedItems n (S i) items) (spacedItems n (S i') rest ++ spacedItems n (i' + List.length (first :: rest)) (flat_map wItem items))).
      { apply spaced_same; auto. intros j x Hj. split; [apply (HX (S j)); auto|]. specialize (P3 (S j) x Hj). rewrite Nat.add_succ_r in P3. exact P3. }
      assert (K2 : ksim (KRest (siName it) 0) (KRest n i')). { econstructor; [apply (HX 0); reflexivity|]. specialize (P3 0 first eq_refl). rewrite Nat.add_0_r in P3. exact P3. }
      destruct (bounds first) as [[|mn] [[|[|m]]|]] eqn:Ebf; cbn [fst snd] in Hf; try (exfalso; destruct Hf; congruence); unfold plainItem, single in *; rewrite ?Ebf in *; cbn [app Nat.eqb] in *; (apply is_keep; [constructor|]); (eapply is_write; [exact Hg|]); cbn [app]; repeat (apply is_keep; [first [exact K2|constructor]|]); exact Hs.
  - assert (Ew : wItem it = [it]) by (unfold writeItem; rewrite Es, Eo; auto). rewrite Ew in *. cbn [List.length] in *. rewrite Nat.add_1_r in *.
    apply spaced_same; auto. intros j x Hj. split; [|apply P3; auto]. destruct j as [|[|]]; [|discriminate|discriminate]. injection Hj as <-. apply H1. reflexivity.
  - assert (Ew : wItem it = [it]) by (unfold writeItem; rewrite Es; auto). rewrite Ew in *. cbn [List.length] in *. rewrite Nat.add_1_r in *.
    apply spaced_same; auto. intros j x Hj. split; [|apply P3; auto]. destruct j as [|[|]]; [|discriminate|discriminate]. injection Hj as <-. apply H1. reflexivity.
Qed.
Lemma plain_same tl tl' : isim tl tl' -> forall items, isim (map plainItem items ++ tl) (map plainItem items ++ tl').
Proof. intros Ht. induction items as [|it items IH]; cbn [map app]; auto. apply is_keep; auto. constructor. Qed.
(** and without whitespace *)
Lemma plain_write items : (forall it ctX itemsX, In it items -> isOnce it = true -> seqBody calls sel (siName it) = Some (ctX, itemsX) -> spacing calls && negb (compact ctX) = false) ->
  isim (map plainItem items) (map plainItem (flat_map wItem items)).
Proof.
  induction items as [|it items IH]; intros Hx; cbn [flat_map map]; [constructor|]. rewrite map_app.
  assert (Htl : isim (map plainItem items) (map plainItem (flat_map wItem items))) by (apply IH; intros; eapply Hx; eauto; right; auto).
  assert (Keep : wItem it = [it] -> isim (plainItem it :: map plainItem items) (map plainItem (wItem it) ++ map plainItem (flat_map wItem items))) by (intros ->; apply (plain_same _ _ Htl [it])).
  destruct (seqBody calls sel (siName it)) as [[ctX itemsX]|] eqn:Es; [destruct (isOnce it) eqn:Eo|].
  - assert (Ew : wItem it = itemsX) by (unfold writeItem; rewrite Es, Eo; auto). rewrite Ew. destruct (seqBody_graph _ _ _ Es) as [Hg _]. rewrite (Hx it ctX itemsX (or_introl eq_refl) Eo Es) in Hg.
    assert (Eb : bounds it = (1, Some 1)) by (unfold isOnce in Eo; destruct (bounds it) as [[|[|]] [[|[|]]|]]; congruence).
    unfold plainItem at 1. rewrite Eb. eapply is_write; [exact Hg|]. apply plain_same; auto.
  - apply Keep. unfold writeItem. rewrite Es, Eo. auto.
  - apply Keep. unfold writeItem. rewrite Es. auto.
Qed.
Lemma defs_same tl tl' : osim tl tl' -> forall l, osim (map KDef l ++ tl) (map KDef l ++ tl').
Proof. intros Ht. induction l as [|x l IH]; cbn [map app]; auto. apply os_keep; auto. constructor. Qed.
Lemma defs_self l : osim (map KDef l) (map KDef l).
Proof. rewrite <- (app_nil_r (map KDef l)). apply defs_same. constructor. Qed.
Lemma options_write options : osim (map KDef options) (map KDef (flat_map wOption options)).
Proof.
  induction options as [|o options IH]; cbn [flat_map map]; [constructor|]. rewrite map_app. unfold writeOption at 1. destruct (choiceBody calls sel o) as [body|] eqn:Ec.
  - eapply os_write; [eapply choiceBody_graph; eauto|]. apply defs_same; auto.
  - apply (defs_same _ _ IH [o]).
Qed.
Lemma body_write n : objSim (graphOf calls) ksim (bodyOf calls n) (bodyOf calls' n).
Proof.
  unfold bodyOf. rewrite spacing_write. destruct (rule_write n) as [E|[(ct & items & Hin & E1 & E2)|(ct & options & Hin & E1 & E2)]].
  - rewrite <- E. destruct (grammarOf calls n) as [[cn ch rs|ct items|ct options]|] eqn:Eg; cbn [objSim]; auto; rewrite label_write; split; auto; [split; auto|apply defs_self].
    destruct (spacing calls && negb (compact ct))%bool.
    + rewrite <- (app_nil_r (spacedItems n 0 items)). apply spaced_same; auto; [constructor|]. intros j it Hj. unfold itemOf. rewrite <- E, Eg. auto.
    + rewrite <- (app_nil_r (map plainItem items)). apply plain_same. constructor.
  - rewrite E1, E2. cbn [objSim]. rewrite label_write. split; auto. split; auto. destruct (spacing calls) eqn:Esp; cbn [andb].
    + destruct (compact ct) eqn:Ec; cbn [negb].
      * apply plain_write. intros it ctX itemsX Hit Ho Hb. destruct (Hsp Esp n ct items it ctX itemsX Hin Hit Ho Hb) as [Hc _]. rewrite Hc, Ec. apply andb_false_r.
      * apply spaced_write; auto.
        -- intros it ctX itemsX Hit Ho Hb. destruct (Hsp Esp n ct items it ctX itemsX Hin Hit Ho Hb) as [Hc Hf]. split; [congruence|auto].
        -- intros j it Hj. unfold itemOf. rewrite E1. auto.
        -- intros j it Hj. unfold itemOf. rewrite E2. auto.
    + apply plain_write. intros. rewrite Esp. auto.
  - rewrite E1, E2. cbn [objSim]. rewrite label_write. split; auto. apply options_write.
Qed.
Lemma keys_write a b : ksim a b -> objSim (graphOf calls) ksim (graphOf calls a) (graphOf calls' b).
Proof.
  assert (Sp : ksim (fst spaces) (fst spaces)) by constructor.
  intros [n|n| |n i n' i' it H1 H2|n i n' i' it H1 H2 Ei]; cbn [graphOf].
  - unfold isRootName. rewrite spacing_write, root_write. destruct (_ && _)%bool; [|apply body_write]. cbn [objSim]. split; auto. split; auto. repeat (apply is_keep; [constructor|]). constructor.
  - apply body_write.
  - rewrite ws_write. cbn [objSim]. split; auto. apply defs_self.
  - rewrite H1, H2. cbn [option_map objSim]. split; auto. split; auto. repeat (apply is_keep; [constructor|]). constructor.
  - rewrite H1, H2, Ei. cbn [option_map objSim]. split; auto. split; auto. destruct (i' =? 0); cbn [app]; repeat (apply is_keep; [first [constructor; fail|econstructor; eassumption|constructor]|]); constructor.
Qed.
Theorem write_means input n o r : Means calls input n o r <-> Means calls' input n o r.
Proof. unfold Means. rewrite texts_write. apply sim_gives with (sim := ksim); [exact keys_write|constructor]. Qed.

(** the conditions stay *)
Lemma refers_write : refersToDefs calls -> refersToDefs calls'.
Proof.
  intros Hr d' Hin. apply in_map_iff in Hin. destruct Hin as (d & <- & Hin). pose proof (Hr d Hin) as H. rewrite names_write. destruct d as [| | |m ct items|m ct options]; cbn [writeOut]; auto.
  - intros it Hit. apply in_flat_map in Hit. destruct Hit as (it0 & H0 & Hit). unfold writeItem in Hit. destruct (seqBody calls sel (siName it0)) as [[ctX itemsX]|] eqn:Es; [destruct (isOnce it0)|]; try (destruct Hit as [<-|[]]; auto).
    unfold seqBody in Es. destruct (sel (siName it0)); [|discriminate]. destruct (callOf calls (siName it0)) as [[ | | |k ct0 items0| ]|] eqn:Ec; try discriminate. destruct (_ && _)%bool; [|discriminate]. injection Es as _ <-. apply callOf_in in Ec. apply (Hr _ (proj1 Ec)). auto.
  - intros o Ho. apply in_flat_map in Ho. destruct Ho as (o0 & H0 & Ho). unfold writeOption in Ho. destruct (choiceBody calls sel o0) as [body|] eqn:Es; [|destruct Ho as [<-|[]]; auto].
    unfold choiceBody in Es. destruct (sel o0); [|discriminate]. destruct (callOf calls o0) as [[ | | | |k ct0 options0]|] eqn:Ec; try discriminate. destruct (hasFlag _ _); [|discriminate]. injection Es as <-. apply callOf_in in Ec. apply (Hr _ (proj1 Ec)). auto.
Qed.
Lemma literal_write : literalKeywords calls -> literalKeywords calls'.
Proof. intros Hk d' Hin Hf. apply in_map_iff in Hin. destruct Hin as (d & <- & Hin). rewrite write_flags in Hf. destruct (Hk d Hin Hf) as (n & ct & chars & ->). exists n, ct, chars. auto. Qed.
Lemma nokw_write : nokwOnSequences calls -> nokwOnSequences calls'.
Proof. intros Hn n ct options Hin. apply in_map_iff in Hin. destruct Hin as (d & E & Hin). destruct d; try discriminate. cbn [writeOut] in E. injection E as -> -> _. eapply Hn; eauto. Qed.
End WRITE.

Theorem write_trees calls sel s s' s1 s1' : Defined calls s -> Defined (map (writeOut calls sel) calls) s' ->
  (forall n, sel n = true -> rootName calls <> Some n) -> spacedAlike calls sel ->
  refersToDefs calls -> literalKeywords calls -> nokwOnSequences calls -> noLeftRecursion calls ->
  Inits s s1 None -> Inits s' s1' None ->
  forall input t toks, ~ In runeError input -> (Parses s input REof s1 (Tree t toks) <-> Parses s' input REof s1' (Tree t toks)).
Proof.
  intros Hd Hd' Hroot Hsp Hr Hk Hn Hl Hi Hi' input t toks Hv.
  destruct (rootName calls) as [name|] eqn:Er.
  - assert (Hin : exists d, In d calls /\ callName d = name).
    { unfold rootName in Er. destruct (find isRoot calls) as [d|] eqn:Ef; [inversion Er; subst; apply find_some in Ef; exists d; tauto|].
      clear -Er. assert (X : forall l, last (map (fun d => Some (callName d)) l) None = Some name -> exists d, In d l /\ callName d = name).
      { induction l as [|x [|y l] IH]; [discriminate|intros H; inversion H; exists x; split; [left|]; auto|]. intros H. destruct IH as (d & Hd & E); [exact H|]. exists d. split; [right|]; auto. }
      auto. }
    assert (Hg : grammarOf calls name <> None) by (destruct Hin as (d & Hin & <-); apply grammar_call; auto).
    assert (Hroot' : forall n, sel n = true -> rootName calls <> Some n) by (rewrite Er; auto).
    destruct (means_one calls s input name 0 Hd Hr Hl Hg) as (r & Hm & _).
    pose proof (proj1 (write_means calls sel s Hd Hroot' Hsp input name 0 r) Hm) as Hm'.
    assert (Er' : rootName (map (writeOut calls sel) calls) = Some name) by (rewrite root_write; auto).
    pose proof (parse_outcome calls s s1 name input r Hd Hr Hk Hn Er Hi Hv Hm s1 t toks) as P1.
    pose proof (parse_outcome _ s' s1' name input r Hd' (refers_write calls sel Hr) (literal_write calls sel Hk) (nokw_write calls sel Hn) Er' Hi' Hv Hm' s1' t toks) as P2.
    rewrite P1, P2. intuition.
  - exfalso. unfold rootName in Er. destruct (find isRoot calls); [discriminate|]. destruct calls as [|d l].
    + unfold Defined in Hd. simpl in Hd. inversion Hd; subst. destruct Hi as (f & Hf). vm_compute in Hf. discriminate.
    + revert Er. clear. assert (X : forall l0 (d0 : defcall), last (map (fun d => Some (callName d)) (d0 :: l0)) None <> None).
      { induction l0 as [|x l0 IH]; intros d0; [discriminate|]. apply (IH x). }
      apply X.
Qed.
