(** Predictive syntaxes with whitespace definitions. *)
From Verif Require Import Base Utf8 IdSet Results Parser Build Syntax ListFacts Lang Grammar WsLang ApiSpec InitSpec Api ApiFacts RefSpec RefFuel RefTotal RefCheck InlineSim ReadSpec ReadLang ReadMeans PredictSpec PredictFacts PredictApi PredictSpaced.

Section LANG.
Variables (calls : list defcall) (root : string).
Hypothesis Hroot : rootName calls = Some root.
Hypothesis Hsp : spacing calls = true.
Notation G := (graphOf calls). Notation K := (keywordTexts calls).
Lemma glang_same a b w : G a = G b -> glang G K a w -> glang G K b w.
Proof. intros H X. inversion X; subst; rewrite H in *; [eapply gl_char|eapply gl_seq|eapply gl_choice]; eauto. Qed.
Lemma graph_root : G (KDef root) = Some (GSeq (Some root) false [spaces; single (KBody root); spaces]).
Proof. cbn [graphOf]. unfold isRootName. rewrite Hsp, Hroot, String.eqb_refl. reflexivity. Qed.
Lemma graph_def n : n <> root -> G (KDef n) = G (KBody n).
Proof. intros H. cbn [graphOf]. unfold isRootName. rewrite Hroot. destruct (String.eqb_spec root n); [congruence|]. rewrite andb_false_r. reflexivity. Qed.
(** any number of pieces of whitespace *)
Definition gap (w : list rune) : Prop := forall l c v, glist G K l 0 v -> glist G K (spaces :: l) c (w ++ v).
Lemma gap_nil : gap []. Proof. intros l c v H. apply gl_next; auto. lia. Qed.
Lemma gap_list w : gap w -> forall l, glist G K l 0 [] -> glist G K (spaces :: l) 0 w.
Proof. intros H l Hl. rewrite <- (app_nil_r w). apply H. auto. Qed.
(** [k] texts of the key *)
Definition times (x : key) (k : nat) (w : list rune) : Prop :=
  forall mn mx l c v, match mx with Some m => c + k <= m | None => True end -> glist G K ((x, (mn, mx)) :: l) (c + k) v -> glist G K ((x, (mn, mx)) :: l) c (w ++ v).
Lemma times_0 x : times x 0 []. Proof. intros mn mx l c v _ H; rewrite Nat.add_0_r in H; auto. Qed.
Lemma times_S x k u v : glang G K x u -> times x k v -> times x (S k) (u ++ v).
Proof. intros Hu Hv mn mx l c z Hm Hz. rewrite <- app_assoc. apply gl_occ; auto; [destruct mx; auto; lia|]. apply Hv; [destruct mx; auto; lia|]. replace (S c + k) with (c + S k) by lia. auto. Qed.
Lemma times_1 x u : glang G K x u -> times x 1 u.
Proof. intros H. rewrite <- (app_nil_r u). apply times_S; auto. apply times_0. Qed.
Lemma times_list x b k w l v : fst b <= k -> match snd b with Some m => k <= m | None => True end -> times x k w -> glist G K l 0 v -> glist G K ((x, b) :: l) 0 (w ++ v).
Proof. destruct b as [mn mx]. simpl. intros L1 L2 Hw Hv. apply Hw; [auto|]. apply gl_next; auto. Qed.
Lemma once_list x u l v : glang G K x u -> glist G K l 0 v -> glist G K (single x :: l) 0 (u ++ v).
Proof. intros Hu Hv. apply (times_list x (1, Some 1) 1); simpl; auto. apply times_1; auto. Qed.
(** further texts of an item, with whitespace before each *)
Definition further (n : string) (k : nat) (w : list rune) : Prop := forall m i it, itemOf calls m i = Some it -> siName it = n -> times (KRest m i) k w.
Lemma rest_graph m i it : itemOf calls m i = Some it -> G (KRest m i) = Some (GSeq None false [spaces; single (KDef (siName it))]).
Proof. intros H. cbn [graphOf]. rewrite H. reflexivity. Qed.
Lemma opt_graph m i it : itemOf calls m i = Some it -> G (KOpt m i) = Some (GSeq None false ((if i =? 0 then [] else [spaces]) ++ [single (KDef (siName it)); (KRest m i, lessOne (bounds it))])).
Proof. intros H. cbn [graphOf]. rewrite H. reflexivity. Qed.
Lemma gap_if (i : nat) s l v : (i = 0 -> s = []) -> gap s -> glist G K l 0 v -> glist G K ((if i =? 0 then [] else [spaces]) ++ l) 0 (s ++ v).
Proof. intros Hi Hs Hv. destruct (Nat.eqb_spec i 0); simpl; [rewrite Hi by auto; auto|apply Hs; auto]. Qed.
(** an item that occurs *)
Lemma item_occurs m i it l k s u v w : itemOf calls m i = Some it -> quantity (siMin it) (siMax it) (S k) -> (i = 0 -> s = []) -> gap s -> glang G K (KDef (siName it)) u -> further (siName it) k v -> (k = 0 -> v = []) -> glist G K l 0 w ->
  glist G K ((match bounds it with
     | (_, Some 1) => (if i =? 0 then [] else [spaces]) ++ [plainItem it]
     | (S _, _) => (if i =? 0 then [] else [spaces]) ++ [single (KDef (siName it)); (KRest m i, lessOne (bounds it))]
     | (O, _) => [(KOpt m i, (0, Some 1))]
     end) ++ l) 0 (s ++ u ++ v ++ w).
Proof.
  intros Hit Hq Hi Hs Hu Hv Hv0 Hw. apply quantity_bounds in Hq. specialize (Hv m i it Hit eq_refl).
  assert (Case1 : snd (bounds it) = Some 1 -> glist G K (((if i =? 0 then [] else [spaces]) ++ [plainItem it]) ++ l) 0 (s ++ u ++ v ++ w)).
  { intros E1. rewrite E1 in Hq. assert (k = 0) by lia. subst k. rewrite (Hv0 eq_refl). simpl. rewrite <- app_assoc. apply gap_if; auto. simpl. unfold plainItem.
    apply (times_list _ (bounds it) 1); [apply Hq|rewrite E1; auto|apply times_1; auto|auto]. }
  assert (L : match snd (lessOne (bounds it)) with Some m0 => k <= m0 | None => True end) by (unfold lessOne; simpl; destruct (snd (bounds it)); simpl; auto; lia).
  assert (L' : fst (lessOne (bounds it)) <= k) by (unfold lessOne; simpl; lia).
  assert (Case2 : glist G K (((if i =? 0 then [] else [spaces]) ++ [single (KDef (siName it)); (KRest m i, lessOne (bounds it))]) ++ l) 0 (s ++ u ++ v ++ w)).
  { rewrite <- app_assoc. apply gap_if; auto. simpl. apply once_list; auto. apply (times_list _ (lessOne (bounds it)) k); auto. }
  assert (Case3 : glist G K ([(KOpt m i, (0, Some 1))] ++ l) 0 (s ++ u ++ v ++ w)).
  { replace (s ++ u ++ v ++ w) with ((s ++ u ++ v) ++ w) by (rewrite <- !app_assoc; auto). simpl. apply (times_list (KOpt m i) (0, Some 1) 1); [simpl; lia|simpl; lia| |auto]. apply times_1.
    eapply gl_seq; [apply opt_graph; eauto|reflexivity|]. apply gap_if; auto. apply once_list; auto. rewrite <- (app_nil_r v). apply (times_list _ (lessOne (bounds it)) k); auto. apply gl_nil. }
  destruct (bounds it) as [mn [[|[|mx]]|]]; destruct mn as [|mn]; auto.
Qed.
Lemma item_missing m i it l v : quantity (siMin it) (siMax it) 0 -> glist G K l 0 v ->
  glist G K ((match bounds it with
     | (_, Some 1) => (if i =? 0 then [] else [spaces]) ++ [plainItem it]
     | (S _, _) => (if i =? 0 then [] else [spaces]) ++ [single (KDef (siName it)); (KRest m i, lessOne (bounds it))]
     | (O, _) => [(KOpt m i, (0, Some 1))]
     end) ++ l) 0 v.
Proof.
  intros Hq Hv. apply quantity_bounds in Hq. assert (H1 : glist G K (((if i =? 0 then [] else [spaces]) ++ [plainItem it]) ++ l) 0 v).
  { rewrite <- app_assoc. change v with ([] ++ v). apply gap_if; auto; [apply gap_nil|]. simpl. unfold plainItem. destruct (bounds it) as [mn mx]. apply gl_next; auto. apply Hq. }
  assert (H2 : glist G K ([(KOpt m i, (0, Some 1))] ++ l) 0 v) by (simpl; apply gl_next; auto).
  destruct (bounds it) as [mn [[|[|mx]]|]]; destruct mn as [|mn]; auto; simpl in Hq; lia.
Qed.
Lemma max_one it : siMax it = 1%Z -> snd (bounds it) = Some 1.
Proof. intros H. unfold bounds. rewrite H. destruct (Z.eqb (siMin it) 0); reflexivity. Qed.
Lemma spaced_graph :
  (forall n w, wgen (grammarOf calls) K (whitespaceNames calls) root n w -> glang G K (KDef n) w) /\
  (forall n w, wbody (grammarOf calls) K (whitespaceNames calls) root n w -> glang G K (KBody n) w) /\
  (forall l w, witems (grammarOf calls) K (whitespaceNames calls) root l w -> glist G K (map plainItem l) 0 w) /\
  (forall n k w, wrep (grammarOf calls) K (whitespaceNames calls) root n k w -> times (KDef n) k w) /\
  (forall b l w, wspaced (grammarOf calls) K (whitespaceNames calls) root b l w -> forall m i, b = (i =? 0) -> (forall j it, nth_error l j = Some it -> itemOf calls m (i + j) = Some it) -> glist G K (spacedItems m i l) 0 w) /\
  (forall n k w, wmore (grammarOf calls) K (whitespaceNames calls) root n k w -> further n k w /\ (k = 0 -> w = [])) /\
  (forall w, wspace (grammarOf calls) K (whitespaceNames calls) root w -> gap w).
Proof.
  assert (Shift : forall it (l : list seqItem) m i, (forall j it', nth_error (it :: l) j = Some it' -> itemOf calls m (i + j) = Some it') -> itemOf calls m i = Some it /\ forall j it', nth_error l j = Some it' -> itemOf calls m (S i + j) = Some it').
  { intros it l m i H. split; [rewrite <- (Nat.add_0_r i); apply H; auto|]. intros j it' Hj. replace (S i + j) with (i + S j) by lia. apply H. auto. }
  apply wgen_mutind.
  - intros u v w _ Hu _ Hv _ Hw. eapply gl_seq; [apply graph_root|reflexivity|]. apply Hu. apply once_list; auto. apply gap_list; auto. apply gl_nil.
  - intros n w Hn _ H. eapply glang_same; [|exact H]. symmetry. apply graph_def. auto.
  - intros n cn ch rs r HR Hr. eapply gl_char; [cbn [graphOf]; unfold bodyOf; rewrite HR; reflexivity|]. apply classHas_inClass; auto.
  - intros n ct items w HR Hc Hk _ IH. eapply gl_seq; [cbn [graphOf]; unfold bodyOf; rewrite HR, Hsp, Hc; reflexivity| |exact IH]. destruct (hasFlag ct CNoKeyword); auto. simpl. apply isOneOf_not; auto.
  - intros n ct items w HR Hc Hk _ IH. eapply gl_seq; [cbn [graphOf]; unfold bodyOf; rewrite HR, Hsp, Hc; reflexivity| |].
    + destruct (hasFlag ct CNoKeyword); auto. simpl. apply isOneOf_not; auto.
    + apply (IH n 0); auto. intros j it Hj. unfold itemOf. rewrite HR. auto.
  - intros n ct options o w HR Ho _ IH. eapply gl_choice; [cbn [graphOf]; unfold bodyOf; rewrite HR; reflexivity| |exact IH]. apply in_map. auto.
  - apply gl_nil.
  - intros it items k u v Hq _ Hu _ Hv. apply quantity_bounds in Hq. simpl. unfold plainItem. apply (times_list _ (bounds it) k); tauto.
  - intros n. apply times_0.
  - intros n k u v _ Hu _ Hv. apply times_S; auto.
  - intros first m i _ _. apply gl_nil.
  - intros first it items v Hq _ IH m i Hb Hn. destruct (Shift _ _ _ _ Hn) as [Hit Hn']. cbn [spacedItems]. apply item_missing; auto.
  - intros it items u v Hq Hmax _ Hu _ IH m i Hb Hn. destruct (Shift _ _ _ _ Hn) as [Hit Hn']. cbn [spacedItems]. pose proof (max_one it Hmax) as Hm. apply quantity_bounds in Hq. unfold plainItem. destruct (bounds it) as [mn mx]. simpl in Hm, Hq. subst mx.
    destruct (i =? 0); [discriminate|]. specialize (IH m (S i) eq_refl Hn'). assert (X : glist G K ([spaces; (KDef (siName it), (mn, Some 1))] ++ spacedItems m (S i) items) 0 (u ++ v)) by (simpl; apply Hu, gl_next; tauto). destruct mn; exact X.
  - intros it items k u v w Hq _ Hu _ [Hv Hv0] _ IH m i Hb Hn. destruct (Shift _ _ _ _ Hn) as [Hit Hn']. cbn [spacedItems]. change (u ++ v ++ w) with ([] ++ u ++ v ++ w). eapply item_occurs; eauto. apply gap_nil.
  - intros it items k s u v w Hq _ Hs _ Hu _ [Hv Hv0] _ IH m i Hb Hn. destruct (Shift _ _ _ _ Hn) as [Hit Hn']. cbn [spacedItems]. eapply item_occurs; eauto. intros ->. discriminate.
  - intros n. split; auto. intros m i it _ _. apply times_0.
  - intros n k s u v _ Hs _ Hu _ [Hv _]. split; [|discriminate]. intros m i it Hit En. replace (s ++ u ++ v) with ((s ++ u) ++ v) by (rewrite <- app_assoc; auto). apply times_S; [|apply (Hv m i it); auto].
    eapply gl_seq; [apply rest_graph; eauto|reflexivity|]. rewrite En. apply Hs. rewrite <- (app_nil_r u). apply once_list; auto. apply gl_nil.
  - apply gap_nil.
  - intros n u v Hn _ Hu _ Hv l c z Hz. rewrite <- app_assoc. apply gl_occ; auto. eapply gl_choice; [reflexivity| |exact Hu]; apply in_map; auto.
Qed.
End LANG.

(** the items that occur never have the maximum 0 *)
Lemma bounds_not0 it : snd (bounds it) <> Some 0.
Proof. unfold bounds. destruct (Z.eqb (siMin it) 0 && Z.eqb (siMax it) 0)%bool; [discriminate|]. simpl. destruct (Z.ltb_spec 0 (siMax it)); [|discriminate]. intros X. injection X. lia. Qed.
Lemma less_not0 it : snd (bounds it) <> Some 1 -> snd (lessOne (bounds it)) <> Some 0.
Proof. pose proof (bounds_not0 it). unfold lessOne. simpl. destruct (snd (bounds it)) as [[|[|m]]|]; simpl; congruence. Qed.
Section BOUND.
Variable calls : list defcall.
Notation G := (graphOf calls).
Definition repeating (k : key) : Prop := match k with KRest m i | KOpt m i => forall it, itemOf calls m i = Some it -> snd (bounds it) <> Some 1 | _ => True end.
Lemma spaced_bounds n l i x b : In (x, b) (spacedItems n i l) -> snd b <> Some 0 /\
  match x with KRest m j | KOpt m j => m = n /\ i <= j /\ exists it, nth_error l (j - i) = Some it /\ snd (bounds it) <> Some 1 | _ => True end.
Proof.
  revert i. induction l as [|it l IH]; intros i H; [destruct H|]. cbn [spacedItems] in H. apply in_app_or in H. destruct H as [H|H].
  - pose proof (bounds_not0 it) as B0. pose proof (less_not0 it) as B1.
    assert (S0 : In (x, b) (if i =? 0 then [] else [spaces]) -> snd b <> Some 0 /\ match x with KRest m j | KOpt m j => m = n /\ i <= j /\ exists it', nth_error (it :: l) (j - i) = Some it' /\ snd (bounds it') <> Some 1 | _ => True end).
    { destruct (i =? 0); [intros []|intros [X|[]]]. injection X as <- <-. split; [discriminate|auto]. }
    assert (It : snd (bounds it) <> Some 1 -> n = n /\ i <= i /\ exists it', nth_error (it :: l) (i - i) = Some it' /\ snd (bounds it') <> Some 1) by (intros X; rewrite Nat.sub_diag; split; [reflexivity|split; [lia|exists it; split; [reflexivity|exact X]]]).
    unfold plainItem, single in H. destruct (bounds it) as [mn mx] eqn:Eb. simpl in B0, It.
    assert (C1 : In (x, b) ((if i =? 0 then [] else [spaces]) ++ [(KDef (siName it), (mn, mx))]) -> snd b <> Some 0 /\ match x with KRest m j | KOpt m j => m = n /\ i <= j /\ exists it', nth_error (it :: l) (j - i) = Some it' /\ snd (bounds it') <> Some 1 | _ => True end).
    { intros X. apply in_app_or in X. destruct X as [X|[X|[]]]; [auto|]. injection X as <- <-. simpl. split; auto. }
    assert (C2 : mx <> Some 1 -> In (x, b) ((if i =? 0 then [] else [spaces]) ++ [(KDef (siName it), (1, Some 1)); (KRest n i, lessOne (mn, mx))]) -> snd b <> Some 0 /\ match x with KRest m j | KOpt m j => m = n /\ i <= j /\ exists it', nth_error (it :: l) (j - i) = Some it' /\ snd (bounds it') <> Some 1 | _ => True end).
    { intros Hm X. apply in_app_or in X. destruct X as [X|[X|[X|[]]]]; [auto|injection X as <- <-; split; [discriminate|auto]|]. injection X as <- <-. split; [apply B1; auto|apply It; auto]. }
    assert (C3 : mx <> Some 1 -> In (x, b) [(KOpt n i, (0, Some 1))] -> snd b <> Some 0 /\ match x with KRest m j | KOpt m j => m = n /\ i <= j /\ exists it', nth_error (it :: l) (j - i) = Some it' /\ snd (bounds it') <> Some 1 | _ => True end).
    { intros Hm [X|[]]. injection X as <- <-. split; [discriminate|apply It; auto]. }
    destruct mx as [[|[|m]]|]; destruct mn as [|mn]; first [apply C1; assumption|apply C2; [discriminate|assumption]|apply C3; [discriminate|assumption]].
  - destruct (IH (S i) H) as [H1 H2]. split; auto. destruct x as [m|m| |m j|m j]; auto; destruct H2 as (-> & L & it' & H2 & H3); (split; [auto|]); (split; [lia|]); exists it'; (split; [|auto]); replace (j - i) with (S (j - S i)) by lia; auto.
Qed.
Lemma body_bounds n lb nk items x b : bodyOf calls n = Some (GSeq lb nk items) -> In (x, b) items -> repeating x /\ snd b <> Some 0.
Proof.
  unfold bodyOf. destruct (grammarOf calls n) as [[cn ch rs|ct l|ct os]|] eqn:HR; try discriminate. intros H Hx. injection H as _ _ <-. destruct (spacing calls && negb (compact ct))%bool.
  - apply spaced_bounds in Hx. destruct Hx as [H1 H2]. split; auto. destruct x; simpl; auto; destruct H2 as (-> & _ & it & H2 & H3); intros it' Hit; unfold itemOf in Hit; rewrite HR in Hit; rewrite Nat.sub_0_r in H2; congruence.
  - apply in_map_iff in Hx. destruct Hx as (it & X & _). unfold plainItem in X. injection X as <- <-. split; [exact I|apply bounds_not0].
Qed.
Lemma repeating_bounds a lb nk items x b : repeating a -> G a = Some (GSeq lb nk items) -> In (x, b) items -> repeating x /\ snd b <> Some 0.
Proof.
  intros Ha HG Hx. destruct a as [n|n| |n i|n i]; cbn [graphOf] in HG.
  - destruct (spacing calls && isRootName calls n)%bool; [|eapply body_bounds; eauto]. injection HG as _ _ <-. destruct Hx as [X|[X|[X|[]]]]; injection X as <- <-; split; (exact I || discriminate).
  - eapply body_bounds; eauto.
  - discriminate.
  - destruct (itemOf calls n i) as [it|] eqn:Hit; [|discriminate]. injection HG as _ _ <-. destruct Hx as [X|[X|[]]]; injection X as <- <-; split; (exact I || discriminate).
  - destruct (itemOf calls n i) as [it|] eqn:Hit; [|discriminate]. injection HG as _ _ <-. apply in_app_or in Hx. destruct Hx as [Hx|[X|[X|[]]]].
    + destruct (i =? 0); [destruct Hx|]. destruct Hx as [X|[]]. injection X as <- <-. split; [exact I|discriminate].
    + injection X as <- <-. split; [exact I|discriminate].
    + injection X as <- <-. split; [exact Ha|]. apply less_not0, Ha, Hit.
Qed.
Lemma reached_repeating c a : repeating c -> reached G c a -> repeating a.
Proof.
  intros Hc. induction 1 as [|a lb nk items x b _ IH HG Hx|a lb options x _ IH HG Hx]; auto; [eapply repeating_bounds; eauto|].
  assert (X : forall n, bodyOf calls n = Some (GChoice lb options) -> repeating x).
  { intros n. unfold bodyOf. destruct (grammarOf calls n) as [[| |]|]; try discriminate. intros X. injection X as _ <-. apply in_map_iff in Hx. destruct Hx as (o & <- & _). exact I. }
  destruct a as [n|n| |n i|n i]; cbn [graphOf] in HG.
  - destruct (spacing calls && isRootName calls n)%bool; [discriminate|eauto].
  - eauto.
  - injection HG as _ <-. apply in_map_iff in Hx. destruct Hx as (o & <- & _). exact I.
  - destruct (itemOf calls n i); discriminate.
  - destruct (itemOf calls n i); discriminate.
Qed.
End BOUND.

Theorem u_spaced_accepts calls s s' root input :
  usable calls s -> refersToDefs calls -> literalKeywords calls -> nokwOnSequences calls -> noLeftRecursion calls ->
  spacing calls = true -> predictiveSpaced calls root -> rootName calls = Some root -> Inits s s' None -> ~ In runeError input ->
  texts calls root root input -> exists t, Parses s input REof s' (Tree t input).
Proof.
  intros Hd Hr Hk Hn Hl Hsp (W & words & Hws & Hrw & E & F & N & (E0 & F0 & N0 & HE0 & HF0 & Hword) & HD) Hroot Hi Hv Ht. apply (u_accepts_iff calls s s' root input Hd Hr Hk Hn Hl Hroot Hi Hv).
  apply (proj1 (spaced_graph calls root Hroot Hsp)) in Ht. pose proof (refers_all _ Hr) as Hall.
  assert (Total : forall a o, graphOf calls a <> None -> exists r, Gives (graphOf calls) (keywordTexts calls) input a o r).
  { intros a o Ha. destruct Hl as (E' & rank & HE' & Hrank).
    destruct (eval_total (graphOf calls) (keywordTexts calls) input E' rank HE' Hrank (graph_closed calls Hall) (List.length input - o) o (Nat.le_refl _) (rank a) a (Nat.le_refl _) Ha) as (m & Hm).
    eexists. split; [exact Hm|]. eauto. }
  eapply (spaced_match (graphOf calls) (keywordTexts calls) (KDef root) KWs W); eauto; [apply graph_closed; auto|].
  intros c _ Hc a lb nk items x mn Ra HG Hx. destruct c as [n|n| |n i|n i]; try discriminate. pose proof (reached_repeating calls (KDef n) a I Ra) as X. destruct (repeating_bounds calls _ _ _ _ _ _ X HG Hx) as [_ Y]. apply Y. reflexivity.
Qed.
Theorem u_spaced_language calls s s' root input :
  usable calls s -> sensibleRanges calls -> refersToDefs calls -> literalKeywords calls -> nokwOnSequences calls -> noLeftRecursion calls ->
  spacing calls = true -> predictiveSpaced calls root -> rootName calls = Some root -> Inits s s' None -> ~ In runeError input ->
  ((exists t, Parses s input REof s' (Tree t input)) <-> texts calls root root input).
Proof.
  intros Hd Hs Hr Hk Hn Hl Hsp Hp Hroot Hi Hv. split.
  - intros (t & HP). destruct (u_tree_text calls s s' input REof t input Hd HP Hs) as (name & E & H). congruence.
  - intros Ht. eapply u_spaced_accepts; eauto.
Qed.
Theorem spaced_language calls s s' root input :
  Defined calls s -> sensibleRanges calls -> refersToDefs calls -> literalKeywords calls -> nokwOnSequences calls -> noLeftRecursion calls ->
  spacing calls = true -> predictiveSpaced calls root -> rootName calls = Some root -> Inits s s' None -> ~ In runeError input ->
  ((exists t, Parses s input REof s' (Tree t input)) <-> texts calls root root input).
Proof. intros Hd Hs Hr Hk. apply u_spaced_language; auto. apply defined_usable; auto. apply literal_ready; auto. Qed.
Theorem spells_language text defs s s' root input :
  let calls := flat_map textCalls defs in
  spells text defs -> Reads emptySyntax text REof s None -> textReady defs ->
  sensibleRanges calls -> refersToDefs calls -> literalKeywords calls -> nokwOnSequences calls -> noLeftRecursion calls ->
  (noWhitespaceDefs calls /\ predictive calls root) \/ (spacing calls = true /\ predictiveSpaced calls root) ->
  rootName calls = Some root -> Inits s s' None -> ~ In runeError input ->
  ((exists t, Parses s input REof s' (Tree t input)) <-> texts calls root root input).
Proof.
  intros calls Hs HR Hw Hr Hd Hk Hn Hl [[H1 H2]|[H1 H2]]; [apply u_predictive_language|apply u_spaced_language]; auto; exact (spells_usable text s defs Hs HR Hw).
Qed.
