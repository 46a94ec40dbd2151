(** Only the reachable definitions matter. *)
From Coq Require Import Permutation.
From Verif Require Import TextSpec Base Utf8 Parser Build Syntax SyntaxFacts Lang Sound Grammar WsLang ApiSpec DefSpec InitSpec Api WsApi ApiFacts RefSpec RefFuel RefSim RefCheck OrderSpec.

Section CONG.
Context {A : Type}.
Variables (G G' : A -> option (gobj A)) (K K' : list (list rune)) (input : list rune) (good : A -> Prop).
Hypothesis HG : forall a, good a -> G' a = G a /\ match G a with
  | Some (GSeq _ _ items) => forall x b, In (x, b) items -> good x
  | Some (GChoice _ options) => forall x, In x options -> good x
  | _ => True end.
Hypothesis HK : forall w, isOneOf w K' = isOneOf w K.
Lemma items_cong (rec rec' : A -> nat -> outcome) k : forall items count o, (forall x b, In (x, b) items -> forall o, rec' x o = rec x o) ->
  evalItems rec' k items count o = evalItems rec k items count o.
Proof.
  induction k as [|k IH]; intros items count o Hr; cbn [evalItems]; auto. destruct items as [|[x [mn mx]] items]; auto.
  rewrite (Hr x (mn, mx)) by (left; auto). assert (Hr' : forall y b, In (y, b) items -> forall o, rec' y o = rec y o) by (intros; eapply Hr; right; eauto).
  destruct (rec x o); auto. - rewrite IH; auto. - rewrite !IH; auto.
Qed.
Lemma options_cong (rec rec' : A -> nat -> outcome) options : forall o best, (forall x, In x options -> forall o, rec' x o = rec x o) ->
  evalOptions rec' options o best = evalOptions rec options o best.
Proof.
  induction options as [|x l IH]; intros o best Hr; cbn [evalOptions]; auto. rewrite Hr by (left; auto). destruct (rec x o); auto; apply IH; intros; apply Hr; right; auto.
Qed.
Lemma eval_cong n : forall a o, good a -> eval G' K' input n a o = eval G K input n a o.
Proof.
  induction n as [|n IH]; intros a o Ha; cbn [eval]; auto. destruct (HG a Ha) as [-> Hk]. destruct (G a) as [[cn cs rs|lb nk items|lb options]|]; auto.
  - rewrite (items_cong (eval G K input n) (eval G' K' input n)) by (intros; apply IH; eapply Hk; eauto). destruct (evalItems _ _ _ _ _); auto. rewrite HK. auto.
  - rewrite (options_cong (eval G K input n) (eval G' K' input n)) by (intros; apply IH; eapply Hk; eauto). auto.
Qed.
End CONG.

Definition goodKey (calls : list defcall) (k : key) : Prop :=
  match k with KDef n | KBody n | KRest n _ | KOpt n _ => reachable calls n | KWs => True end.
Lemma spaced_keys n x b items : forall i, In (x, b) (spacedItems n i items) ->
  x = KWs \/ (exists it, In it items /\ x = KDef (siName it)) \/ (exists j, x = KRest n j) \/ (exists j, x = KOpt n j).
Proof.
  induction items as [|it items IH]; intros i; cbn [spacedItems]; [intros []|]. intros H. apply in_app_or in H. destruct H as [H|H].
  - assert (W : In (x, b) (if i =? 0 then [] else [spaces]) -> x = KWs) by (destruct (i =? 0); [intros []|intros [X|[]]; inversion X; auto]).
    destruct (bounds it) as [mn mx].
    assert (Q : In (x, b) ((if i =? 0 then [] else [spaces]) ++ [plainItem it]) \/ In (x, b) ((if i =? 0 then [] else [spaces]) ++ [single (KDef (siName it)); (KRest n i, lessOne (mn, mx))]) \/ In (x, b) [(KOpt n i, (0, Some 1))]).
    { destruct mn as [|mn]; destruct mx as [[|[|m]]|]; auto. }
    destruct Q as [Q|[Q|Q]].
    + apply in_app_or in Q. destruct Q as [Q|[Q|[]]]; [auto|]. inversion Q. right; left. exists it. split; [left|]; auto.
    + apply in_app_or in Q. destruct Q as [Q|[Q|[Q|[]]]]; [auto| |]; inversion Q; subst; [right; left; exists it; split; [left|]; auto|eauto].
    + destruct Q as [Q|[]]. inversion Q; subst. eauto 6.
  - destruct (IH _ H) as [?|[(it' & ? & ?)|?]]; auto. right; left. exists it'. split; auto. right; auto.
Qed.
Lemma spacing_names calls : spacing calls = negb (match whitespaceNames calls with [] => true | _ => false end).
Proof.
  unfold spacing, whitespaceNames. induction calls as [|d l IH]; simpl; auto. destruct (hasFlag (callFlags d) CWhitespace); simpl; auto.
Qed.
Section TWO.
Variables calls calls' : list defcall.
Hypothesis Hs : sameReachable calls calls'.
Lemma same_spacing : spacing calls' = spacing calls.
Proof. destruct Hs as (_ & Hw & _). rewrite !spacing_names, Hw. auto. Qed.
Lemma same_isRoot n : isRootName calls' n = isRootName calls n.
Proof. destruct Hs as (Hr & _). unfold isRootName. rewrite Hr. auto. Qed.
Lemma same_label n ct : labelOf calls' n ct = labelOf calls n ct.
Proof. destruct Hs as (_ & Hw & _). unfold labelOf. rewrite same_spacing, same_isRoot, Hw. auto. Qed.
Lemma same_body n : reachable calls n -> bodyOf calls' n = bodyOf calls n.
Proof. intros Hn. destruct Hs as (_ & _ & _ & Hg). unfold bodyOf. rewrite (Hg n Hn), same_spacing. destruct (grammarOf calls n) as [[| |]|]; auto; rewrite same_label; auto. Qed.
Lemma good_body n : reachable calls n -> match bodyOf calls n with
  | Some (GSeq _ _ items) => forall x b, In (x, b) items -> goodKey calls x
  | Some (GChoice _ options) => forall x, In x options -> goodKey calls x
  | _ => True end.
Proof.
  intros Hn. unfold bodyOf. destruct (grammarOf calls n) as [[cn cs rs|ct items|ct options]|] eqn:Eg; auto.
  - intros x b Hx. destruct (spacing calls && negb (compact ct))%bool.
    + destruct (spaced_keys _ _ _ _ _ Hx) as [->|[(it & Hi & ->)|[(j & ->)|(j & ->)]]]; simpl; auto. eapply reach_item; eauto.
    + apply in_map_iff in Hx. destruct Hx as (it & X & Hi). inversion X; subst. simpl. eapply reach_item; eauto.
  - intros x Hx. apply in_map_iff in Hx. destruct Hx as (o & <- & Ho). simpl. eapply reach_option; eauto.
Qed.
Lemma good_graph k : goodKey calls k -> graphOf calls' k = graphOf calls k /\ match graphOf calls k with
  | Some (GSeq _ _ items) => forall x b, In (x, b) items -> goodKey calls x
  | Some (GChoice _ options) => forall x, In x options -> goodKey calls x
  | _ => True end.
Proof.
  pose proof Hs as (Hr & Hw & Hk & Hg). destruct k as [n|n| |n i|n i]; cbn [goodKey graphOf]; intros Hn.
  - rewrite same_spacing, same_isRoot. destruct (_ && _)%bool; [|split; [apply same_body; auto|apply good_body; auto]]. split; auto.
    intros x b [X|[X|[X|[]]]]; inversion X; subst; simpl; auto.
  - split; [apply same_body; auto|apply good_body; auto].
  - rewrite Hw. split; auto. intros x Hx. apply in_map_iff in Hx. destruct Hx as (m & <- & Hm). simpl. apply reach_ws. auto.
  - unfold itemOf. rewrite (Hg n Hn). split; auto. destruct (grammarOf calls n) as [[| ct items|]|] eqn:Eg; simpl; auto. destruct (nth_error items i) as [it|] eqn:Ei; simpl; auto.
    intros x b [X|[X|[]]]; inversion X; subst; simpl; auto. eapply reach_item; eauto. eapply nth_error_In; eauto.
  - unfold itemOf. rewrite (Hg n Hn). split; auto. destruct (grammarOf calls n) as [[| ct items|]|] eqn:Eg; simpl; auto. destruct (nth_error items i) as [it|] eqn:Ei; simpl; auto.
    intros x b X. apply in_app_or in X. destruct X as [X|[X|[X|[]]]]; [destruct (i =? 0); [destruct X|destruct X as [X|[]]]| |]; inversion X; subst; simpl; auto. eapply reach_item; eauto. eapply nth_error_In; eauto.
Qed.
Lemma same_oneOf w : isOneOf w (keywordTexts calls') = isOneOf w (keywordTexts calls).
Proof.
  destruct Hs as (_ & _ & Hk & _). unfold isOneOf. apply Bool.eq_iff_eq_true. rewrite !existsb_exists. split; intros (v & Hv & E); exists v; split; auto; apply Hk; auto.
Qed.
Theorem same_means input n o r : reachable calls n -> (Means calls' input n o r <-> Means calls input n o r).
Proof.
  intros Hn. unfold Means, Gives.
  assert (E : forall k, eval (graphOf calls') (keywordTexts calls') input k (KDef n) o = eval (graphOf calls) (keywordTexts calls) input k (KDef n) o).
  { intros k. apply (eval_cong _ _ _ _ _ (goodKey calls)); auto using good_graph, same_oneOf. }
  split; intros [H (k & Hk)]; split; auto; exists k; rewrite <- Hk; auto.
Qed.
End TWO.

Theorem same_trees calls calls' s s' s1 s1' : Defined calls s -> Defined calls' s' ->
  refersToDefs calls -> literalKeywords calls -> nokwOnSequences calls -> noLeftRecursion calls ->
  refersToDefs calls' -> literalKeywords calls' -> nokwOnSequences calls' ->
  sameReachable calls calls' -> Inits s s1 None -> Inits s' s1' None ->
  forall input t toks, ~ In runeError input -> (Parses s input REof s1 (Tree t toks) <-> Parses s' input REof s1' (Tree t toks)).
Proof.
  intros Hd Hd' Hr Hk Hn Hl Hr' Hk' Hn' Hs Hi Hi' input t toks Hv.
  destruct (rootName calls) as [name|] eqn:Er.
  - assert (Hg : grammarOf calls name <> None).
    { pose proof (defined_usable calls s Hd (literal_ready calls Hr Hk)) as Hu.
      assert (Hin : exists d, In d calls /\ callName d = name).
      { unfold rootName in Er. destruct (find isRoot calls) as [d|] eqn:Ef; [inversion Er; subst; apply find_some in Ef; exists d; tauto|].
        clear -Er. assert (X : forall l, last (map (fun d => Some (callName d)) l) None = Some name -> exists d, In d l /\ callName d = name).
        { induction l as [|x [|y l] IH]; [discriminate|intros H; inversion H; exists x; split; [left|]; auto|]. intros H. destruct IH as (d & Hd & E); [exact H|]. exists d. split; [right|]; auto. }
        auto. }
      destruct Hin as (d & Hin & <-). apply grammar_call; auto. }
    destruct (means_one calls s input name 0 Hd Hr Hl Hg) as (r & Hm & _).
    pose proof (proj2 (same_means calls calls' Hs input name 0 r (reach_root _ _ Er)) Hm) as Hm'.
    assert (Er' : rootName calls' = Some name) by (destruct Hs as (X & _); congruence).
    pose proof (parse_outcome calls s s1 name input r Hd Hr Hk Hn Er Hi Hv Hm s1 t toks) as P1.
    pose proof (parse_outcome calls' s' s1' name input r Hd' Hr' Hk' Hn' Er' Hi' Hv Hm' s1' t toks) as P2.
    rewrite P1, P2. intuition.
  - exfalso. unfold rootName in Er. destruct (find isRoot calls); [discriminate|]. destruct calls as [|d l].
    + unfold Defined in Hd. simpl in Hd. inversion Hd; subst. destruct Hi as (f & Hf). vm_compute in Hf. discriminate.
    + revert Er. clear. assert (X : forall l0 (d0 : defcall), last (map (fun d => Some (callName d)) (d0 :: l0)) None <> None).
      { induction l0 as [|x l0 IH]; intros d0; [discriminate|]. apply (IH x). }
      apply X.
Qed.

Lemma perm_same calls calls' s s' : Defined calls s -> Defined calls' s' -> wsReady calls -> wsReady calls' -> Permutation calls calls' ->
  rootName calls' = rootName calls -> whitespaceNames calls' = whitespaceNames calls -> sameReachable calls calls'.
Proof.
  intros Hd Hd' Hw Hw' Hp Hr Hws. pose proof (defined_usable _ _ Hd Hw) as U. pose proof (defined_usable _ _ Hd' Hw') as U'.
  assert (Hp2 : forall x, In x (flat_map callRules calls) <-> In x (flat_map callRules calls')).
  { intros x. rewrite !in_flat_map. split; intros (d & Hin & Hx); exists d; split; auto; [eapply Permutation_in; eauto|eapply Permutation_in; [apply Permutation_sym|]; eauto]. }
  split; [auto|]. split; [auto|]. split.
  - intros w. unfold keywordTexts. rewrite !in_flat_map. split; intros (d & Hin & Hx); exists d; split; auto; [eapply Permutation_in; [apply Permutation_sym|]; eauto|eapply Permutation_in; eauto].
  - intros n _. destruct (grammarOf calls n) as [r|] eqn:E.
    + eapply usable_rule; eauto. apply Hp2. apply ruleIn_pair. exact E.
    + destruct (grammarOf calls' n) as [r'|] eqn:E'; auto. apply ruleIn_pair in E'. apply Hp2 in E'. pose proof (usable_rule _ _ _ _ U E'). congruence.
Qed.
Theorem any_order calls calls' s s' s1 s1' : Defined calls s -> Defined calls' s' -> Permutation calls calls' ->
  rootName calls' = rootName calls -> whitespaceNames calls' = whitespaceNames calls ->
  refersToDefs calls -> literalKeywords calls -> nokwOnSequences calls -> noLeftRecursion calls -> Inits s s1 None -> Inits s' s1' None ->
  forall input t toks, ~ In runeError input -> (Parses s input REof s1 (Tree t toks) <-> Parses s' input REof s1' (Tree t toks)).
Proof.
  intros Hd Hd' Hp Hroot Hws Hr Hk Hn Hl Hi Hi'.
  assert (B : forall d, In d calls' -> In d calls) by (intros d; eapply Permutation_in, Permutation_sym; eauto).
  assert (B2 : forall d, In d calls -> In d calls') by (intros d; eapply Permutation_in; eauto).
  assert (B3 : forall n, In n (map callName calls) -> In n (map callName calls')) by (intros n; rewrite !in_map_iff; intros (d & E & Hin); eauto).
  assert (Hr' : refersToDefs calls').
  { intros d Hin. specialize (Hr d (B d Hin)). destruct d; auto. }
  assert (Hk' : literalKeywords calls') by (intros d Hin; apply Hk; auto).
  assert (Hn' : nokwOnSequences calls') by (intros n ct os Hin; eapply Hn; eauto).
  apply (same_trees calls calls' s s' s1 s1'); auto. eapply perm_same; eauto using literal_ready.
Qed.

Lemma whitespace_app l l' : whitespaceNames (l ++ l') = whitespaceNames l ++ whitespaceNames l'.
Proof. unfold whitespaceNames. rewrite filter_app, map_app. auto. Qed.
Lemma ruleIn_app l l' n : ruleIn l n <> None -> ruleIn (l ++ l') n = ruleIn l n.
Proof. induction l as [|[k r] l IH]; simpl; [congruence|]. destruct (String.eqb k n); auto. Qed.
Lemma reachable_defined calls : refersToDefs calls -> forall n, reachable calls n -> grammarOf calls n <> None.
Proof.
  intros Hr n Hn. apply refers_all in Hr. destruct Hn as [n Hroot|n Hws|n ct items it Hn Hg Hi|n ct options o Hn Hg Ho].
  - eapply rootName_defined; eauto.
  - unfold whitespaceNames in Hws. apply in_map_iff in Hws. destruct Hws as (d & <- & Hd). apply filter_In in Hd. apply grammar_call. tauto.
  - eapply callRules_refs; eauto.
  - eapply callRules_opts; eauto.
Qed.
Lemma more_same calls extra : refersToDefs calls -> rootName (calls ++ extra) = rootName calls ->
  (forall d, In d extra -> hasFlag (callFlags d) CWhitespace = false /\ hasFlag (callFlags d) CKeyword = false) -> sameReachable calls (calls ++ extra).
Proof.
  intros Hr Hroot He. split; [auto|]. split; [|split].
  - rewrite whitespace_app. assert (E : whitespaceNames extra = []).
    { unfold whitespaceNames. clear -He. induction extra as [|d l IH]; simpl; auto. rewrite (proj1 (He d (or_introl eq_refl))). apply IH. intros; apply He; right; auto. }
    rewrite E, app_nil_r. auto.
  - intros w. unfold keywordTexts. rewrite flat_map_app, in_app_iff. split; [|auto]. intros [H|H]; auto. exfalso. apply in_flat_map in H. destruct H as (d & Hd & Hx).
    destruct (He d Hd) as [_ Hk]. destruct d; simpl in Hx; auto. simpl in Hk. rewrite Hk in Hx. auto.
  - intros n Hn. unfold grammarOf. rewrite flat_map_app. apply ruleIn_app. apply (reachable_defined calls Hr n Hn).
Qed.
Theorem more_definitions calls extra s s' s1 s1' : Defined calls s -> Defined (calls ++ extra) s' ->
  rootName (calls ++ extra) = rootName calls ->
  (forall d, In d extra -> hasFlag (callFlags d) CWhitespace = false /\ hasFlag (callFlags d) CKeyword = false) ->
  refersToDefs calls -> refersToDefs (calls ++ extra) -> literalKeywords calls -> nokwOnSequences (calls ++ extra) -> noLeftRecursion calls ->
  Inits s s1 None -> Inits s' s1' None ->
  forall input t toks, ~ In runeError input -> (Parses s input REof s1 (Tree t toks) <-> Parses s' input REof s1' (Tree t toks)).
Proof.
  intros Hd Hd' Hroot He Hr Hr' Hk Hn Hl Hi Hi'. apply (same_trees calls (calls ++ extra) s s' s1 s1'); auto.
  - intros n ct os Hin. eapply Hn. apply in_or_app. left. eauto.
  - intros d Hin Hf. apply in_app_or in Hin. destruct Hin as [Hin|Hin]; [apply Hk; auto|]. destruct (He d Hin). congruence.
  - apply more_same; auto.
Qed.
