(** Definitions in another order, and definitions that are not used: no difference at all. *)
From Coq Require Import Permutation.
From Verif Require Import TextSpec Base Utf8 Parser Build Syntax Lang Sound Grammar WsLang ApiSpec DefSpec InitSpec InitFuel SyntaxFacts Rep Restrict Live LangGen Api Utf8Facts DefineFacts WsApi ApiFacts RefFacts WsNames WsRefs GenSim SameRun SameApi OrderSpec OrderFacts.

Definition ud (r : rule) : rule :=
  match r with RChar a b c => RChar a b c | RSeq ct items => RSeq (N.lor ct CUserDefined) items | RChoice ct os => RChoice (N.lor ct CUserDefined) os end.
Lemma ud_chars n chars : forall i, charRules n i chars = map (fun p => (fst p, ud (snd p))) (charRules n i chars).
Proof. induction chars as [|c chars IH]; intros i; [reflexivity|]. cbn [charRules map fst snd ud]. f_equal. apply IH. Qed.
Lemma ud_call d : callRules (withUserDefined d) = map (fun p => (fst p, ud (snd p))) (callRules d).
Proof.
  destruct d; try reflexivity. cbn [withUserDefined callRules]. rewrite map_app, <- ud_chars. cbn [map fst snd ud]. do 4 f_equal. rewrite <- !N.lor_assoc. reflexivity.
Qed.
Lemma ud_grammar calls n : grammarOf (map withUserDefined calls) n = option_map ud (grammarOf calls n).
Proof.
  unfold grammarOf. assert (E : flat_map callRules (map withUserDefined calls) = map (fun p => (fst p, ud (snd p))) (flat_map callRules calls)).
  { induction calls as [|d l IH]; simpl; auto. rewrite map_app, IH, ud_call. auto. }
  rewrite E. clear E. induction (flat_map callRules calls) as [|[k r] l IH]; simpl; auto. destruct (String.eqb k n); auto.
Qed.
Lemma filter_user calls k : k <> 8%N -> map callName (filter (fun d => hasFlag (callFlags d) (2 ^ k)%N) (map withUserDefined calls)) = map callName (filter (fun d => hasFlag (callFlags d) (2 ^ k)%N) calls).
Proof. intros Hk. induction calls as [|d l IH]; simpl; auto. rewrite userDefined_flags by auto. destruct (hasFlag (callFlags d) (2 ^ k)%N); simpl; auto. rewrite userDefined_name, IH. auto. Qed.
Lemma same_user calls calls' : sameNeeded calls calls' -> sameNeeded (map withUserDefined calls) (map withUserDefined calls').
Proof.
  intros (H1 & H2 & H3 & H4). split; [rewrite !userDefined_root; auto|]. split; [unfold whitespaceNames in *; change CWhitespace with (2 ^ 2)%N in *; rewrite !filter_user by discriminate; auto|].
  split; [unfold keywordNames in *; change CKeyword with (2 ^ 4)%N in *; rewrite !filter_user by discriminate; auto|]. intros n Hn. rewrite !ud_grammar. rewrite H4; auto. apply needed_user; auto.
Qed.
Lemma ready_user calls s : Defined calls s -> regular calls -> hasWhitespaceDef (map withUserDefined calls) ->
  properNames (map withUserDefined calls) /\ properRefs (map withUserDefined calls) /\ keywordsPlain (map withUserDefined calls).
Proof.
  intros Hd Hr (d & Hin & Hf). apply defineAll_raw in Hd. destruct Hd as [_ Hv].
  assert (W : hasWhitespaceDef calls). { apply in_map_iff in Hin. destruct Hin as (d0 & <- & Hin). exists d0. split; auto. change CWhitespace with (2 ^ 2)%N in *. rewrite userDefined_flags in Hf by discriminate. auto. }
  destruct (Hr W) as [Hs Hp]. split; [|split; [apply symbolRefs_proper; auto|]].
  - split.
    + intros x Hx. apply in_map_iff in Hx. destruct Hx as (d0 & <- & Hx). rewrite userDefined_name. exists [callName d0]. exists (callName d0), []. split; auto. split; auto. split; [|constructor]. apply valid_colonFree; auto.
    + left. intros n (x & Hx & <-). apply in_map_iff in Hx. destruct Hx as (d0 & <- & Hx). rewrite userDefined_name. apply valid_colonFree; auto.
  - intros x Hx Hk. apply in_map_iff in Hx. destruct Hx as (d0 & <- & Hx). change CKeyword with (2 ^ 4)%N in Hk. rewrite userDefined_flags in Hk by discriminate. specialize (Hp d0 Hx Hk).
    change CNoWhitespace with (2 ^ 3)%N in *. destruct d0; cbn [withUserDefined callFlags] in *; auto; rewrite userDefined_flag by discriminate; auto.
Qed.
Theorem needed_alike calls calls' s s' : Defined calls s -> Defined calls' s' -> sameNeeded calls calls' -> regular calls -> regular calls' -> answersAlike s s'.
Proof.
  intros Hd Hd' Hs Hr Hr'.
  assert (H : forall n, rel (fun x y => snd x = snd y) (Init n s) (Init n s') /\ forall input e, rel (fun x y => snd x = snd y) (Parse n s input e) (Parse n s' input e)).
  { pose proof Hd as Hd0. pose proof Hd' as Hd0'. apply defineAll_raw in Hd0, Hd0'. apply (raw_same (map withUserDefined calls) (map withUserDefined calls')); try tauto; [apply same_user; auto|].
    intros W. split; [eapply ready_user; eauto|]. eapply ready_user; eauto. apply hasWs_names. destruct (same_user _ _ Hs) as (_ & -> & _). apply hasWs_names; auto. }
  split; [|split].
  - intros err. split; intros (s1 & n & Hn); destruct (H n) as [X _]; rewrite Hn in X; inversion X as [x y E| |]; subst; destruct y as [s2 o2] || destruct x as [s2 o2]; simpl in E; subst; exists s2, n; auto.
  - intros input e out. split; intros (s1 & n & Hn); destruct (H n) as [_ X]; specialize (X input e); rewrite Hn in X; inversion X as [x y E| |]; subst; destruct y as [s2 o2] || destruct x as [s2 o2]; simpl in E; subst; exists s2, n; auto.
  - intros input e. split; intros (n & w & Hn); destruct (H n) as [_ X]; specialize (X input e); rewrite Hn in X; inversion X; subst; exists n, w; auto.
Qed.

Lemma perm_grammar calls calls' s s' : Defined calls s -> Defined calls' s' -> Permutation calls calls' -> forall n, grammarOf calls' n = grammarOf calls n.
Proof.
  intros Hd Hd' Hp n. pose proof (defined_names _ _ Hd) as U. pose proof (defined_names _ _ Hd') as U'.
  assert (Hp2 : forall x, In x (flat_map callRules calls) <-> In x (flat_map callRules calls')).
  { intros x. rewrite !in_flat_map. split; intros (d & Hin & Hx); exists d; split; auto; [eapply Permutation_in; eauto|eapply Permutation_in; [apply Permutation_sym|]; eauto]. }
  destruct (grammarOf calls n) as [r|] eqn:E.
  - apply ruleIn_unique; auto. apply Hp2. apply ruleIn_pair. exact E.
  - destruct (grammarOf calls' n) as [r'|] eqn:E'; auto. apply ruleIn_pair in E'. apply Hp2 in E'. unfold grammarOf in E. rewrite (ruleIn_unique _ _ _ U E') in E. discriminate.
Qed.
Lemma perm_regular calls calls' s s' : Defined calls s -> Defined calls' s' -> Permutation calls calls' -> regular calls -> regular calls'.
Proof.
  intros Hd Hd' Hp Hr (d & Hin & Hf). assert (B : forall x, In x calls' -> In x calls) by (intros x; apply Permutation_in, Permutation_sym; auto).
  destruct (Hr (ex_intro _ d (conj (B d Hin) Hf))) as [Hs Hk]. split.
  - intros n r x Hn Hx. rewrite (perm_grammar _ _ _ _ Hd Hd' Hp) in *. eapply Hs; eauto.
  - intros x Hx Hkw. apply Hk; auto.
Qed.
Theorem order_alike calls calls' s s' : Defined calls s -> Defined calls' s' -> Permutation calls calls' ->
  rootName calls' = rootName calls -> whitespaceNames calls' = whitespaceNames calls -> keywordNames calls' = keywordNames calls -> regular calls -> answersAlike s s'.
Proof.
  intros Hd Hd' Hp H1 H2 H3 Hr. refine (needed_alike calls calls' s s' Hd Hd' _ Hr (perm_regular calls calls' s s' Hd Hd' Hp Hr)). split; [exact H1|split; [exact H2|split; [exact H3|]]]. intros n _. exact (perm_grammar calls calls' s s' Hd Hd' Hp n).
Qed.
(** ** additions *)
Lemma callNames_rules d : map fst (callRules d) = callNames d.
Proof.
  destruct d; simpl; auto. rewrite map_app. simpl. f_equal. generalize 0. induction chars as [|c chars IH]; intros i; simpl; auto. f_equal. apply IH.
Qed.
Theorem more_alike calls extra calls' s s' : Defined calls s -> Defined calls' s' -> Permutation (calls ++ extra) calls' ->
  rootName calls' = rootName calls -> whitespaceNames calls' = whitespaceNames calls -> keywordNames calls' = keywordNames calls ->
  (forall d n, In d extra -> In n (callNames d) -> ~ needed calls n) -> regular calls -> regular calls' -> answersAlike s s'.
Proof.
  intros Hd Hd' Hp H1 H2 H3 Hn Hr Hr'. apply (needed_alike calls calls'); auto. split; auto. split; auto. split; auto. intros n Hneed.
  pose proof (defined_names _ _ Hd) as U. pose proof (defined_names _ _ Hd') as U'.
  destruct (grammarOf calls n) as [r|] eqn:E.
  - apply ruleIn_unique; auto. apply ruleIn_pair in E. apply in_flat_map in E. destruct E as (d & Hin & Hx). apply in_flat_map. exists d. split; auto. eapply Permutation_in; eauto. apply in_or_app; auto.
  - destruct (grammarOf calls' n) as [r'|] eqn:E'; auto. exfalso. apply ruleIn_pair in E'. apply in_flat_map in E'. destruct E' as (d & Hin & Hx). apply (Permutation_in _ (Permutation_sym Hp)) in Hin. apply in_app_or in Hin. destruct Hin as [Hin|Hin].
    + assert (X : In (n, r') (flat_map callRules calls)) by (apply in_flat_map; eauto). unfold grammarOf in E. rewrite (ruleIn_unique _ _ _ U X) in E. discriminate.
    + apply (Hn d n Hin); auto. rewrite <- callNames_rules. apply (in_map fst) in Hx. exact Hx.
Qed.
