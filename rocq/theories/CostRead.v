(** The bounds of CostApi.v for definition calls, syntax texts and the parser of ReadSyntax. *)
From Verif Require Import Base Utf8 Parser Build Syntax Define Grammar WsLang ApiSpec WsApi ApiFacts RefSpec RefApi RefCheck ReadFacts ReadSpec SelfGrammar SelfLang ReadLang ReadMeans
  Cost CostFacts CostSpec CostApi CostExp.
Local Open Scope string_scope.
Local Open Scope nat_scope.

Lemma u_both calls s s' : usable calls s -> wsReady calls -> literalKeywords calls -> choiceInEveryCycle calls -> Inits s s' None ->
  exists C d, forall input e,
    (forall k, Calls s' input e k -> k <= C * S (List.length input) ^ d) /\
    (~ In runeError input -> exists k, Calls s' input e k).
Proof.
  intros Hu Hw Hk Hc HI. destruct (u_calls_bound calls s s' Hu Hw Hk Hc HI) as (C & d & H). exists C, d. intros input e.
  split; [apply H|]. eapply u_calls; eauto.
Qed.
Theorem calls_bound calls s s' :
  Defined calls s -> refersToDefs calls -> literalKeywords calls -> choiceInEveryCycle calls -> Inits s s' None ->
  exists C d, forall input e,
    (forall k, Calls s' input e k -> k <= C * S (List.length input) ^ d) /\
    (~ In runeError input -> exists k, Calls s' input e k).
Proof. intros Hd Hr Hk. apply u_both; auto; [apply defined_usable; auto|]; apply literal_ready; auto. Qed.
Theorem text_calls_bound text defs s s' :
  let calls := flat_map textCalls defs in
  spells text defs -> ReadLang.Reads emptySyntax text REof s None -> textReady defs ->
  literalKeywords calls -> choiceInEveryCycle calls -> Inits s s' None ->
  exists C d, forall input e,
    (forall k, Calls s' input e k -> k <= C * S (List.length input) ^ d) /\
    (~ In runeError input -> exists k, Calls s' input e k).
Proof.
  intros calls Hs HR Hw. apply u_both; [eapply spells_usable; eauto|]. intros H. destruct (Hw H) as (H1 & H2 & _). split; auto.
Qed.
Lemma self_cycles : choiceInEveryCycle published.
Proof. apply (checkRanks_ok published (chainRank 12 published)). vm_compute. reflexivity. Qed.
Theorem self_calls_bound : exists C d, forall input e,
    (forall k, Calls selfInit input e k -> k <= C * S (List.length input) ^ d) /\
    (~ In runeError input -> exists k, Calls selfInit input e k).
Proof. apply (u_both published selfSyntax selfInit self_usable (literal_ready _ self_refers self_keywords) self_keywords self_cycles self_Inits). Qed.

Lemma twice_defined : Defined twice (fst (defineAll emptySyntax twice)).
Proof. vm_compute. reflexivity. Qed.
Lemma twice_refers : refersToDefs twice.
Proof. apply refersb_ok. vm_compute. reflexivity. Qed.
Lemma twice_literal : literalKeywords twice.
Proof. intros d Hd Hf. repeat (destruct Hd as [<-|Hd]; [vm_compute in Hf; eauto; discriminate|]). destruct Hd. Qed.
Lemma twice_inits : Inits (fst (defineAll emptySyntax twice)) twiceSyntax None.
Proof. exists 30. vm_compute. reflexivity. Qed.
Theorem twice_refuted : exists calls s s',
  Defined calls s /\ refersToDefs calls /\ literalKeywords calls /\ Inits s s' None /\
  (forall n, exists k, Calls s' (repeat 97%Z n) REof k /\ 2 ^ n <= k) /\
  ~ exists C d, forall input e k, Calls s' input e k -> k <= C * S (List.length input) ^ d.
Proof.
  exists twice, (fst (defineAll emptySyntax twice)), twiceSyntax. split; [exact twice_defined|]. split; [exact twice_refers|]. split; [exact twice_literal|]. split; [exact twice_inits|].
  assert (H : forall n, exists k, Calls twiceSyntax (repeat 97%Z n) REof k /\ 2 ^ n <= k).
  { intros n. destruct (u_calls twice _ twiceSyntax (letters n) REof (defined_usable _ _ twice_defined (literal_ready _ twice_refers twice_literal)) twice_inits (letters_ok n)) as (k & Hk).
    exists k. split; auto. apply (twice_exponential n). auto. }
  split; auto. intros (C & d & HC). destruct (exp_beats d C) as (n & Hn). destruct (H n) as (k & H1 & H2). specialize (Hn n (Nat.le_refl _)).
  specialize (HC _ _ _ H1). rewrite repeat_length in HC. lia.
Qed.
