(** The number of calls of parser.parse: C54. *)
From Verif Require Import Base Utf8 Parser Build Syntax Define Grammar WsLang ApiSpec WsApi ApiFacts RefSpec RefApi RefCheck ReadFacts ReadSpec SelfGrammar SelfLang ReadLang ReadMeans
  Cost CostFacts CostSpec CostApi CostExp CostRead PropRefuted PropRead PropRef PropReadGrow.
Local Open Scope string_scope.
Local Open Scope list_scope.
Local Open Scope nat_scope.

(** C54: Parse calls the parsers a number of times that is bounded by a polynomial of the number of
    characters in the input.  Proved when every cycle of references passes through a choice; refuted
    below without that.  The number exists for every input without invalid characters, and there is only
    one.  The calls of the builders, which make the tree afterwards, are not counted. *)
Theorem C54_calls_partial : forall calls s s',
  Defined calls s -> refersToDefs calls -> literalKeywords calls -> choiceInEveryCycle calls -> Inits s s' None ->
  exists C d, forall input e,
    (forall k, Calls s' input e k -> k <= C * S (List.length input) ^ d) /\
    (~ In runeError input -> exists k, Calls s' input e k).
Proof. exact calls_bound. Qed.
Print Assumptions C54_calls_partial.

(** the same for a syntax that is read from a text *)
Theorem C54_text_calls_partial : forall text defs s s',
  let calls := flat_map textCalls defs in
  spells text defs -> ReadLang.Reads emptySyntax text REof s None -> textReady defs ->
  literalKeywords calls -> choiceInEveryCycle calls -> Inits s s' None ->
  exists C d, forall input e,
    (forall k, Calls s' input e k -> k <= C * S (List.length input) ^ d) /\
    (~ In runeError input -> exists k, Calls s' input e k).
Proof. exact text_calls_bound. Qed.
Print Assumptions C54_text_calls_partial.

(** and for the syntax of syntaxes, whose parser is the one of ReadSyntax: no condition *)
Theorem C54_builtin : exists C d, forall input e,
    (forall k, Calls selfInit input e k -> k <= C * S (List.length input) ^ d) /\
    (~ In runeError input -> exists k, Calls selfInit input e k).
Proof. exact self_calls_bound. Qed.
Print Assumptions C54_builtin.

(** the number of calls is a function of the syntax and the input *)
Theorem C54_one : forall s input e k k', Calls s input e k -> Calls s input e k' -> k = k'.
Proof. exact Calls_unique. Qed.
Print Assumptions C54_one.

(** C54 in full fails: a syntax of six definitions where n letters take at least 2^n calls *)
Theorem C54_refuted : exists calls s s',
  Defined calls s /\ refersToDefs calls /\ literalKeywords calls /\ Inits s s' None /\
  (forall n, exists k, Calls s' (repeat 97%Z n) REof k /\ 2 ^ n <= k) /\
  ~ exists C d, forall input e k, Calls s' input e k -> k <= C * S (List.length input) ^ d.
Proof. exact twice_refuted. Qed.
Print Assumptions C54_refuted.

(** the calculator of PropRef.v and the left-recursive arithmetic of PropReadGrow.v meet the hypotheses *)
Example C54_example : Defined calc calcSyntax /\ refersToDefs calc /\ literalKeywords calc /\ choiceInEveryCycle calc /\
  exists s', Inits calcSyntax s' None /\ exists k, Calls s' calcText REof k.
Proof.
  assert (Hc : choiceInEveryCycle calc) by (apply (checkRanks_ok calc (chainRank 12 calc)); vm_compute; reflexivity).
  split; [exact calc_defined|]. split; [exact calc_refs|]. split; [exact calc_literal|]. split; [exact Hc|].
  destruct calc_init as (s' & HI). exists s'. split; auto.
  destruct (C54_calls_partial calc calcSyntax s' calc_defined calc_refs calc_literal Hc HI) as (C & d & H). apply H. exact calc_valid.
Qed.
Example C54_text_example : spells arithText arithDefs /\ choiceInEveryCycle (flat_map textCalls arithDefs).
Proof. split; [apply arith_spells|]. apply (checkRanks_ok _ (chainRank 12 (flat_map textCalls arithDefs))). vm_compute. reflexivity. Qed.
(** the syntax of the refutation has a cycle of sequences *)
Example C54_cycle : ~ choiceInEveryCycle twice.
Proof.
  intros (rank & H). destruct (H "t" CNone [mkItem "a" 0 0; mkItem "s" 0 0; mkItem "b" 0 0] (mkItem "s" 0 0))%Z as [(ct & os & Hc)|H1]; [simpl; tauto|simpl; tauto| |].
  - simpl in Hc. intuition discriminate.
  - destruct (H "s" CRoot [mkItem "t" 0 1; mkItem "u" 0 1] (mkItem "t" 0 1))%Z as [(ct & os & Hc)|H2]; [simpl; tauto|simpl; tauto| |].
    + simpl in Hc. intuition discriminate.
    + simpl in H1, H2. lia.
Qed.
