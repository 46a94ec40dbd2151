(** Reading syntax texts (ReadSyntax). *)
From Verif Require Import Base Utf8 Parser Build Syntax SelfText Define Grammar WsLang ApiSpec WsApi WsNames Rep ApiFacts RefSpec RefCheck ReadFacts ReadSpec SelfGrammar SelfTree SelfLang ReadLang ReadMeans.
Local Open Scope string_scope.
Local Open Scope list_scope.

(** The language of syntax texts is [texts published "syntax" "syntax"]: [published] are the
    definitions of syntax.treerack (SelfGrammar.v), written down by hand. *)

(** C42: ReadSyntax succeeds only on texts of the published grammar *)
Theorem C42_only_texts : forall s input e s', Reads s input e s' None -> texts published "syntax" "syntax" input.
Proof. exact read_text. Qed.
Print Assumptions C42_only_texts.

(** C42: the built-in parser gives exactly the trees that the definitions of the published grammar
    mean (RefSpec.v), to complete texts without U+FFFD *)
Theorem C42_trees : forall input t,
  (exists fuel, selfParse fuel input REof = Ok (Tree t input)) <->
  ~ In runeError input /\ Means published input "syntax" 0 (Match (List.length input) [t]).
Proof. exact self_tree. Qed.
Print Assumptions C42_trees.

(** C42: the definitions read from the text of syntax.treerack are those of [published] *)
Theorem C42_published : defsOf (stringRunes selfText) selfTree = Some publishedDefs /\
  Means published (stringRunes selfText) "syntax" 0 (Match (List.length (stringRunes selfText)) [selfTree]).
Proof.
  rewrite selfRunes_eq. split; [exact self_defs|]. refine (proj2 (proj1 (self_tree selfRunes selfTree) _)). exists (3 * 1000). exact self_parse.
Qed.
Print Assumptions C42_published.

(** the hypotheses are met: syntax.treerack itself is read *)
Example C42_read : Reads emptySyntax (stringRunes selfText) REof selfSyntax None.
Proof. exists (3 * 1000). refine (eq_trans self_read _). exact self_define. Qed.

(** ** what a syntax text means

    [spells text defs]: the text is a syntax text, and its definitions are [defs] (ReadSpec.v);
    [textCalls] are the definition calls of one of them, made by [rawAll] until one of them fails. *)

(** a text with whitespace, a class, a quantifier, a group, a choice and a comment *)
Definition sumText : list rune := runesOf "space:ws = [ ];  // sums
num:nows = [0-9]+;
sum:root = num ([+\-] num){0,3} | num".
Definition sumDefs : list textDef :=
  [ mkTextDef "space" CWhitespace (EClass false (runesOf " ") []);
    mkTextDef "num" CNoWhitespace (ESequence [(EClass false [] [(48, 57)%Z], (1, -1)%Z)]);
    mkTextDef "sum" CRoot (EChoice [ESequence [(ESymbol "num", (0, 0)%Z); (ESequence [(EClass false (runesOf "+-") [], (0, 0)%Z); (ESymbol "num", (0, 0)%Z)], (0, 3)%Z)]; ESymbol "num"]) ].
Lemma spells_run text defs fuel : match selfParse fuel text REof with Ok (Tree t toks) => Some (toks, defsOf toks t) | _ => None end = Some (text, Some defs) -> spells text defs.
Proof.
  destruct (selfParse fuel text REof) as [[t toks|]| |] eqn:E; try discriminate. intros H. injection H as E1 E2. subst toks. destruct (proj1 (self_tree text t)) as [Hv Hs]; [eauto|].
  split; auto. exists t. split; auto.
Qed.
Example sum_spells : spells sumText sumDefs.
Proof. apply (spells_run _ _ 1000). vm_compute. reflexivity. Qed.

(** C46: reading a text makes the definition calls of its definitions, and nothing else *)
Theorem C46_text : forall s text defs, sInitialized s = false -> spells text defs ->
  forall s' err, Reads s text REof s' err <-> rawAll s (flat_map textCalls defs) = (s', err).
Proof. exact spells_means. Qed.
Print Assumptions C46_text.

(** C46: ReadSyntax succeeds exactly when the reader ends normally, the syntax is not initialized,
    the text is a list of definitions and the definition calls succeed *)
Theorem C46_success : forall s text e s', Reads s text e s' None <->
  e = REof /\ sInitialized s = false /\ exists defs, spells text defs /\ rawAll s (flat_map textCalls defs) = (s', None).
Proof. exact spells_success. Qed.
Print Assumptions C46_success.

(** C46: a text spells one list of definitions at most; when it spells none, an error is returned *)
Theorem C46_one : forall text defs defs', spells text defs -> spells text defs' -> defs = defs'.
Proof. exact spells_one. Qed.
Print Assumptions C46_one.
Theorem C46_otherwise : forall s text, (forall defs, ~ spells text defs) -> ~ In runeError text -> exists s' err, Reads s text REof s' (Some err).
Proof. exact spells_error. Qed.
Print Assumptions C46_otherwise.

(** C46: when there are only symbols inside of sequences and choices, the text does the same as the
    methods AnyChar, Class, CharSequence, Sequence and Choice *)
Theorem C46_methods : forall s text defs, sInitialized s = false -> spells text defs -> (forall d, In d defs -> plainExpr (tdExpr d)) ->
  forall s' err, Reads s text REof s' err <-> defineAll s (map methodCall defs) = (s', err).
Proof. exact spells_methods. Qed.
Print Assumptions C46_methods.
Example C46_methods_example : exists text defs, spells text defs /\ (forall d, In d defs -> plainExpr (tdExpr d)) /\
  map methodCall defs = [DClass "digit" (N.lor CAlias 0) false [] [(48, 57)%Z]; DSequence "number" CNoWhitespace [mkItem "digit" 1 (-1)]].
Proof.
  exists (runesOf "digit:alias=[0-9];number:nows=digit+"). eexists. split; [apply (spells_run _ _ 1000); vm_compute; reflexivity|]. split; [|reflexivity].
  intros d [<-|[<-|[]]]; simpl; auto. intros x b [E|[]]. inversion E; eauto.
Qed.

(** ** ReadSyntax does not panic *)

(** C47: ReadSyntax returns for every input *)
Theorem C47_returns : forall s input e, exists fuel0, forall fuel, fuel0 <= fuel -> ReadSyntax fuel s input e <> NoFuel.
Proof. exact ReadSyntax_terminates. Qed.
Print Assumptions C47_returns.
(** C47 for valid texts: it does not panic *)
Theorem C47_valid_partial : forall s input, ~ In runeError input -> ~ ReadPanics s input REof.
Proof. exact read_noPanic. Qed.
Print Assumptions C47_valid_partial.
Example C47_example : ~ In runeError sumText /\ ~ In runeError (runesOf "a = (((").
Proof. split; vm_compute; intuition discriminate. Qed.
(** C47 is false for an input that begins with an invalid byte *)
Theorem C47_refuted : ReadPanics emptySyntax [runeError] REof.
Proof. exists 400. eexists. vm_compute. reflexivity. Qed.
Print Assumptions C47_refuted.

(** ** syntaxes made from a text *)

(** C48: Parse accepts only texts of the definitions, and the text of every node belongs to its
    definition.  With whitespace, all the symbols are defined and are no numbers, and keywords are
    literals, choices or nows ([textReady]). *)
Theorem C48_words_partial : forall text defs s s' input e t toks n,
  spells text defs -> Reads emptySyntax text REof s None -> textReady defs -> sensibleRanges (flat_map textCalls defs) ->
  Parses s input e s' (Tree t toks) -> inTree n t ->
  exists root, rootName (flat_map textCalls defs) = Some root /\ texts (flat_map textCalls defs) root (nName n) (nodeRunes toks n).
Proof. exact spells_words. Qed.
Print Assumptions C48_words_partial.
(** C48: without left recursion Parse gives the tree that the definitions mean *)
Theorem C48_tree_partial : forall text defs s s' name input,
  let calls := flat_map textCalls defs in
  spells text defs -> Reads emptySyntax text REof s None -> textReady defs ->
  refersToDefs calls -> literalKeywords calls -> nokwOnSequences calls -> noLeftRecursion calls ->
  rootName calls = Some name -> Inits s s' None -> ~ In runeError input ->
  forall t, Parses s input REof s' (Tree t input) <-> Means calls input name 0 (Match (List.length input) [t]).
Proof. exact spells_tree. Qed.
Print Assumptions C48_tree_partial.
Example C48_example : textReady sumDefs /\ refersToDefs (flat_map textCalls sumDefs) /\ literalKeywords (flat_map textCalls sumDefs) /\
  nokwOnSequences (flat_map textCalls sumDefs) /\ noLeftRecursion (flat_map textCalls sumDefs) /\ sensibleRanges (flat_map textCalls sumDefs) /\
  rootName (flat_map textCalls sumDefs) = Some "sum" /\
  Means (flat_map textCalls sumDefs) (runesOf "1 + 23-4") "sum" 0 (Match 8 [Node "sum" 0 8 [Node "num" 0 1 []; Node "num" 4 6 []; Node "num" 7 8 []]]).
Proof.
  assert (R : refersToDefs (flat_map textCalls sumDefs)) by (apply refersb_ok; vm_compute; reflexivity).
  assert (L : literalKeywords (flat_map textCalls sumDefs)).
  { intros d Hd Hf. repeat (destruct Hd as [<-|Hd]; [vm_compute in Hf; discriminate|]). destruct Hd. }
  split; [|split; [exact R|split; [exact L|split; [|split; [|split; [|split]]]]]].
  - intros _. split; [apply refers_all; exact R|]. split; [|intros d Hd; apply digits_noItoa; repeat (destruct Hd as [<-|Hd]; [vm_compute; reflexivity|]); destruct Hd].
    intros d Hd Hf. destruct (L d Hd Hf) as (n & ct & chars & ->). exact I.
  - intros n ct os Hd. repeat (destruct Hd as [Hd|Hd]; [inversion Hd; reflexivity|]). destruct Hd.
  - apply (leftFree_ok _ 20). vm_compute. reflexivity.
  - apply sensibleb_ok. vm_compute. reflexivity.
  - vm_compute. reflexivity.
  - split; [discriminate|]. exists 40. vm_compute. reflexivity.
Qed.

(** C48 is false when symbols are numbers: the names of the definitions generated for whitespace
    collide.  In this text the repetition of ("y" "z") in 0 and the repetition of 0 in 1 get the
    same generated definition, and the text qyzr is taken for the definition 1 = ("q" 0* ) "r". *)
Definition quoted (t : string) : string := String (Ascii.ascii_of_N 34) (t ++ String (Ascii.ascii_of_N 34) "").
Definition numberText : list rune := runesOf ("sp:ws = " ++ quoted " " ++ "; 0 = " ++ quoted "x" ++ " (" ++ quoted "y" ++ " " ++ quoted "z" ++ ")*; 1 = (" ++ quoted "q" ++ " 0*) " ++ quoted "r" ++ "; m:root = 0 | 1").
Definition readText (text : list rune) : syntax := match ReadSyntax 1000 emptySyntax text REof with Ok (s, _) => s | _ => emptySyntax end.
Lemma read_run text : match ReadSyntax 1000 emptySyntax text REof with Ok (_, None) => true | _ => false end = true -> Reads emptySyntax text REof (readText text) None.
Proof. unfold readText. destruct (ReadSyntax 1000 emptySyntax text REof) as [[s [e|]]| |] eqn:E; try discriminate. intros _. exists 1000. exact E. Qed.
Theorem C48_refuted : exists text defs s s' name input t,
  let calls := flat_map textCalls defs in
  spells text defs /\ Reads emptySyntax text REof s None /\
  refersToDefs calls /\ literalKeywords calls /\ nokwOnSequences calls /\ noLeftRecursion calls /\ sensibleRanges calls /\
  rootName calls = Some name /\ ~ In runeError input /\
  Parses s input REof s' (Tree t input) /\ Means calls input name 0 NoMatch.
Proof.
  exists numberText. do 6 eexists. cbv zeta. split; [apply (spells_run _ _ 1000); vm_compute; reflexivity|]. split; [apply read_run; vm_compute; reflexivity|].
  split; [apply refersb_ok; vm_compute; reflexivity|]. split; [intros d Hd Hf; repeat (destruct Hd as [<-|Hd]; [vm_compute in Hf; discriminate|]); destruct Hd|].
  split; [intros n ct os Hd; repeat (destruct Hd as [Hd|Hd]; [inversion Hd; reflexivity|]); destruct Hd|]. split; [apply (leftFree_ok _ 20); vm_compute; reflexivity|].
  split; [apply sensibleb_ok; vm_compute; reflexivity|]. split; [vm_compute; reflexivity|]. split; [apply (fun H => H : ~ In runeError (runesOf "qyzr")); vm_compute; intuition discriminate|].
  split; [exists 300; vm_compute; reflexivity|]. split; [discriminate|]. exists 60. vm_compute. reflexivity.
Qed.
Print Assumptions C48_refuted.
