(** Properties of Parse: C01, C02, C03, C04, C11, C12, C13, C14, C16. *)
From Verif Require Import TextSpec Base Utf8 Parser Build Syntax Lang Sound Grammar WsLang ApiSpec DefSpec InitSpec ApiFacts DefineFacts.

(** a syntax with keywords, whitespace, aliases and left recursion, used to show that the
    hypotheses can be met *)
Definition demo : list defcall :=
  [ DClass "space" (N.lor CWhitespace CAlias) false (runesOf " ") [];
    DCharSequence "let" CKeyword (runesOf "let");
    DClass "letter" CAlias false [] [(97, 122)%Z];
    DSequence "id" (N.lor CNoWhitespace CNoKeyword) [mkItem "letter" 1 0];
    DCharSequence "plus" CAlias (runesOf "+");
    DSequence "sum" CNone [mkItem "expr" 1 1; mkItem "plus" 1 1; mkItem "id" 1 1];
    DChoice "expr" CAlias ["sum"; "id"];
    DSequence "stmt" CRoot [mkItem "let" 0 1; mkItem "expr" 1 1] ]%string.
Definition demoSyntax : syntax := fst (defineAll emptySyntax demo).
Example demo_defined : Defined demo demoSyntax.
Proof. vm_compute. reflexivity. Qed.
Example demo_ready : wsReady demo.
Proof.
  intros _. split.
  - intros d Hd. repeat (destruct Hd as [<-|Hd]; [vm_compute; intuition (subst; discriminate)|]). destruct Hd.
  - intros d Hd Hf. repeat (destruct Hd as [<-|Hd]; [vm_compute in Hf |- *; auto; discriminate|]). destruct Hd.
Qed.
Example demo_ranges : sensibleRanges demo.
Proof.
  intros n ct items it Hd Hi. repeat (destruct Hd as [Hd|Hd]; [inversion Hd; subst; simpl in Hi; intuition (subst; simpl in *; lia)|]). destruct Hd.
Qed.
Example demo_whitespace : hasWhitespaceDef demo.
Proof. eexists. split; [left; reflexivity|reflexivity]. Qed.
Example demo_literal : literalKeywords demo.
Proof. intros d Hd Hf. repeat (destruct Hd as [<-|Hd]; [vm_compute in Hf; eauto; discriminate|]). destruct Hd. Qed.
Definition demoText : list rune := runesOf "let a + bc+ d".
Definition demoTree : node :=
  Node "stmt" 0 13 [Node "let" 0 3 [];
    Node "sum" 4 13 [Node "sum" 4 10 [Node "id" 4 5 []; Node "id" 8 10 []]; Node "id" 12 13 []]].
Example demo_parses : exists s', Parses demoSyntax demoText REof s' (Tree demoTree demoText).
Proof.
  destruct (Parse 200 demoSyntax demoText REof) as [[s' o]|w|] eqn:E; [|vm_compute in E; discriminate|vm_compute in E; discriminate].
  exists s', 200. rewrite E. vm_compute in E. inversion E. reflexivity.
Qed.
Example demo_rejects : exists s', Parses demoSyntax (runesOf "let let") REof s' (Failed (ErrParse 7 0 7 "letter")).
Proof.
  destruct (Parse 200 demoSyntax (runesOf "let let") REof) as [[s' o]|w|] eqn:E; vm_compute in E; [|discriminate|discriminate].
  eexists s', 200. inversion E. reflexivity.
Qed.

(** C01: whatever definition calls, ReadSyntax, Init and Parse calls were made before, and whatever
    they returned, Parse of any finite input stops, with one result *)
Theorem C01_parse_terminates : forall s input e, apiSteps emptySyntax s ->
  (exists s' out, Parses s input e s' out) \/ ParsePanics s input e.
Proof. intros s input e H. apply Parse_stops. exact (apiSteps_reachable _ _ H re_new). Qed.
Theorem C01_one_result : forall s input e s1 o1, Parses s input e s1 o1 ->
  ~ ParsePanics s input e /\ forall s2 o2, Parses s input e s2 o2 -> s1 = s2 /\ o1 = o2.
Proof. intros. split; [eapply Parses_noPanic; eauto|intros; eapply Parses_unique; eauto]. Qed.
Example C01_example : apiSteps emptySyntax demoSyntax.
Proof. eapply defineAll_steps. exact demo_defined. Qed.

(** C02: an accepted input is a text of the root definition *)
Theorem C02_accepted_in_language : forall calls s s' input e t toks,
  Defined calls s -> wsReady calls -> sensibleRanges calls ->
  Parses s input e s' (Tree t toks) ->
  exists name, rootName calls = Some name /\ texts calls name name input.
Proof. intros; eapply tree_text; eauto. Qed.

(** C03: every node of the tree carries the name of a definition without alias, and its text is a
    text of that definition *)
Theorem C03_nodes : forall calls s s' input e t toks n,
  Defined calls s -> wsReady calls -> sensibleRanges calls ->
  Parses s input e s' (Tree t toks) -> inTree n t ->
  nFrom n <= nTo n /\ nTo n <= List.length input /\ visible calls (nName n) /\
  exists name, rootName calls = Some name /\ texts calls name (nName n) (nodeRunes toks n).
Proof. intros; eapply tree_nodes; eauto. Qed.

(** C04: the root node *)
Theorem C04_root_node : forall calls s s' input e t toks,
  Defined calls s -> wsReady calls -> Parses s input e s' (Tree t toks) ->
  exists name, rootName calls = Some name /\ nName t = name /\ nFrom t = 0 /\ nTo t = List.length input.
Proof. intros; eapply tree_root; eauto. Qed.

(** C11: a failing reader.  A tree is never returned.  If a ParseError is returned it is the one
    of every continuation of what was delivered, so the failing position was not reached. *)
Theorem C11_reader_error : forall s input k s' out, Parses s input (RFail k) s' out ->
  match out with
  | Tree _ _ => False
  | Failed (ErrParse off line col def) =>
    forall more e', exists s2, Parses s (input ++ more) e' s2 (Failed (ErrParse off line col def))
  | Failed err => err = ErrReader k \/ err = ErrInvalidUnicodeCharacter /\ In runeError input \/ Inits s s' (Some err)
  end.
Proof. exact reader_error. Qed.
Example C11_example : exists s', Parses demoSyntax (runesOf "let a +") (RFail 7) s' (Failed (ErrReader 7)).
Proof.
  destruct (Parse 200 demoSyntax (runesOf "let a +") (RFail 7)) as [[s' o]|w|] eqn:E; vm_compute in E; [|discriminate|discriminate].
  exists s', 200. inversion E. reflexivity.
Qed.

(** C12: success means that the reader was read up to EOF and all runes are in the tree *)
Theorem C12_success_at_eof : forall calls s s' input e t toks,
  Defined calls s -> wsReady calls -> Parses s input e s' (Tree t toks) ->
  e = REof /\ toks = input /\ nFrom t = 0 /\ nTo t = List.length input.
Proof. intros calls s s' input e t toks H1 H2 H3. destruct (tree_root _ _ _ _ _ _ _ H1 H2 H3) as (? & _ & _ & H & H'). destruct (tree_eof _ _ _ _ _ _ _ H1 H2 H3). auto. Qed.

(** C13: positions of ParseError *)
Theorem C13_error_position : forall s input e s' off line col def,
  Parses s input e s' (Failed (ErrParse off line col def)) ->
  off <= List.length input /\ line = newlines (firstn off input) /\ columnOf (firstn off input) col.
Proof. exact error_position. Qed.

(** C14: a sequence definition with nokw never spans the text of a (literal) keyword *)
Theorem C14_nokw_sequence : forall calls s s' input e t toks n ct items,
  Defined calls s -> wsReady calls -> sensibleRanges calls ->
  Parses s input e s' (Tree t toks) -> inTree n t ->
  In (DSequence (nName n) ct items) calls -> hasFlag ct CNoKeyword = true ->
  (rootName calls <> Some (nName n) \/ noWhitespaceDefs calls) ->
  ~ In (nodeRunes toks n) (keywordTexts calls).
Proof. exact nokw_nodes. Qed.

(** C16: after a successful Init, the language of every parser with the name of a user's
    definition is the language that the calls describe, whitespace between items included;
    [K] is the list of texts excluded by nokw *)
Theorem C16_whitespace_language : forall calls s s', Defined calls s -> wsReady calls -> Inits s s' None ->
  exists root name, sRoot s' = Some root /\ rootName calls = Some name /\
  (exists o, nth_error (parsers s') root = Some o /\ nodeName o = name) /\
  forall a o, takesPart s' a -> nth_error (parsers s') a = Some o -> nonChar o -> grammarOf calls (nodeName o) <> None ->
  forall K w, lang (parsers s') K a w <-> wgen (grammarOf calls) K (whitespaceNames calls) name (nodeName o) w.
Proof. exact languages. Qed.

Print Assumptions C01_parse_terminates.
Print Assumptions C01_one_result.
Print Assumptions C02_accepted_in_language.
Print Assumptions C03_nodes.
Print Assumptions C04_root_node.
Print Assumptions C11_reader_error.
Print Assumptions C12_success_at_eof.
Print Assumptions C13_error_position.
Print Assumptions C14_nokw_sequence.
Print Assumptions C16_whitespace_language.
