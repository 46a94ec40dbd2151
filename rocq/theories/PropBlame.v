(** The definition and the offset of a ParseError: C53. *)
From Verif Require Import Base Utf8 Parser Build Syntax Define Grammar WsLang ApiSpec WsApi ApiFacts RefSpec RefApi RefCheck RefTail SelfLang ReadFacts ReadSpec ReadLang ReadMeans BlameApi PropRefuted PropRead PropRef.
Local Open Scope string_scope.
Local Open Scope list_scope.
Local Open Scope nat_scope.

(** C53: the definition that a ParseError names is one of those that were made, and neither one of
    whitespace nor one with the failpass flag.
    Missing: definitions with an empty name (C53_empty_refuted) *)
Theorem C53_definition_partial : forall calls s input e s' off line col def,
  Defined calls s -> (forall d, In d calls -> callName d <> "") ->
  Parses s input e s' (Failed (ErrParse off line col def)) ->
  exists d, In d calls /\ callName d = def /\ hasFlag (callFlags d) CWhitespace = false /\ hasFlag (callFlags d) CFailPass = false.
Proof. exact calls_blame. Qed.
Print Assumptions C53_definition_partial.
(** C53: and one of those of the syntax text, not one of the definitions made for its parts *)
Theorem C53_text : forall text defs s input e s' off line col def,
  spells text defs -> ReadLang.Reads emptySyntax text REof s None ->
  Parses s input e s' (Failed (ErrParse off line col def)) ->
  exists d, In d defs /\ tdName d = def /\ hasFlag (tdFlags d) CWhitespace = false /\ hasFlag (tdFlags d) CFailPass = false.
Proof. exact text_blame. Qed.
Print Assumptions C53_text.
(** C53: the Offset is not before the end of what the root definition takes of the input *)
Theorem C53_offset : forall calls s s' name input t ns off line col def,
  Defined calls s -> refersToDefs calls -> literalKeywords calls -> nokwOnSequences calls ->
  rootName calls = Some name -> ~ In runeError input -> Means calls input name 0 (Match t ns) ->
  Parses s input REof s' (Failed (ErrParse off line col def)) -> t <= off.
Proof. exact error_after. Qed.
Print Assumptions C53_offset.
Theorem C53_text_offset : forall text defs s s' name input t ns off line col def,
  let calls := flat_map textCalls defs in
  spells text defs -> ReadLang.Reads emptySyntax text REof s None -> textReady defs ->
  refersToDefs calls -> literalKeywords calls -> nokwOnSequences calls ->
  rootName calls = Some name -> ~ In runeError input -> Means calls input name 0 (Match t ns) ->
  Parses s input REof s' (Failed (ErrParse off line col def)) -> t <= off.
Proof. exact text_after. Qed.
Print Assumptions C53_text_offset.

(** the hypotheses are met: a list of numbers and of words in brackets, with whitespace; the digits
    and the closing bracket pass their failures on *)
Definition listCalls : list defcall :=
  [ DClass "space" CWhitespace false (runesOf " ") []; DClass "digit" (N.lor CAlias CFailPass) false [] [(48, 57)%Z]; DClass "letter" (N.lor CAlias CFailPass) false [] [(97, 122)%Z];
    DSequence "num" CNoWhitespace [mkItem "digit" 1 (-1)]; DSequence "word" CNoWhitespace [mkItem "letter" 1 (-1)];
    DCharSequence "open" CNone (runesOf "["); DCharSequence "close" CFailPass (runesOf "]");
    DSequence "group" CNone [mkItem "open" 0 0; mkItem "word" 0 (-1); mkItem "close" 0 0];
    DChoice "item" CAlias ["num"; "group"]; DSequence "doc" CRoot [mkItem "item" 0 (-1)] ]%Z.
Example list_defined : Defined listCalls (defined listCalls) /\ forall d, In d listCalls -> callName d <> "".
Proof. split; [vm_compute; reflexivity|]. intros d Hd. repeat (destruct Hd as [<-|Hd]; [discriminate|]). destruct Hd. Qed.
(** a missing letter is a failure of the word, and a missing bracket, too, of the last word *)
Example list_word : exists s', Parses (defined listCalls) (runesOf "12 [ab") REof s' (Failed (ErrParse 6 0 6 "word")).
Proof. apply run_parse. vm_compute. reflexivity. Qed.
Example list_group : exists s', Parses (defined listCalls) (runesOf "12 [ab] [3") REof s' (Failed (ErrParse 9 0 9 "word")).
Proof. apply run_parse. vm_compute. reflexivity. Qed.
(** the same with a text, with parts that are not definitions of the text *)
Definition groupText : list rune := runesOf "space:ws = "" "";
num:nows = [0-9]+;
group = ""["" ([a-z]+ "","")* ""]"";
doc:root = (num | group)*".
Example group_read : exists defs, spells groupText defs /\ ReadLang.Reads emptySyntax groupText REof (readText groupText) None /\ map tdName defs = ["space"; "num"; "group"; "doc"].
Proof.
  eexists. split; [apply (spells_run _ _ 1000); vm_compute; reflexivity|]. split; [apply read_run; vm_compute; reflexivity|reflexivity].
Qed.
Example group_fails : exists s', Parses (readText groupText) (runesOf "1 [ab; c") REof s' (Failed (ErrParse 5 0 5 "group")).
Proof. apply run_parse. vm_compute. reflexivity. Qed.
(** a name and an opened bracket: the root takes the name, and the error is after the bracket *)
Example C53_offset_example : Means calc (runesOf "f(a") "stmt" 0 (Match 1 [Node "stmt" 0 1 [Node "id" 0 1 []]]) /\
  exists s', Parses calcSyntax (runesOf "f(a") REof s' (Failed (ErrParse 3 0 3 "letter")).
Proof. split; [exact calc_rejects|apply run_parse; vm_compute; reflexivity]. Qed.

(** C53, refuted for an empty name: with whitespace, the failure of the root is reported with the
    name of a definition of the implementation *)
Definition emptyName : list defcall :=
  [ DClass "space" CWhitespace false (runesOf " ") []; DClass "x" CFailPass false (runesOf "x") []; DSequence "" CRoot [mkItem "x" 0 0] ]%Z.
Theorem C53_empty_refuted : exists calls s s' input off line col def,
  Defined calls s /\ Parses s input REof s' (Failed (ErrParse off line col def)) /\ ~ exists d, In d calls /\ callName d = def.
Proof.
  assert (H : exists s', Parses (defined emptyName) (runesOf "y") REof s' (Failed (ErrParse 0 0 0 ":wsroot"))) by (apply run_parse; vm_compute; reflexivity).
  destruct H as [s' H]. exists emptyName, (defined emptyName), s', (runesOf "y"), 0, 0, 0, ":wsroot". split; [vm_compute; reflexivity|]. split; auto.
  intros (d & Hd & E). repeat (destruct Hd as [<-|Hd]; [discriminate|]). destruct Hd.
Qed.
Print Assumptions C53_empty_refuted.
(** C53, refuted: the Offset is not the farthest character that rules the input out.  A text that has
    the same characters as the input up to the Offset, and the one at the Offset too, is accepted: a
    choice forgets the failure inside the option that it takes *)
Definition forgetful : list defcall :=
  [ DCharSequence "a" CNone (runesOf "a"); DCharSequence "bbx" CNone (runesOf "bbx"); DSequence "s" CNone [mkItem "a" 0 0; mkItem "bbx" 0 1];
    DChoice "c" CNone ["s"]; DCharSequence "d" CNone (runesOf "d"); DSequence "doc" CRoot [mkItem "c" 0 0; mkItem "d" 0 0] ]%Z.
Theorem C53_farthest_refuted : exists calls s s' input off line col def input' s2 t toks,
  Defined calls s /\ Parses s input REof s' (Failed (ErrParse off line col def)) /\
  off < List.length input /\ firstn (S off) input' = firstn (S off) input /\ Parses s input' REof s2 (Tree t toks).
Proof.
  assert (H : exists s', Parses (defined forgetful) (runesOf "abbc") REof s' (Failed (ErrParse 1 0 1 "d"))) by (apply run_parse; vm_compute; reflexivity).
  assert (H2 : exists s', Parses (defined forgetful) (runesOf "abbxd") REof s' (Tree (Node "doc" 0 5 [Node "c" 0 4 [Node "s" 0 4 [Node "a" 0 1 []; Node "bbx" 1 4 []]]; Node "d" 4 5 []]) (runesOf "abbxd")))
    by (apply run_parse; vm_compute; reflexivity).
  destruct H as [s' H]. destruct H2 as [s2 H2]. exists forgetful, (defined forgetful), s', (runesOf "abbc"), 1, 0, 1, "d", (runesOf "abbxd"), s2. eexists _, _.
  split; [vm_compute; reflexivity|]. split; [exact H|]. split; [vm_compute; lia|]. split; [reflexivity|exact H2].
Qed.
Print Assumptions C53_farthest_refuted.
