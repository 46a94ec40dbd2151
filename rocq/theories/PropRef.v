(** Parse against the reference semantics of RefSpec.v: C05, C06, C07, C08, C09. *)
From Verif Require Import Base Utf8 Parser Build Syntax Lang Grammar WsLang ApiSpec InitSpec WsApi ApiFacts RefSpec RefFuel RefCheck RefSafe PropParse.

(** a syntax without left recursion, with whitespace, a keyword, nested repetitions and a choice
    between a longer and a shorter option *)
Definition calc : list defcall :=
  [ DClass "space" (N.lor CWhitespace CAlias) false (runesOf " ") [];
    DCharSequence "let" CKeyword (runesOf "let");
    DClass "letter" CAlias false [] [(97, 122)%Z];
    DSequence "id" (N.lor CNoWhitespace CNoKeyword) [mkItem "letter" 1 0];
    DCharSequence "open" CAlias (runesOf "(");
    DCharSequence "close" CAlias (runesOf ")");
    DSequence "call" CNone [mkItem "id" 1 1; mkItem "open" 1 1; mkItem "expr" 0 0; mkItem "expr" 0 3; mkItem "close" 1 1];
    DChoice "expr" CAlias ["id"; "call"];
    DSequence "stmt" CRoot [mkItem "let" 0 1; mkItem "expr" 1 1] ]%string.
Definition calcSyntax : syntax := fst (defineAll emptySyntax calc).
Definition calcText : list rune := runesOf " let f( a )".
Definition calcTree : node :=
  Node "stmt" 0 11 [Node "let" 1 4 []; Node "call" 5 11 [Node "id" 5 6 []; Node "id" 8 9 []]].
Example calc_defined : Defined calc calcSyntax.
Proof. vm_compute. reflexivity. Qed.
Example calc_refs : refersToDefs calc.
Proof. intros d Hd. repeat (destruct Hd as [<-|Hd]; [vm_compute; intuition (subst; simpl; tauto)|]). destruct Hd. Qed.
Example calc_literal : literalKeywords calc.
Proof. intros d Hd Hf. repeat (destruct Hd as [<-|Hd]; [vm_compute in Hf; eauto; discriminate|]). destruct Hd. Qed.
Example calc_nokw : nokwOnSequences calc.
Proof. intros n ct os Hd. repeat (destruct Hd as [Hd|Hd]; [inversion Hd; reflexivity|]). destruct Hd. Qed.
Example calc_root : rootName calc = Some "stmt"%string.
Proof. vm_compute. reflexivity. Qed.
Example calc_free : noLeftRecursion calc.
Proof. apply (leftFree_ok calc 20). vm_compute. reflexivity. Qed.
Example calc_init : exists s', Inits calcSyntax s' None.
Proof. eexists. exists 200. vm_compute. reflexivity. Qed.
Example calc_valid : ~ In runeError calcText.
Proof. vm_compute. intuition discriminate. Qed.
Example calc_means : Means calc calcText "stmt" 0 (Match 11 [calcTree]).
Proof. split; [discriminate|]. exists 40. vm_compute. reflexivity. Qed.
(** the first [expr] of a [call] takes every argument, and none is given back to the second one *)
Example calc_rejects : Means calc (runesOf "f(a") "stmt" 0 (Match 1 [Node "stmt" 0 1 [Node "id" 0 1 []]]).
Proof. split; [discriminate|]. exists 40. vm_compute. reflexivity. Qed.

(** C08: without left recursion the reference semantics gives one and only one outcome for every
    definition, offset and input *)
Theorem C08_one_outcome : forall calls s input n o,
  Defined calls s -> refersToDefs calls -> noLeftRecursion calls -> grammarOf calls n <> None ->
  exists r, Means calls input n o r /\ forall r', Means calls input n o r' -> r' = r.
Proof. exact means_one. Qed.
Example C08_example : noLeftRecursion calc /\ refersToDefs calc /\ grammarOf calc "expr" <> None.
Proof. split; [exact calc_free|]. split; [exact calc_refs|]. vm_compute. discriminate. Qed.

(** C06: without left recursion, Parse accepts an input exactly when the reference semantics of
    the root definition takes the whole of it *)
Theorem C06_accepts : forall calls s s' name input,
  Defined calls s -> refersToDefs calls -> literalKeywords calls -> nokwOnSequences calls -> noLeftRecursion calls ->
  rootName calls = Some name -> Inits s s' None -> ~ In runeError input ->
  ((exists t, Parses s input REof s' (Tree t input)) <-> (exists ns, Means calls input name 0 (Match (List.length input) ns))).
Proof. exact accepts_iff. Qed.
Example C06_example : exists s', Parses calcSyntax calcText REof s' (Tree calcTree calcText).
Proof.
  destruct (Parse 200 calcSyntax calcText REof) as [[s' o]|w|] eqn:E; [|vm_compute in E; discriminate|vm_compute in E; discriminate].
  exists s', 200. rewrite E. vm_compute in E. inversion E. reflexivity.
Qed.

(** C06, with left recursion elsewhere in the syntax: it is enough that the reference semantics
    gives an outcome for the root definition and this input *)
Theorem C06_accepts_defined : forall calls s s' name input r,
  Defined calls s -> refersToDefs calls -> literalKeywords calls -> nokwOnSequences calls ->
  rootName calls = Some name -> Inits s s' None -> ~ In runeError input ->
  Means calls input name 0 r ->
  forall s2 t toks, Parses s input REof s2 (Tree t toks) <-> s2 = s' /\ toks = input /\ r = Match (List.length input) [t].
Proof. exact parse_outcome. Qed.

(** C07: the tree is the one of the reference semantics *)
Theorem C07_tree : forall calls s s' name input t toks,
  Defined calls s -> refersToDefs calls -> literalKeywords calls -> nokwOnSequences calls -> noLeftRecursion calls ->
  rootName calls = Some name -> ~ In runeError input -> Parses s input REof s' (Tree t toks) ->
  toks = input /\ Means calls input name 0 (Match (List.length input) [t]).
Proof. exact tree_means. Qed.

(** C05 without left recursion: the spans of the children are inside the span of their parent, in
    order, without overlap *)
Theorem C05_nested_partial : forall calls s s' name input t toks,
  Defined calls s -> refersToDefs calls -> literalKeywords calls -> nokwOnSequences calls -> noLeftRecursion calls ->
  rootName calls = Some name -> ~ In runeError input -> Parses s input REof s' (Tree t toks) -> wellNested t.
Proof. exact tree_nested. Qed.

(** C09 for inputs that the reference semantics takes: Parse returns the tree, it does not panic *)
Theorem C09_accepted_partial : forall calls s s' name input ns,
  Defined calls s -> refersToDefs calls -> literalKeywords calls -> nokwOnSequences calls ->
  rootName calls = Some name -> Inits s s' None -> ~ In runeError input ->
  Means calls input name 0 (Match (List.length input) ns) -> ~ ParsePanics s input REof.
Proof. exact accepted_safe. Qed.

(** C09 for inputs with a beginning that the reference semantics takes: Parse returns the tree or
    an error, it does not panic *)
Theorem C09_prefix_partial : forall calls s s' name input to ns,
  Defined calls s -> refersToDefs calls -> literalKeywords calls -> nokwOnSequences calls ->
  rootName calls = Some name -> Inits s s' None -> ~ In runeError input ->
  Means calls input name 0 (Match to ns) ->
  ~ ParsePanics s input REof /\ (to < List.length input -> exists err, Parses s input REof s' (Failed err)).
Proof. exact prefix_safe. Qed.
(** the root definition takes the first character of this text *)
Example C09_prefix_example : Means calc (runesOf "f(a") "stmt" 0 (Match 1 [Node "stmt" 0 1 [Node "id" 0 1 []]]) /\ ~ In runeError (runesOf "f(a").
Proof. split; [exact calc_rejects|vm_compute; intuition discriminate]. Qed.

Print Assumptions C08_one_outcome.
Print Assumptions C06_accepts.
Print Assumptions C06_accepts_defined.
Print Assumptions C07_tree.
Print Assumptions C05_nested_partial.
Print Assumptions C09_accepted_partial.
Print Assumptions C09_prefix_partial.
