(** Definitions that start with themselves: C43.  The specification is LeftSpec.v. *)
From Verif Require Import Base Utf8 Parser Build Syntax Lang Grammar WsLang ApiSpec InitSpec WsApi ApiFacts RefSpec RefFuel RefCheck LeftSpec LeftCheck LeftApi.
Local Open Scope string_scope.
Local Open Scope list_scope.
Local Open Scope nat_scope.

(** expr = sum | difference | term; sum = expr plus term; difference = expr minus term *)
Definition arith : list defcall :=
  [ DClass "letter" CAlias false [] [(97, 122)%Z];
    DSequence "term" CNone [mkItem "letter" 1 0];
    DCharSequence "plus" CAlias (runesOf "+");
    DCharSequence "minus" CAlias (runesOf "-");
    DSequence "sum" CNone [mkItem "expr" 0 0; mkItem "plus" 0 0; mkItem "term" 0 0];
    DSequence "difference" CNone [mkItem "expr" 0 0; mkItem "minus" 0 0; mkItem "term" 0 0];
    DChoice "expr" CRoot ["sum"; "difference"; "term"] ].
Definition arithSyntax : syntax := fst (defineAll emptySyntax arith).
Definition arithText : list rune := runesOf "ab-c+d".
Definition arithTree : node :=
  Node "expr" 0 6 [Node "sum" 0 6 [
    Node "expr" 0 4 [Node "difference" 0 4 [Node "expr" 0 2 [Node "term" 0 2 []]; Node "term" 3 4 []]];
    Node "term" 5 6 []]].
Example arith_defined : Defined arith arithSyntax.
Proof. vm_compute. reflexivity. Qed.
Example arith_refs : refersToDefs arith.
Proof. intros d Hd. repeat (destruct Hd as [<-|Hd]; [vm_compute; intuition (subst; simpl; tauto)|]). destruct Hd. Qed.
Example arith_literal : literalKeywords arith.
Proof. intros d Hd Hf. repeat (destruct Hd as [<-|Hd]; [vm_compute in Hf; eauto; discriminate|]). destruct Hd. Qed.
Example arith_nokw : nokwOnSequences arith.
Proof. intros n ct os Hd. repeat (destruct Hd as [Hd|Hd]; [inversion Hd; reflexivity|]). destruct Hd. Qed.
Example arith_nows : noWhitespaceDefs arith.
Proof. intros d Hd. repeat (destruct Hd as [<-|Hd]; [reflexivity|]). destruct Hd. Qed.
Example arith_root : rootName arith = Some "expr".
Proof. vm_compute. reflexivity. Qed.
Example arith_init : exists s', Inits arithSyntax s' None.
Proof. eexists. exists 200. vm_compute. reflexivity. Qed.
Example arith_left : leftRecursive (graphOf arith) (KDef "expr") (Some "expr") [KDef "sum"; KDef "difference"] [KDef "term"] /\
  groundedLeft (graphOf arith) (KDef "expr") [KDef "sum"; KDef "difference"] [KDef "term"].
Proof. apply (leftCheck_ok arith _ _ _ _ 12). vm_compute. reflexivity. Qed.

(** C43 for a root definition that starts with itself, in a syntax without whitespace definitions:
    there is one and only one outcome of the specification, and Parse accepts exactly when it takes
    the whole input, and returns the tree of it *)
Theorem C43_left_recursion_partial : forall calls s s' name input extensions bases,
  Defined calls s -> refersToDefs calls -> literalKeywords calls -> nokwOnSequences calls -> noWhitespaceDefs calls ->
  rootName calls = Some name -> Inits s s' None -> ~ In runeError input ->
  leftRecursive (graphOf calls) (KDef name) (Some name) extensions bases ->
  groundedLeft (graphOf calls) (KDef name) extensions bases ->
  exists r, leftGives (graphOf calls) (keywordTexts calls) input (Some name) extensions bases 0 r /\
    (forall r', leftGives (graphOf calls) (keywordTexts calls) input (Some name) extensions bases 0 r' -> r' = r) /\
    forall s2 t toks, Parses s input REof s2 (Tree t toks) <-> s2 = s' /\ toks = input /\ r = Match (List.length input) [t].
Proof. exact left_grounded. Qed.
(** the tree of ab-c+d nests to the left *)
Example C43_example : exists s', Parses arithSyntax arithText REof s' (Tree arithTree arithText).
Proof. eexists. exists 600. vm_compute. reflexivity. Qed.

(** C43 for e = e op t | t: the accepted texts are exactly t (op t)*, with the tree nested to the left *)
Theorem C43_repetitions_partial : forall calls s s' name input x bases,
  Defined calls s -> refersToDefs calls -> literalKeywords calls -> nokwOnSequences calls -> noWhitespaceDefs calls ->
  rootName calls = Some name -> Inits s s' None -> ~ In runeError input ->
  leftRecursive (graphOf calls) (KDef name) (Some name) [x] bases ->
  groundedLeft (graphOf calls) (KDef name) [x] bases ->
  forall s2 t toks, Parses s input REof s2 (Tree t toks) <->
    s2 = s' /\ toks = input /\ grown (graphOf calls) (keywordTexts calls) input (Some name) [x] bases 0 (List.length input) [t].
Proof. exact left_one. Qed.

(** e = sum | t; sum = e op t *)
Definition plain : list defcall :=
  [ DClass "t" CNone false [] [(97, 122)%Z]; DCharSequence "op" CAlias (runesOf "+");
    DSequence "sum" CAlias [mkItem "e" 0 0; mkItem "op" 0 0; mkItem "t" 0 0]; DChoice "e" CRoot ["t"; "sum"] ].
Definition plainSyntax : syntax := fst (defineAll emptySyntax plain).
Example plain_hypotheses : Defined plain plainSyntax /\ refersToDefs plain /\ literalKeywords plain /\ nokwOnSequences plain /\ noWhitespaceDefs plain /\
  rootName plain = Some "e" /\ (exists s', Inits plainSyntax s' None) /\
  leftRecursive (graphOf plain) (KDef "e") (Some "e") [KDef "sum"] [KDef "t"] /\ groundedLeft (graphOf plain) (KDef "e") [KDef "sum"] [KDef "t"].
Proof.
  split; [vm_compute; reflexivity|]. split; [intros d Hd; repeat (destruct Hd as [<-|Hd]; [vm_compute; intuition (subst; simpl; tauto)|]); destruct Hd|].
  split; [intros d Hd Hf; repeat (destruct Hd as [<-|Hd]; [vm_compute in Hf; eauto; discriminate|]); destruct Hd|].
  split; [intros n ct os Hd; repeat (destruct Hd as [Hd|Hd]; [inversion Hd; reflexivity|]); destruct Hd|].
  split; [intros d Hd; repeat (destruct Hd as [<-|Hd]; [reflexivity|]); destruct Hd|].
  split; [vm_compute; reflexivity|]. split; [eexists; exists 200; vm_compute; reflexivity|].
  apply (leftCheck_ok plain _ _ _ _ 12). vm_compute. reflexivity.
Qed.
Example C43_plain : exists s', Parses plainSyntax (runesOf "a+b+c") REof s'
  (Tree (Node "e" 0 5 [Node "e" 0 3 [Node "e" 0 1 [Node "t" 0 1 []]; Node "t" 2 3 []]; Node "t" 4 5 []]) (runesOf "a+b+c")).
Proof. eexists. exists 600. vm_compute. reflexivity. Qed.

(** C05 for such a root definition *)
Theorem C05_left_recursion_partial : forall calls s s' name input extensions bases t toks,
  Defined calls s -> refersToDefs calls -> literalKeywords calls -> nokwOnSequences calls -> noWhitespaceDefs calls ->
  rootName calls = Some name -> ~ In runeError input ->
  leftRecursive (graphOf calls) (KDef name) (Some name) extensions bases ->
  groundedLeft (graphOf calls) (KDef name) extensions bases ->
  Parses s input REof s' (Tree t toks) -> wellNested t.
Proof. exact left_nested. Qed.

Print Assumptions C05_left_recursion_partial.
Print Assumptions C43_left_recursion_partial.
Print Assumptions C43_repetitions_partial.
