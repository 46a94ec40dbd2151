(** Syntax texts with definitions that start with themselves: C48.  The specification is GrowSpec.v. *)
From Verif Require Import Base Utf8 Parser Build Syntax Define Grammar WsLang ApiSpec WsApi WsNames Rep ApiFacts RefSpec RefCheck GrowSpec GrowCheck GrowApi ReadFacts ReadSpec SelfLang ReadLang ReadMeans ReadGrow PropRead.
Local Open Scope string_scope.
Local Open Scope list_scope.
Local Open Scope nat_scope.

(** C48: when a text defines choices that start with themselves, there is one and only one outcome of
    the specification, and Parse accepts exactly when it takes the whole input, and returns its tree *)
Theorem C48_grown_partial : forall text defs s s' name input,
  let calls := flat_map textCalls defs in
  spells text defs -> Reads emptySyntax text REof s None -> textReady defs ->
  refersToDefs calls -> literalKeywords calls -> nokwOnSequences calls ->
  rootName calls = Some name -> ~ In runeError input -> Inits s s' None -> growthGrounded calls name ->
  exists r, MeansL calls input name 0 r /\ (forall r', MeansL calls input name 0 r' -> r' = r) /\
    forall s2 t toks, Parses s input REof s2 (Tree t toks) <-> s2 = s' /\ toks = input /\ r = Match (List.length input) [t].
Proof. exact spells_grown. Qed.
Print Assumptions C48_grown_partial.
(** C48: where the specification takes a beginning of the input, Parse returns the tree or an error *)
Theorem C48_grown_prefix_partial : forall text defs s s' name input,
  let calls := flat_map textCalls defs in
  spells text defs -> Reads emptySyntax text REof s None -> textReady defs ->
  refersToDefs calls -> literalKeywords calls -> nokwOnSequences calls ->
  rootName calls = Some name -> ~ In runeError input -> Inits s s' None ->
  forall t ns, MeansL calls input name 0 (Match t ns) ->
  ~ ParsePanics s input REof /\ (t < List.length input -> exists err, Parses s input REof s' (Failed err)).
Proof. exact spells_grown_prefix. Qed.
Print Assumptions C48_grown_prefix_partial.
(** C48: the nodes of the tree are nested and in order *)
Theorem C48_grown_nested_partial : forall text defs s s' name input,
  let calls := flat_map textCalls defs in
  spells text defs -> Reads emptySyntax text REof s None -> textReady defs ->
  refersToDefs calls -> literalKeywords calls -> nokwOnSequences calls ->
  rootName calls = Some name -> ~ In runeError input -> Inits s s' None -> growthGrounded calls name ->
  forall t toks, Parses s input REof s' (Tree t toks) -> wellNested t.
Proof. exact spells_grown_nested. Qed.
Print Assumptions C48_grown_nested_partial.

(** the hypotheses are met: sums and products, with parentheses and whitespace *)
Definition arithText : list rune := runesOf "space:ws = [ ];
num:nows = [0-9]+;
parens = [(] expr [)];
primary:alias = num | parens;
product = term [*] primary;
term:alias = product | primary;
sum = expr [+\-] term;
expr:alias = sum | term;
doc:root = expr".
Definition one (e : expr) : expr * (Z * Z) := (e, (0, 0)%Z).
Definition arithDefs : list textDef :=
  [ mkTextDef "space" CWhitespace (EClass false (runesOf " ") []);
    mkTextDef "num" CNoWhitespace (ESequence [(EClass false [] [(48, 57)%Z], (1, -1)%Z)]);
    mkTextDef "parens" CNone (ESequence [one (EClass false (runesOf "(") []); one (ESymbol "expr"); one (EClass false (runesOf ")") [])]);
    mkTextDef "primary" CAlias (EChoice [ESymbol "num"; ESymbol "parens"]);
    mkTextDef "product" CNone (ESequence [one (ESymbol "term"); one (EClass false (runesOf "*") []); one (ESymbol "primary")]);
    mkTextDef "term" CAlias (EChoice [ESymbol "product"; ESymbol "primary"]);
    mkTextDef "sum" CNone (ESequence [one (ESymbol "expr"); one (EClass false (runesOf "+-") []); one (ESymbol "term")]);
    mkTextDef "expr" CAlias (EChoice [ESymbol "sum"; ESymbol "term"]);
    mkTextDef "doc" CRoot (ESymbol "expr") ].
Example arith_spells : spells arithText arithDefs /\ Reads emptySyntax arithText REof (readText arithText) None.
Proof. split; [apply (spells_run _ _ 1000); vm_compute; reflexivity|apply read_run; vm_compute; reflexivity]. Qed.
Example arith_hypotheses : let calls := flat_map textCalls arithDefs in textReady arithDefs /\ refersToDefs calls /\ literalKeywords calls /\ nokwOnSequences calls /\
  rootName calls = Some "doc" /\ (exists s', Inits (readText arithText) s' None) /\ growthGrounded calls "doc".
Proof.
  intros calls. assert (R : refersToDefs calls) by (apply refersb_ok; vm_compute; reflexivity).
  assert (L : literalKeywords calls).
  { intros d Hd Hf. repeat (destruct Hd as [<-|Hd]; [vm_compute in Hf; discriminate|]). destruct Hd. }
  split; [|split; [exact R|split; [exact L|split; [|split; [|split]]]]].
  - intros _. split; [apply refers_all; exact R|]. split; [|intros d Hd; apply digits_noItoa; repeat (destruct Hd as [<-|Hd]; [vm_compute; reflexivity|]); destruct Hd].
    intros d Hd Hf. destruct (L d Hd Hf) as (n & ct & chars & ->). exact I.
  - intros n ct os Hd. repeat (destruct Hd as [Hd|Hd]; [inversion Hd; reflexivity|]). destruct Hd.
  - vm_compute. reflexivity.
  - eexists. exists 400. vm_compute. reflexivity.
  - apply (growCheck_ok calls _ 200 14). vm_compute. reflexivity.
Qed.
Example arith_means : MeansL (flat_map textCalls arithDefs) (runesOf "1 - (2*3) *4") "doc" 0 (Match 12
  [Node "doc" 0 12 [Node "sum" 0 12 [Node "num" 0 1 []; Node "product" 4 12 [Node "parens" 4 9 [Node "product" 5 8 [Node "num" 5 6 []; Node "num" 7 8 []]]; Node "num" 11 12 []]]]]).
Proof. split; [discriminate|exists 60; vm_compute; reflexivity]. Qed.
