(** Definitions that start with themselves, at any depth, with whitespace definitions: C43, C05, C09.
    The specification is GrowSpec.v. *)
From Verif Require Import Base Utf8 Parser Build Syntax Lang Grammar WsLang ApiSpec InitSpec WsApi ApiFacts RefSpec RefFuel RefCheck LeftSpec GrowSpec GrowCheck GrowApi GrowChain.
Local Open Scope string_scope.
Local Open Scope list_scope.
Local Open Scope nat_scope.

(** calls, products and sums, each of them left recursive, with parentheses and whitespace *)
Definition layers : list defcall :=
  [ DClass "space" CWhitespace false [32%Z] [];
    DClass "letter" CAlias false [] [(97, 122)%Z];
    DSequence "name" CNoWhitespace [mkItem "letter" 1 0];
    DCharSequence "plus" CAlias (runesOf "+");
    DCharSequence "minus" CAlias (runesOf "-");
    DCharSequence "star" CAlias (runesOf "*");
    DCharSequence "open" CAlias (runesOf "(");
    DCharSequence "close" CAlias (runesOf ")");
    DSequence "parens" CNone [mkItem "open" 0 0; mkItem "expr" 0 0; mkItem "close" 0 0];
    DSequence "call" CNone [mkItem "primary" 0 0; mkItem "open" 0 0; mkItem "expr" 0 1; mkItem "close" 0 0];
    DChoice "primary" CAlias ["call"; "parens"; "name"];
    DSequence "product" CNone [mkItem "term" 0 0; mkItem "star" 0 0; mkItem "primary" 0 0];
    DChoice "term" CAlias ["product"; "primary"];
    DSequence "sum" CNone [mkItem "expr" 0 0; mkItem "plus" 0 0; mkItem "term" 0 0];
    DSequence "difference" CNone [mkItem "expr" 0 0; mkItem "minus" 0 0; mkItem "term" 0 0];
    DChoice "expr" CAlias ["sum"; "difference"; "term"];
    DSequence "doc" CRoot [mkItem "expr" 1 1] ].
Definition layersSyntax : syntax := fst (defineAll emptySyntax layers).
Definition layersText : list rune := runesOf " a - b( c * ( d+ e)()) * f ".
Definition layersTree : node :=
  Node "doc" 0 27 [Node "difference" 1 26 [Node "name" 1 2 [];
    Node "product" 5 26 [
      Node "call" 5 22 [Node "name" 5 6 [];
        Node "product" 8 21 [Node "name" 8 9 [];
          Node "call" 12 21 [Node "parens" 12 19 [Node "sum" 14 18 [Node "name" 14 15 []; Node "name" 17 18 []]]]]];
      Node "name" 25 26 []]]].
Example layers_hypotheses : Defined layers layersSyntax /\ refersToDefs layers /\ literalKeywords layers /\ nokwOnSequences layers /\
  rootName layers = Some "doc" /\ (exists s', Inits layersSyntax s' None) /\ growthGrounded layers "doc".
Proof.
  split; [vm_compute; reflexivity|]. split; [intros d Hd; repeat (destruct Hd as [<-|Hd]; [vm_compute; intuition (subst; simpl; tauto)|]); destruct Hd|].
  split; [intros d Hd Hf; repeat (destruct Hd as [<-|Hd]; [vm_compute in Hf; eauto; discriminate|]); destruct Hd|].
  split; [intros n ct os Hd; repeat (destruct Hd as [Hd|Hd]; [inversion Hd; reflexivity|]); destruct Hd|].
  split; [vm_compute; reflexivity|]. split; [eexists; exists 400; vm_compute; reflexivity|].
  apply (growCheck_ok layers _ 200 14). vm_compute. reflexivity.
Qed.

(** C43: there is one and only one outcome of the specification, and Parse accepts exactly when it takes
    the whole input, and returns the tree of it *)
Theorem C43_grounded_partial : forall calls s s' name input,
  Defined calls s -> refersToDefs calls -> literalKeywords calls -> nokwOnSequences calls ->
  rootName calls = Some name -> ~ In runeError input -> growthGrounded calls name -> Inits s s' None ->
  exists r, MeansL calls input name 0 r /\ (forall r', MeansL calls input name 0 r' -> r' = r) /\
    forall s2 t toks, Parses s input REof s2 (Tree t toks) <-> s2 = s' /\ toks = input /\ r = Match (List.length input) [t].
Proof. exact grow_one_outcome. Qed.
(** whatever the definitions are, where the specification has an outcome it is the one of Parse *)
Theorem C43_outcome_partial : forall calls s s' name input,
  Defined calls s -> refersToDefs calls -> literalKeywords calls -> nokwOnSequences calls ->
  rootName calls = Some name -> ~ In runeError input ->
  forall r, Inits s s' None -> MeansL calls input name 0 r ->
  forall s2 t toks, Parses s input REof s2 (Tree t toks) <-> s2 = s' /\ toks = input /\ r = Match (List.length input) [t].
Proof. exact grow_outcome. Qed.
(** the accepted texts are those that the specification takes as a whole *)
Theorem C43_accepts_partial : forall calls s s' name input,
  Defined calls s -> refersToDefs calls -> literalKeywords calls -> nokwOnSequences calls ->
  rootName calls = Some name -> ~ In runeError input -> growthGrounded calls name -> Inits s s' None ->
  ((exists t, Parses s input REof s' (Tree t input)) <-> (exists ns, MeansL calls input name 0 (Match (List.length input) ns))).
Proof. exact grow_accepts. Qed.
(** where a choice that starts with itself matches, wherever it is used: a base, extensions of it, and
    nothing that could continue *)
Theorem C43_grown_partial : forall calls input n o label options t ns,
  graphOf calls (KDef n) = Some (GChoice label options) -> extensionsOf keyEqb (graphOf calls) (KDef n) options <> [] ->
  MeansL calls input n o (Match t ns) ->
  grownL keyEqb (graphOf calls) (keywordTexts calls) input label (extensionsOf keyEqb (graphOf calls) (KDef n) options) (basesOf keyEqb (graphOf calls) (KDef n) options) o t ns /\
  noMoreL keyEqb (graphOf calls) (keywordTexts calls) input (extensionsOf keyEqb (graphOf calls) (KDef n) options) t.
Proof. exact meansL_grown. Qed.
(** e = e op t | t: exactly t (op t)*, as long as it goes on *)
Theorem C43_one_extension_partial : forall calls input n o label options x,
  growthGrounded calls n -> graphOf calls (KDef n) = Some (GChoice label options) ->
  extensionsOf keyEqb (graphOf calls) (KDef n) options = [x] ->
  forall t ns, MeansL calls input n o (Match t ns) <->
    grownL keyEqb (graphOf calls) (keywordTexts calls) input label [x] (basesOf keyEqb (graphOf calls) (KDef n) options) o t ns /\
    noMoreL keyEqb (graphOf calls) (keywordTexts calls) input [x] t.
Proof. exact meansL_one. Qed.
Example C43_term : growthGrounded layers "term" /\ exists options, graphOf layers (KDef "term") = Some (GChoice None options) /\
  extensionsOf keyEqb (graphOf layers) (KDef "term") options = [KDef "product"] /\ basesOf keyEqb (graphOf layers) (KDef "term") options = [KDef "primary"] /\
  exists ns, MeansL layers (runesOf "a*b *c(d)+e") "term" 0 (Match 9 ns).
Proof.
  split; [apply (growCheck_ok layers _ 200 14); vm_compute; reflexivity|]. eexists. split; [vm_compute; reflexivity|]. split; [vm_compute; reflexivity|]. split; [vm_compute; reflexivity|].
  eexists. split; [|exists 60; vm_compute; reflexivity]. discriminate.
Qed.
(** C05: the nodes of the tree are nested and in order *)
Theorem C05_grounded_partial : forall calls s s' name input,
  Defined calls s -> refersToDefs calls -> literalKeywords calls -> nokwOnSequences calls ->
  rootName calls = Some name -> ~ In runeError input -> growthGrounded calls name ->
  forall t toks, Parses s input REof s' (Tree t toks) -> wellNested t.
Proof. exact grow_nested. Qed.
(** C09: where the specification takes a beginning of the input, Parse returns the tree or an error *)
Theorem C09_grounded_partial : forall calls s s' name input,
  Defined calls s -> refersToDefs calls -> literalKeywords calls -> nokwOnSequences calls ->
  rootName calls = Some name -> ~ In runeError input ->
  forall t ns, Inits s s' None -> MeansL calls input name 0 (Match t ns) ->
  ~ ParsePanics s input REof /\ (t < List.length input -> exists err, Parses s input REof s' (Failed err)).
Proof. exact grow_prefix. Qed.

Example C43_layers_means : MeansL layers layersText "doc" 0 (Match (List.length layersText) [layersTree]) /\ ~ In runeError layersText.
Proof.
  split; [split; [discriminate|exists 60; vm_compute; reflexivity]|]. intros H. repeat (destruct H as [H|H]; [discriminate|]). exact H.
Qed.
Example C43_layers_tree : exists s', Parses layersSyntax layersText REof s' (Tree layersTree layersText).
Proof. eexists. exists 600. vm_compute. reflexivity. Qed.
(** the beginning of a text *)
Example C09_layers_prefix : exists ns, MeansL layers (runesOf "a + b * )") "doc" 0 (Match 6 ns).
Proof. eexists. split; [|exists 60; vm_compute; reflexivity]. discriminate. Qed.
(** a text that cannot be taken *)
Example C43_layers_not : MeansL layers (runesOf "+ a") "doc" 0 NoMatch.
Proof. split; [discriminate|exists 60; vm_compute; reflexivity]. Qed.

(** C43 is false for a root definition with whitespace definitions: e = e op t | t rejects a+b, and
    the tree of the same text between spaces contains a node that ends behind its parent.  The
    reference to the root inside the definition takes the whitespace around the whole text with it. *)
Definition spaced : list defcall :=
  [ DClass "space" CWhitespace false [32%Z] []; DClass "t" CNone false [] [(97, 122)%Z]; DCharSequence "op" CAlias (runesOf "+");
    DSequence "sum" CNone [mkItem "e" 0 0; mkItem "op" 0 0; mkItem "t" 0 0]; DChoice "e" CRoot ["sum"; "t"] ].
Theorem C43_root_refuted : exists s s' err, Defined spaced s /\ Inits s s' None /\
  Parses s (runesOf "a+b") REof s' (Failed err) /\
  Parses s (runesOf " a + b ") REof s' (Tree
    (Node "e" 0 7 [Node "sum" 1 6 [Node "e" 1 7 [Node "t" 1 2 []]; Node "t" 5 6 []]]) (runesOf " a + b ")) /\
  ~ growthGrounded spaced "e".
Proof.
  exists (fst (defineAll emptySyntax spaced)). eexists _, _. split; [vm_compute; reflexivity|]. split; [exists 400; vm_compute; reflexivity|].
  split; [exists 600; vm_compute; reflexivity|]. split; [exists 600; vm_compute; reflexivity|].
  intros (_ & E & rank & HE & H).
  assert (R0 : reaches (graphOf spaced) (KDef "e") (KDef "e")) by apply re_start.
  assert (R1 : reaches (graphOf spaced) (KDef "e") (KBody "e")) by (eapply re_next; [exact R0|eapply rt_item; [vm_compute; reflexivity|simpl; eauto]]).
  assert (R2 : reaches (graphOf spaced) (KDef "e") (KDef "sum")) by (eapply re_next; [exact R1|eapply rt_option; [vm_compute; reflexivity|simpl; eauto]]).
  destruct (H _ R0) as [H0 _], (H _ R1) as [H1 _], (H _ R2) as [H2 _].
  assert (L0 : rank (KBody "e") < rank (KDef "e")).
  { apply H0; [|vm_compute; reflexivity|vm_compute; reflexivity]. eapply (sw_item _ _ _ _ _ _ [(KWs, (0, None))]); [vm_compute; reflexivity|]. intros y mn mx [Hy|[]]. inversion Hy; auto. }
  assert (L1 : rank (KDef "sum") < rank (KBody "e")).
  { apply H1; [|vm_compute; reflexivity|vm_compute; reflexivity]. eapply sw_option; [vm_compute; reflexivity|simpl; auto]. }
  assert (L2 : rank (KDef "e") < rank (KDef "sum")).
  { apply H2; [|vm_compute; reflexivity|vm_compute; reflexivity]. eapply (sw_item _ _ _ _ _ _ []); [vm_compute; reflexivity|]. intros y mn mx []. }
  exact (Nat.lt_irrefl _ (Nat.lt_trans _ _ _ L0 (Nat.lt_trans _ _ _ L2 L1))).
Qed.

Print Assumptions C43_root_refuted.
Print Assumptions C43_grounded_partial.
Print Assumptions C43_outcome_partial.
Print Assumptions C43_accepts_partial.
Print Assumptions C43_grown_partial.
Print Assumptions C43_one_extension_partial.
Print Assumptions C05_grounded_partial.
Print Assumptions C09_grounded_partial.
