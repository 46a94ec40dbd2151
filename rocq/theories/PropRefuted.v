(** Counterexamples: properties that the code does not have in general.  Each theorem names the
    definitions and the input; the model run is computed by the kernel. *)
From Verif Require Import TextSpec Base Utf8 Parser Build Syntax Lang Sound Grammar WsLang ApiSpec Define.

Definition lit (n t : string) : defcall := DCharSequence n CAlias (runesOf t).
Definition one (n : string) : seqItem := mkItem n 1 1.
Definition defined (calls : list defcall) : syntax := fst (defineAll emptySyntax calls).
Definition outcome (s : syntax) (input : list rune) (e : rend) : option parseOut :=
  match Parse 300 s input e with Ok (_, o) => Some o | _ => None end.
Lemma run_parse s input e o : outcome s input e = Some o -> exists s', Parses s input e s' o.
Proof.
  unfold outcome. destruct (Parse 300 s input e) as [[s' o']|w|] eqn:E; try discriminate. intros H; inversion H; subst. exists s', 300. auto.
Qed.
Lemma run_panic s input e w : match Parse 300 s input e with Panic w' => Some w' | _ => None end = Some w -> ParsePanics s input e.
Proof. destruct (Parse 300 s input e) as [[s' o']|w'|] eqn:E; try discriminate. intros _. exists 300, w'. auto. Qed.
Lemma run_init s : match Init 300 s with Ok (_, None) => true | _ => false end = true -> exists s', Inits s s' None.
Proof. destruct (Init 300 s) as [[s' [e|]]|w'|] eqn:E; try discriminate. intros _. exists s', 300. auto. Qed.

(** C05: with left recursion, a child can end behind its parent.  A = X y | a, X = A x? *)
Definition overlapping : list defcall :=
  [ lit "x" "x"; lit "y" "y"; lit "a" "a";
    DSequence "X" CNone [one "A"; mkItem "x" 0 1];
    DSequence "Xy" CNone [one "X"; one "y"];
    DChoice "A" CRoot ["Xy"; "a"] ]%string.
Theorem C05_refuted : exists calls s s' input t toks,
  Defined calls s /\ wsReady calls /\ sensibleRanges calls /\ Parses s input REof s' (Tree t toks) /\ ~ wellNested t.
Proof.
  exists overlapping, (defined overlapping).
  assert (H : exists s', Parses (defined overlapping) (runesOf "axyxy") REof s'
    (Tree (Node "A" 0 5 [Node "Xy" 0 5 [Node "X" 0 5 [Node "A" 0 3 [Node "Xy" 0 3 [Node "X" 0 4 [Node "A" 0 1 []]]]]]]) (runesOf "axyxy"))).
  { apply run_parse. vm_compute. reflexivity. }
  destruct H as [s' H]. exists s'. do 3 eexists. split; [vm_compute; reflexivity|]. split; [|split; [|split; [exact H|]]].
  - intros (d & Hd & Hf). repeat (destruct Hd as [<-|Hd]; [vm_compute in Hf; discriminate|]). destruct Hd.
  - intros n ct items it Hd Hi. repeat (destruct Hd as [Hd|Hd]; [inversion Hd; subst; simpl in Hi; intuition (subst; simpl in *; lia)|]). destruct Hd.
  - intros Hn. specialize (Hn (Node "Xy" 0 3 [Node "X" 0 4 [Node "A" 0 1 []]])). simpl in Hn. 
    assert (X : inTree (Node "Xy" 0 3 [Node "X" 0 4 [Node "A" 0 1 []]]) (Node "A" 0 5 [Node "Xy" 0 5 [Node "X" 0 5 [Node "A" 0 3 [Node "Xy" 0 3 [Node "X" 0 4 [Node "A" 0 1 []]]]]]])).
    { repeat (apply inTree_here || (eapply inTree_below; [left; reflexivity|])). }
    specialize (Hn X). lia.
Qed.

(** C09: Parse panics: while reporting an error at offset -1, *)
Definition panics (calls : list defcall) (input : list rune) : Prop :=
  Defined calls (defined calls) /\ (exists s', Inits (defined calls) s' None) /\ ParsePanics (defined calls) input REof.
Lemma panics_intro calls input w :
  snd (defineAll emptySyntax calls) = None ->
  match Init 300 (defined calls) with Ok (_, None) => true | _ => false end = true ->
  match Parse 300 (defined calls) input REof with Panic w' => Some w' | _ => None end = Some w -> panics calls input.
Proof.
  intros H1 H2 H3. split; [|split; [apply run_init; auto|eapply run_panic; eauto]].
  unfold Defined, defined. rewrite <- H1. destruct (defineAll emptySyntax calls); auto.
Qed.
(** for a definition that refers to itself only, on every input; *)
Theorem C09_self_reference_refuted : panics [DSequence "a" CNone [one "a"]]%string (runesOf "a").
Proof. eapply panics_intro; vm_compute; reflexivity. Qed.
(** when the whole input is a keyword; *)
Theorem C09_keyword_refuted : panics
  [ DCharSequence "k" CKeyword (runesOf "foo"); DClass "l" CAlias false [] [(97, 122)%Z];
    DSequence "s" (N.lor CNoKeyword CRoot) [mkItem "l" 3 3] ]%string (runesOf "foo").
Proof. eapply panics_intro; vm_compute; reflexivity. Qed.
(** without keywords or recursion; *)
Theorem C09_choice_refuted : panics
  [ lit "p" "p"; lit "q" "q"; lit "a" "a"; lit "d" "d"; DChoice "x" CNone ["p"; "q"];
    DSequence "ax" CNone [one "a"; one "x"]; DChoice "g" CNone ["a"; "ax"];
    DSequence "s" CNone [one "x"; one "d"]; DSequence "root" CRoot [one "g"; one "s"] ]%string (runesOf "a").
Proof. eapply panics_intro; vm_compute; reflexivity. Qed.
(** while building the tree of a left recursive definition *)
Theorem C09_building_refuted : panics
  [ lit "a" "a"; lit "y" "y"; lit "w" "w"; lit "z" "z"; DSequence "P0" CNone [one "g"; one "y"];
    DSequence "u" CNone [one "g"; one "w"]; DSequence "t" CNone [one "P0"; one "z"];
    DChoice "h" CNone ["P0"; "a"]; DChoice "g" CRoot ["h"; "u"; "t"] ]%string (runesOf "aywy").
Proof. eapply panics_intro; vm_compute; reflexivity. Qed.

(** C10: an invalid first byte makes Parse panic; a correct U+FFFD is reported as invalid *)
Theorem C10_invalid_refuted : panics [lit "x" "x"; lit "y" "y"; DChoice "a" CNone ["x"; "y"]]%string [runeError].
Proof. eapply panics_intro; vm_compute; reflexivity. Qed.
Theorem C10_valid_refuted : exists calls s s' input,
  Defined calls s /\ decodeUtf8 (encodeUtf8 input) = input /\
  Parses s input REof s' (Failed ErrInvalidUnicodeCharacter).
Proof.
  exists [DAnyChar "a" CNone]%string, (defined [DAnyChar "a" CNone]%string).
  assert (H : exists s', Parses (defined [DAnyChar "a" CNone]%string) [runeError] REof s' (Failed ErrInvalidUnicodeCharacter)) by (apply run_parse; vm_compute; reflexivity).
  destruct H as [s' H]. exists s', [runeError]. split; [vm_compute; reflexivity|]. split; [vm_compute; reflexivity|exact H].
Qed.

(** C15: a choice with nokw matches a keyword when it is tried again at the same place *)
Definition nokwChoice : list defcall :=
  [ DCharSequence "k" CKeyword (runesOf "foo"); DClass "l" CAlias false [] [(97, 122)%Z];
    DSequence "w" CNone [mkItem "l" 1 0]; DChoice "id" CNoKeyword ["w"; "k"]; lit "c" "!";
    DSequence "s1" CNone [one "id"; one "c"]; DSequence "s2" CNone [one "id"];
    DChoice "r" CRoot ["s1"; "s2"] ]%string.
Theorem C15_refuted : exists calls s s' input t toks n ct options,
  Defined calls s /\ literalKeywords calls /\ Parses s input REof s' (Tree t toks) /\ inTree n t /\
  In (DChoice (nName n) ct options) calls /\ hasFlag ct CNoKeyword = true /\ In (nodeRunes toks n) (keywordTexts calls).
Proof.
  exists nokwChoice, (defined nokwChoice).
  assert (H : exists s', Parses (defined nokwChoice) (runesOf "foo") REof s'
    (Tree (Node "r" 0 3 [Node "s2" 0 3 [Node "id" 0 3 [Node "w" 0 3 []]]]) (runesOf "foo"))) by (apply run_parse; vm_compute; reflexivity).
  destruct H as [s' H]. exists s', (runesOf "foo"). do 2 eexists. exists (Node "id" 0 3 [Node "w" 0 3 []])%string, CNoKeyword, ["w"; "k"]%string.
  split; [vm_compute; reflexivity|]. split; [|split; [exact H|]].
  - intros d Hd Hf. repeat (destruct Hd as [<-|Hd]; [vm_compute in Hf; eauto; discriminate|]). destruct Hd.
  - split; [repeat (apply inTree_here || (eapply inTree_below; [left; reflexivity|]))|]. split; [simpl; auto 10|]. split; [reflexivity|]. simpl. auto.
Qed.

(** C02 and C25 without sensibleRanges: {5,3} accepts three items *)
Definition badRange : list defcall := [ lit "a" "a"; DSequence "r" CRoot [mkItem "a" 5 3] ]%string.
Theorem C25_inverted_range_refuted : exists s', Parses (defined badRange) (runesOf "aaa") REof s' (Tree (Node "r" 0 3 []) (runesOf "aaa")).
Proof. apply run_parse. vm_compute. reflexivity. Qed.

(** C17: two parsers of one syntax with the same identity: a keyword that is a sequence keeps its
    old identity when whitespace is applied *)
Definition staleKeyword : list defcall :=
  [ DClass "sp" (N.lor CWhitespace CAlias) false (runesOf " ") []; lit "a" "a"; lit "b" "b";
    DSequence "k" CKeyword [one "a"; one "b"]; DSequence "m" CNone [one "a"]; DSequence "n" CNone [one "b"];
    DSequence "r" CRoot [one "m"; one "n"] ]%string.
Theorem C17_keyword_refuted : exists calls s s' a b oa ob,
  Defined calls s /\ Inits s s' None /\ takesPart s' a /\ takesPart s' b /\
  nth_error (parsers s') a = Some oa /\ nth_error (parsers s') b = Some ob /\ nonChar oa /\ nonChar ob /\
  nodeName oa <> nodeName ob /\ nodeID oa = nodeID ob.
Proof.
  exists staleKeyword, (defined staleKeyword).
  pose (s' := match Init 300 (defined staleKeyword) with Ok (s, _) => s | _ => emptySyntax end).
  pose (P := parsers s').
  assert (EP : P = ltac:(let x := eval vm_compute in (parsers (match Init 300 (defined staleKeyword) with Ok (s, _) => s | _ => emptySyntax end)) in exact x)) by (vm_compute; reflexivity).
  assert (Er : sRoot s' = Some 15) by (vm_compute; reflexivity).
  assert (Ek : sKeywords s' = [6]) by (vm_compute; reflexivity).
  assert (Hi : Inits (defined staleKeyword) s' None) by (exists 300; vm_compute; reflexivity).
  exists s', 6, 12. fold P. do 2 eexists. split; [vm_compute; reflexivity|]. split; [exact Hi|].
  split; [apply tp_keyword; rewrite Ek; simpl; auto|]. split.
  { eapply tp_kid with (a := 14); [eapply tp_kid with (a := 15); [apply tp_root; exact Er| |]| |]; fold P; rewrite ?EP; simpl; try reflexivity; simpl; auto. }
  split; [rewrite EP; reflexivity|]. split; [rewrite EP; reflexivity|]. repeat split. discriminate.
Qed.

(** C21: a refused duplicate definition becomes the root *)
Definition twoDefs : list defcall := [ lit "x" "x"; lit "y" "y"; DSequence "a" CNone [one "x"]; DSequence "b" CNone [one "y"] ]%string.
Definition dupDef : defcall := DSequence "a" CNone [one "y"; one "y"]%string.
Theorem C21_refuted : exists calls s d s1 err input s2 t toks s3 out,
  Defined calls s /\ defineCall s d = (s1, Some err) /\
  Parses s input REof s2 (Tree t toks) /\ Parses s1 input REof s3 out /\ out <> Tree t toks.
Proof.
  exists twoDefs, (defined twoDefs), dupDef, (fst (defineCall (defined twoDefs) dupDef)). do 2 eexists.
  assert (H : exists s', Parses (defined twoDefs) (runesOf "y") REof s' (Tree (Node "b" 0 1 []) (runesOf "y"))) by (apply run_parse; vm_compute; reflexivity).
  assert (H' : exists s', Parses (fst (defineCall (defined twoDefs) dupDef)) (runesOf "y") REof s' (Failed (ErrParse 1 0 1 "y"))) by (apply run_parse; vm_compute; reflexivity).
  destruct H as [s2 H], H' as [s3 H']. exists s2. do 2 eexists. exists s3. eexists.
  split; [vm_compute; reflexivity|]. split; [vm_compute; reflexivity|]. split; [exact H|]. split; [exact H'|]. discriminate.
Qed.

(** C45: after a refused duplicate definition, Init of a syntax with whitespace panics *)
Definition wsDefs : list defcall :=
  [ DClass "sp" (N.lor CWhitespace CAlias) false (runesOf " ") []; lit "a" "a"; DSequence "r" CNone [one "a"] ]%string.
Theorem C45_refuted : exists calls s d s1 err fuel why,
  Defined calls s /\ defineCall s d = (s1, Some err) /\ Init fuel s1 = Panic why.
Proof.
  exists wsDefs, (defined wsDefs), (DSequence "r" CNone [one "a"; one "a"])%string, (fst (defineCall (defined wsDefs) (DSequence "r" CNone [one "a"; one "a"])))%string.
  eexists. exists 100. eexists. split; [vm_compute; reflexivity|]. split; vm_compute; reflexivity.
Qed.

(** C25: in the syntax language, {0} means exactly one *)
Definition readText (t : string) : syntax := match ReadSyntax 300 emptySyntax (runesOf t) REof with Ok (s, None) => s | _ => emptySyntax end.
Lemma run_read t : match ReadSyntax 300 emptySyntax (runesOf t) REof with Ok (_, None) => true | _ => false end = true ->
  ReadSyntax 300 emptySyntax (runesOf t) REof = Ok (readText t, None).
Proof. unfold readText. destruct (ReadSyntax 300 emptySyntax (runesOf t) REof) as [[s [e|]]| |]; try discriminate; auto. Qed.
Theorem C25_zero_refuted : exists s,
  ReadSyntax 300 emptySyntax (runesOf "a = ""x""{0}") REof = Ok (s, None) /\
  (exists s', Parses s (runesOf "x") REof s' (Tree (Node "a" 0 1 []) (runesOf "x"))) /\
  (exists s', Parses s [] REof s' (Failed (ErrParse 0 0 0 "a"))).
Proof.
  exists (readText "a = ""x""{0}"). split; [apply run_read; vm_compute; reflexivity|]. split; apply run_parse; vm_compute; reflexivity.
Qed.

Print Assumptions C05_refuted.
Print Assumptions C09_self_reference_refuted.
Print Assumptions C09_keyword_refuted.
Print Assumptions C09_choice_refuted.
Print Assumptions C09_building_refuted.
Print Assumptions C10_invalid_refuted.
Print Assumptions C10_valid_refuted.
Print Assumptions C15_refuted.
Print Assumptions C25_inverted_range_refuted.
Print Assumptions C17_keyword_refuted.
Print Assumptions C21_refuted.
Print Assumptions C45_refuted.
Print Assumptions C25_zero_refuted.
