(** C62: the texts of the language are accepted when one character decides. *)
From Verif Require Import Base Utf8 Parser Build Syntax Lang Grammar WsLang ApiSpec RefSpec RefCheck PropRef PropRefuted PropDefine PropOrder ReadSpec ReadLang ReadMeans PredictSpec PredictApi PredictCheck PredictWs PredictWsCheck.

(** C62: without whitespace definitions, left recursion and the character U+FFFD, and when one
    character ahead decides whether an item of a sequence is repeated and which option of a choice
    applies, the accepted inputs are exactly the texts of the root definition.  Without the last
    condition, and with all the others, this is false: see [C62_language_refuted]. *)
Theorem C62_language_partial : forall calls s s' root input,
  Defined calls s -> noWhitespaceDefs calls -> sensibleRanges calls -> refersToDefs calls -> literalKeywords calls -> nokwOnSequences calls ->
  noLeftRecursion calls -> predictive calls root -> rootName calls = Some root -> Inits s s' None -> ~ In runeError input ->
  ((exists t, Parses s input REof s' (Tree t input)) <-> texts calls root root input).
Proof. exact predictive_language. Qed.

(** the condition can be checked by a computation *)
Theorem C62_check : forall calls rounds root, predictCheck calls rounds root = true -> predictive calls root.
Proof. exact predictCheck_ok. Qed.

(** C62 with whitespace definitions: a piece of whitespace is a single character, and the definitions
    are in two levels.  Within some of them, the words, the next character decides; between the words
    the next character after whitespace decides ([predictiveSpaced]). *)
Theorem C62_spaced_partial : forall calls s s' root input,
  Defined calls s -> sensibleRanges calls -> refersToDefs calls -> literalKeywords calls -> nokwOnSequences calls ->
  noLeftRecursion calls -> spacing calls = true -> predictiveSpaced calls root -> rootName calls = Some root -> Inits s s' None -> ~ In runeError input ->
  ((exists t, Parses s input REof s' (Tree t input)) <-> texts calls root root input).
Proof. exact spaced_language. Qed.
Theorem C62_spaced_check : forall calls words rounds root, spacedCheck calls words rounds root = true -> predictiveSpaced calls root.
Proof. exact spacedCheck_ok. Qed.
(** C62 for a syntax that is read from a text: the language is the one that the text spells *)
Theorem C62_text_partial : forall text defs s s' root input,
  let calls := flat_map textCalls defs in
  spells text defs -> Reads emptySyntax text REof s None -> textReady defs ->
  sensibleRanges calls -> refersToDefs calls -> literalKeywords calls -> nokwOnSequences calls -> noLeftRecursion calls ->
  (noWhitespaceDefs calls /\ predictive calls root) \/ (spacing calls = true /\ predictiveSpaced calls root) ->
  rootName calls = Some root -> Inits s s' None -> ~ In runeError input ->
  ((exists t, Parses s input REof s' (Tree t input)) <-> texts calls root root input).
Proof. exact spells_language. Qed.

Definition rangesCheck (calls : list defcall) : bool :=
  forallb (fun d => match d with DSequence _ _ items => forallb (fun it => (negb (Z.ltb 0 (siMax it))) || Z.leb (siMin it) (siMax it))%bool items | _ => true end) calls.
Lemma ranges_checked calls : rangesCheck calls = true -> sensibleRanges calls.
Proof.
  unfold rangesCheck. rewrite forallb_forall. intros H n ct items it Hd Hit L. specialize (H _ Hd). simpl in H. rewrite forallb_forall in H. specialize (H _ Hit).
  destruct (Z.ltb_spec 0 (siMax it)); [|lia]. simpl in H. lia.
Qed.
(** nested lists of numbers and names *)
Definition lists : list defcall :=
  [ DClass "digit" CAlias false [] [(48, 57)%Z];
    DClass "letter" CAlias false (runesOf "_") [(97, 122)%Z];
    DCharSequence "nil" CKeyword (runesOf "nil");
    DSequence "number" CNone [mkItem "digit" 1 0];
    DSequence "name" CNoKeyword [one "letter"; mkItem "alnum" 0 (-1)];
    DChoice "alnum" CAlias ["letter"; "digit"];
    lit "open" "("; lit "close" ")"; lit "comma" ",";
    DSequence "more" CAlias [one "comma"; one "value"];
    DSequence "values" CAlias [one "value"; mkItem "more" 0 (-1)];
    DSequence "list" CRoot [one "open"; mkItem "values" 0 1; one "close"];
    DChoice "value" CAlias ["number"; "name"; "list"] ]%string.
Definition listsText : list rune := runesOf "(1,(),(a2,(33,b_)))".
Example C62_example : Defined lists (defined lists) /\ noWhitespaceDefs lists /\ sensibleRanges lists /\ refersToDefs lists /\ literalKeywords lists /\ nokwOnSequences lists /\
  noLeftRecursion lists /\ predictive lists "list" /\ rootName lists = Some "list"%string /\
  (exists s' t, Inits (defined lists) s' None /\ Parses (defined lists) listsText REof s' (Tree t listsText)) /\ texts lists "list" "list" listsText.
Proof.
  assert (H1 : Defined lists (defined lists)) by (vm_compute; reflexivity).
  assert (H2 : noWhitespaceDefs lists) by (intros d Hd; repeat (destruct Hd as [<-|Hd]; [reflexivity|]); destruct Hd).
  assert (H3 : sensibleRanges lists) by (apply ranges_checked; vm_compute; reflexivity).
  assert (H4 : refersToDefs lists) by (intros d Hd; repeat (destruct Hd as [<-|Hd]; [vm_compute; intuition (subst; simpl; tauto)|]); destruct Hd).
  assert (H5 : literalKeywords lists) by (intros d Hd Hf; repeat (destruct Hd as [<-|Hd]; [vm_compute in Hf; eauto; discriminate|]); destruct Hd).
  assert (H6 : nokwOnSequences lists) by (intros n ct os Hd; repeat (destruct Hd as [Hd|Hd]; [inversion Hd; reflexivity|]); destruct Hd).
  assert (H7 : noLeftRecursion lists) by (apply (leftFree_ok lists 12); vm_compute; reflexivity).
  assert (H8 : predictive lists "list") by (apply (C62_check lists 14); vm_compute; reflexivity).
  assert (H9 : rootName lists = Some "list"%string) by reflexivity.
  assert (H : exists s' t, Parses (defined lists) listsText REof s' (Tree t listsText)).
  { destruct (outcome (defined lists) listsText REof) as [[t0 l0|e0]|] eqn:E; [|vm_compute in E; discriminate|vm_compute in E; discriminate].
    assert (E' : l0 = listsText) by (vm_compute in E; injection E as _ <-; vm_compute; reflexivity). subst l0. destruct (run_parse _ _ _ _ E) as [s1 H]. eauto. }
  destruct H as (s1 & t & H). pose proof (Parses_Inits _ _ _ _ _ _ H) as Hi.
  split; auto. split; auto. split; auto. split; auto. split; auto. split; auto. split; auto. split; auto. split; auto. split; [eauto|].
  apply (C62_language_partial lists (defined lists) s1 "list" listsText); auto; [|eauto].
  vm_compute. intros X. repeat (destruct X as [X|X]; [discriminate|]). destruct X.
Qed.

(** the same with blanks between the words *)
Definition spacedLists : list defcall := DClass "blank" CWhitespace false (runesOf " ") [(9, 10)%Z] ::
  map (fun d => match d with DSequence n ct items => if existsb (String.eqb n) ["number"; "name"]%string then DSequence n (N.lor ct CNoWhitespace) items else d | _ => d end) lists.
Definition spacedWords : list string := ["number"; "name"; "nil"; "open"; "close"; "comma"]%string.
Definition spacedText : list rune := runesOf " (1, ( ) ,(a2 , (33,b_) ) ) ".
Example C62_spaced_example : Defined spacedLists (defined spacedLists) /\ sensibleRanges spacedLists /\ refersToDefs spacedLists /\ literalKeywords spacedLists /\ nokwOnSequences spacedLists /\
  noLeftRecursion spacedLists /\ spacing spacedLists = true /\ predictiveSpaced spacedLists "list" /\ rootName spacedLists = Some "list"%string /\
  (exists s' t, Inits (defined spacedLists) s' None /\ Parses (defined spacedLists) spacedText REof s' (Tree t spacedText)) /\ texts spacedLists "list" "list" spacedText.
Proof.
  assert (H1 : Defined spacedLists (defined spacedLists)) by (vm_compute; reflexivity).
  assert (H3 : sensibleRanges spacedLists) by (apply ranges_checked; vm_compute; reflexivity).
  assert (H4 : refersToDefs spacedLists) by (intros d Hd; repeat (destruct Hd as [<-|Hd]; [vm_compute; intuition (subst; simpl; tauto)|]); destruct Hd).
  assert (H5 : literalKeywords spacedLists) by (intros d Hd Hf; repeat (destruct Hd as [<-|Hd]; [vm_compute in Hf; eauto; discriminate|]); destruct Hd).
  assert (H6 : nokwOnSequences spacedLists) by (intros n ct os Hd; repeat (destruct Hd as [Hd|Hd]; [inversion Hd; reflexivity|]); destruct Hd).
  assert (H7 : noLeftRecursion spacedLists) by (apply (leftFree_ok spacedLists 14); vm_compute; reflexivity).
  assert (H8 : predictiveSpaced spacedLists "list") by (apply (C62_spaced_check spacedLists spacedWords 14); vm_compute; reflexivity).
  assert (H9 : rootName spacedLists = Some "list"%string) by reflexivity.
  assert (H : exists s' t, Parses (defined spacedLists) spacedText REof s' (Tree t spacedText)).
  { destruct (outcome (defined spacedLists) spacedText REof) as [[t0 l0|e0]|] eqn:E; [|vm_compute in E; discriminate|vm_compute in E; discriminate].
    assert (E' : l0 = spacedText) by (vm_compute in E; injection E as _ <-; vm_compute; reflexivity). subst l0. destruct (run_parse _ _ _ _ E) as [s1 H]. eauto. }
  destruct H as (s1 & t & H). pose proof (Parses_Inits _ _ _ _ _ _ H) as Hi.
  split; auto. split; auto. split; auto. split; auto. split; auto. split; auto. split; [reflexivity|]. split; auto. split; auto. split; [eauto|].
  apply (C62_spaced_partial spacedLists (defined spacedLists) s1 "list" spacedText); auto; [|eauto].
  vm_compute. intros X. repeat (destruct X as [X|X]; [discriminate|]). destruct X.
Qed.

(** greedy: a sequence does not give back what an item has taken *)
Definition greedy : list defcall := [ lit "a" "a"; DSequence "doc" CRoot [mkItem "a" 0 (-1); one "a"] ]%string.
(** eager: a choice does not give back the longest option *)
Definition eager : list defcall :=
  [ lit "a" "a"; lit "ab" "ab"; lit "bc" "bc"; DChoice "start" CAlias ["a"; "ab"]; DSequence "doc" CRoot [one "start"; one "bc"] ]%string.
Lemma rejected calls input : match outcome (defined calls) input REof with Some (Failed _) => True | _ => False end -> exists s' err, Parses (defined calls) input REof s' (Failed err).
Proof. destruct (outcome (defined calls) input REof) as [[t0 l0|e0]|] eqn:E; intros []. destruct (run_parse _ _ _ _ E) as [s1 H]. eauto. Qed.
Theorem C62_language_refuted :
  (exists s' err, Defined greedy (defined greedy) /\ noWhitespaceDefs greedy /\ sensibleRanges greedy /\ refersToDefs greedy /\ literalKeywords greedy /\ nokwOnSequences greedy /\ noLeftRecursion greedy /\
    texts greedy "doc" "doc" (runesOf "a") /\ Parses (defined greedy) (runesOf "a") REof s' (Failed err)) /\
  (exists s' err, Defined eager (defined eager) /\ noWhitespaceDefs eager /\ sensibleRanges eager /\ refersToDefs eager /\ literalKeywords eager /\ nokwOnSequences eager /\ noLeftRecursion eager /\
    texts eager "doc" "doc" (runesOf "abc") /\ Parses (defined eager) (runesOf "abc") REof s' (Failed err)).
Proof.
  assert (Hlit : forall calls n chars, grammarOf calls n = Some (RSeq (N.lor CAlias CNoWhitespace) (map (fun i => Grammar.once (childName n i)) (seq 0 (List.length chars)))) ->
    (forall i c, nth_error chars i = Some c -> grammarOf calls (childName n i) = Some (RChar false [c] [])) -> n <> "doc"%string -> (forall i, childName n i <> "doc"%string) -> texts calls "doc" n chars).
  { intros calls n chars HR Hc Hn Hn'. apply wgen_def; auto. eapply wbody_compact; [exact HR|reflexivity|discriminate|].
    assert (X : forall l k, (forall i c, nth_error l i = Some c -> grammarOf calls (childName n (k + i)) = Some (RChar false [c] [])) -> witems (grammarOf calls) (keywordTexts calls) (whitespaceNames calls) "doc" (map (fun i => Grammar.once (childName n i)) (seq k (List.length l))) l).
    { induction l as [|c l IH]; intros k Hk; [constructor|]. simpl. change (c :: l) with ([c] ++ l). apply (witems_cons _ _ _ _ _ _ 1).
      - right. simpl. lia.
      - change [c] with ([c] ++ []). apply wrep_S; [|constructor]. apply wgen_def; [apply Hn'|]. eapply wbody_char; [specialize (Hk 0 c eq_refl); rewrite Nat.add_0_r in Hk; exact Hk|]. left. left. auto.
      - apply IH. intros i c' Hi. replace (S k + i) with (k + S i) by lia. apply Hk. auto. }
    apply (X chars 0). exact Hc. }
  split.
  - destruct (rejected greedy (runesOf "a")) as (s' & err & H); [vm_compute; auto|]. exists s', err. split; [vm_compute; reflexivity|].
    split; [intros d Hd; repeat (destruct Hd as [<-|Hd]; [reflexivity|]); destruct Hd|].
    split; [apply ranges_checked; vm_compute; reflexivity|].
    split; [intros d Hd; repeat (destruct Hd as [<-|Hd]; [vm_compute; intuition (subst; simpl; tauto)|]); destruct Hd|].
    split; [intros d Hd Hf; repeat (destruct Hd as [<-|Hd]; [vm_compute in Hf; eauto; discriminate|]); destruct Hd|].
    split; [intros n ct os Hd; repeat (destruct Hd as [Hd|Hd]; [discriminate|]); destruct Hd|].
    split; [apply (leftFree_ok greedy 6); vm_compute; reflexivity|]. split; [|exact H].
    change (runesOf "a") with ([] ++ runesOf "a" ++ []). apply wgen_root; [constructor| |constructor].
    eapply wbody_spaced; [reflexivity|reflexivity|discriminate|]. apply wspaced_none; [right; simpl; lia|]. change (runesOf "a") with ([] ++ runesOf "a" ++ [] ++ []).
    apply (wspaced_next _ _ _ _ _ _ 0); [right; simpl; lia|constructor| |constructor|constructor].
    apply Hlit; [reflexivity| |discriminate|intros i X; vm_compute in X; discriminate]. intros i c Hi. destruct i as [|i]; [injection Hi as <-; vm_compute; reflexivity|destruct i; discriminate].
  - destruct (rejected eager (runesOf "abc")) as (s' & err & H); [vm_compute; auto|]. exists s', err. split; [vm_compute; reflexivity|].
    split; [intros d Hd; repeat (destruct Hd as [<-|Hd]; [reflexivity|]); destruct Hd|].
    split; [apply ranges_checked; vm_compute; reflexivity|].
    split; [intros d Hd; repeat (destruct Hd as [<-|Hd]; [vm_compute; intuition (subst; simpl; tauto)|]); destruct Hd|].
    split; [intros d Hd Hf; repeat (destruct Hd as [<-|Hd]; [vm_compute in Hf; eauto; discriminate|]); destruct Hd|].
    split; [intros n ct os Hd; repeat (destruct Hd as [Hd|Hd]; [try discriminate; inversion Hd; reflexivity|]); destruct Hd|].
    split; [apply (leftFree_ok eager 6); vm_compute; reflexivity|]. split; [|exact H].
    change (runesOf "abc") with ([] ++ runesOf "abc" ++ []). apply wgen_root; [constructor| |constructor].
    eapply wbody_spaced; [reflexivity|reflexivity|discriminate|]. change (runesOf "abc") with (runesOf "a" ++ [] ++ ([] ++ runesOf "bc" ++ [] ++ [])).
    apply (wspaced_first _ _ _ _ _ _ 0); [right; simpl; lia| |constructor|].
    + apply wgen_def; [discriminate|]. eapply (wbody_choice _ _ _ _ _ _ _ "a"%string); [reflexivity|left; reflexivity|].
      apply Hlit; [reflexivity| |discriminate|intros i X; vm_compute in X; discriminate]. intros i c Hi. destruct i as [|i]; [injection Hi as <-; vm_compute; reflexivity|destruct i; discriminate].
    + apply (wspaced_next _ _ _ _ _ _ 0); [right; simpl; lia|constructor| |constructor|constructor].
      apply Hlit; [reflexivity| |discriminate|intros i X; vm_compute in X; discriminate]. intros i c Hi. destruct i as [|[|i]]; [injection Hi as <-; vm_compute; reflexivity|injection Hi as <-; vm_compute; reflexivity|destruct i; discriminate].
Qed.

Print Assumptions C62_language_partial.
Print Assumptions C62_check.
Print Assumptions C62_spaced_partial.
Print Assumptions C62_spaced_check.
Print Assumptions C62_text_partial.
Print Assumptions C62_language_refuted.
