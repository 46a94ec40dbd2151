(** Readers that fail: C09 and C47. *)
From Verif Require Import Base Utf8 Parser Build Syntax Define Grammar WsLang ApiSpec WsApi ApiFacts RefSpec RefApi RefCheck GrowSpec GrowApi ReadFacts ReadSpec SelfLang ReadLang ReadMeans
  ReaderSafe PropRefuted PropRead PropRef PropReadGrow.
Local Open Scope string_scope.
Local Open Scope list_scope.
Local Open Scope nat_scope.

(** C09: an error of the reader is no reason to panic.  Where Parse panics with a reader that fails at
    the end of the input, it panics on every continuation of the input, with every reader.  The input
    up to the failure has no invalid characters. *)
Theorem C09_reader_partial : forall calls s input k,
  Defined calls s -> refersToDefs calls -> literalKeywords calls -> ~ In runeError input ->
  ParsePanics s input (RFail k) -> forall more e', ParsePanics s (input ++ more) e'.
Proof. exact reader_panic. Qed.
Print Assumptions C09_reader_partial.
(** the same for a syntax that is read from a text *)
Theorem C09_text_reader_partial : forall text defs s input k,
  spells text defs -> ReadLang.Reads emptySyntax text REof s None -> textReady defs -> ~ In runeError input ->
  ParsePanics s input (RFail k) -> forall more e', ParsePanics s (input ++ more) e'.
Proof. exact text_reader_panic. Qed.
Print Assumptions C09_text_reader_partial.
(** C09 for every reader: Parse does not panic on inputs of which the root definition takes a beginning *)
Theorem C09_every_reader_partial : forall calls s s' name input t ns e,
  Defined calls s -> refersToDefs calls -> literalKeywords calls -> nokwOnSequences calls ->
  rootName calls = Some name -> Inits s s' None -> ~ In runeError input ->
  MeansL calls input name 0 (Match t ns) -> ~ ParsePanics s input e.
Proof. exact reader_safe. Qed.
Print Assumptions C09_every_reader_partial.
(** C47 for valid texts and every reader: ReadSyntax does not panic *)
Theorem C47_reader_partial : forall s input e, ~ In runeError input -> ~ ReadPanics s input e.
Proof. exact read_noPanic_reader. Qed.
Print Assumptions C47_reader_partial.

(** the hypotheses are met: the reference to itself of PropRefuted.v panics with a failing reader as well *)
Example C09_reader_example : let calls := [DSequence "a" CNone [PropRefuted.one "a"]] in
  Defined calls (defined calls) /\ refersToDefs calls /\ literalKeywords calls /\ ~ In runeError (runesOf "a") /\
  ParsePanics (defined calls) (runesOf "a") (RFail 3).
Proof.
  split; [vm_compute; reflexivity|]. split; [intros d [<-|[]]; vm_compute; intuition (subst; simpl; tauto)|].
  split; [intros d [<-|[]] H; discriminate|]. split; [vm_compute; intuition discriminate|]. exists 100. eexists. vm_compute. reflexivity.
Qed.
Example C47_reader_example : ~ In runeError (runesOf "a = b") /\ exists s', ReadLang.Reads emptySyntax (runesOf "a = b") (RFail 3) s' (Some (ErrReader 3)).
Proof. split; [vm_compute; intuition discriminate|]. eexists. exists 300. vm_compute. reflexivity. Qed.
