(** C60: the flags that are for the whitespace, for the keywords and for the errors. *)
From Verif Require Import Base Utf8 Parser Build Syntax Grammar ApiSpec PropRef PropRefuted PropDefine PropOrder FlagSpec FlagApi.

(** C60: with no whitespace definition among the calls, the nows flag, on whichever definitions it
    is, changes nothing. *)
Theorem C60_nows_without_whitespace : forall calls calls' s s', Defined calls s -> Defined calls' s' ->
  sameButFlag CNoWhitespace calls calls' -> noWhitespaceDefs calls ->
  (forall err, (exists s1, Inits s s1 err) <-> (exists s1, Inits s' s1 err)) /\
  forall input e,
    (forall out, (exists s1, Parses s input e s1 out) <-> (exists s1, Parses s' input e s1 out)) /\
    (ParsePanics s input e <-> ParsePanics s' input e).
Proof. intros calls calls' s s' Hd Hd' Hs Hw. apply alike_api. eapply nows_alike; eauto. Qed.
(** C60: with no keyword definition among the calls, the nokw flag changes nothing. *)
Theorem C60_nokw_without_keywords : forall calls calls' s s', Defined calls s -> Defined calls' s' ->
  sameButFlag CNoKeyword calls calls' -> (forall d, In d calls -> hasFlag (callFlags d) CKeyword = false) ->
  (forall err, (exists s1, Inits s s1 err) <-> (exists s1, Inits s' s1 err)) /\
  forall input e,
    (forall out, (exists s1, Parses s input e s1 out) <-> (exists s1, Parses s' input e s1 out)) /\
    (ParsePanics s input e <-> ParsePanics s' input e).
Proof. intros calls calls' s s' Hd Hd' Hs Hk. apply alike_api. eapply nokw_alike; eauto. Qed.
(** C60: the failpass flag changes no tree and no error of the reader: the same inputs are accepted
    with the same trees, and the inputs that are not are refused with a ParseError, maybe another
    one, or make Parse panic. *)
Theorem C60_failpass_is_for_errors : forall calls calls' s s', Defined calls s -> Defined calls' s' ->
  sameButFlag CFailPass calls calls' -> (exists s1, Inits s s1 None) -> (exists s1, Inits s' s1 None) ->
  forall input e,
    (forall t toks, (exists s1, Parses s input e s1 (Tree t toks)) <-> (exists s1, Parses s' input e s1 (Tree t toks))) /\
    (forall err, (forall o l c d, err <> ErrParse o l c d) ->
       (exists s1, Parses s input e s1 (Failed err)) <-> (exists s1, Parses s' input e s1 (Failed err))) /\
    ((exists s1 o l c d, Parses s input e s1 (Failed (ErrParse o l c d))) \/ ParsePanics s input e <->
     (exists s1 o l c d, Parses s' input e s1 (Failed (ErrParse o l c d))) \/ ParsePanics s' input e).
Proof.
  intros calls calls' s s' Hd Hd' Hs Hi Hi' input e. split; [intros; eapply pass_tree; eauto|]. split; [intros; eapply pass_other; eauto|eapply pass_refused; eauto].
Qed.

(** the left-recursive sums without whitespace and keywords *)
Definition bareSums (word sum : commitType) : list defcall :=
  [ DClass "letter" CAlias false [] [(97, 122)%Z];
    DSequence "word" word [mkItem "letter" 1 (-1)]; DCharSequence "plus" CAlias (runesOf "+");
    DSequence "sum" sum [one "expr"; one "plus"; one "word"]; DChoice "expr" CAlias ["sum"; "word"]; DSequence "doc" CRoot [one "expr"] ]%string.
Definition bareText : list rune := runesOf "a+b+c".
Definition bareTree : node := Node "doc" 0 5 [Node "sum" 0 5 [Node "sum" 0 3 [Node "word" 0 1 []; Node "word" 2 3 []]; Node "word" 4 5 []]].
Example C60_example : Forall (fun F => let plain := bareSums CNone CNone in let flagged := bareSums F F in
    Defined plain (defined plain) /\ Defined flagged (defined flagged) /\ sameButFlag F plain flagged /\ plain <> flagged /\
    noWhitespaceDefs plain /\ (forall d, In d plain -> hasFlag (callFlags d) CKeyword = false) /\
    (exists s1, Inits (defined plain) s1 None) /\ (exists s1, Inits (defined flagged) s1 None) /\
    (exists s1, Parses (defined plain) bareText REof s1 (Tree bareTree bareText)) /\
    (exists s1, Parses (defined flagged) bareText REof s1 (Tree bareTree bareText))) [CNoWhitespace; CNoKeyword; CFailPass].
Proof.
  repeat (constructor; [cbv zeta; split; [vm_compute; reflexivity|]; split; [vm_compute; reflexivity|]; split; [vm_compute; reflexivity|]; split; [vm_compute; discriminate|];
    split; [intros d Hd; repeat (destruct Hd as [<-|Hd]; [reflexivity|]); destruct Hd|]; split; [intros d Hd; repeat (destruct Hd as [<-|Hd]; [reflexivity|]); destruct Hd|];
    split; [eexists; exists 40; vm_compute; reflexivity|]; split; [eexists; exists 40; vm_compute; reflexivity|]; split; apply run_parse; vm_compute; reflexivity|]).
  constructor.
Qed.
(** the conditions are needed: with whitespace the nows flag changes the language, with keywords
    the nokw flag does, and the failpass flag does change the errors *)
Definition spaced (word : commitType) : list defcall :=
  [ DClass "ws" CWhitespace false [32%Z] []; DCharSequence "if" CKeyword (runesOf "if"); DClass "letter" (N.lor CAlias (N.land word CFailPass)) false [] [(97, 122)%Z];
    DSequence "word" word [mkItem "letter" 1 (-1)]; DSequence "doc" CRoot [one "word"] ]%string.
Theorem C60_conditions_needed :
  (sameButFlag CNoWhitespace (spaced CNone) (spaced CNoWhitespace) /\ Defined (spaced CNone) (defined (spaced CNone)) /\ Defined (spaced CNoWhitespace) (defined (spaced CNoWhitespace)) /\
   (exists s1 t, Parses (defined (spaced CNone)) (runesOf "a b") REof s1 (Tree t (runesOf "a b"))) /\ (exists s1 err, Parses (defined (spaced CNoWhitespace)) (runesOf "a b") REof s1 (Failed err))) /\
  (sameButFlag CNoKeyword (spaced CNone) (spaced CNoKeyword) /\ Defined (spaced CNoKeyword) (defined (spaced CNoKeyword)) /\
   (exists s1 t, Parses (defined (spaced CNone)) (runesOf "if") REof s1 (Tree t (runesOf "if"))) /\ (exists s1 err, Parses (defined (spaced CNoKeyword)) (runesOf "if") REof s1 (Failed err))) /\
  (sameButFlag CFailPass (spaced CNone) (spaced CFailPass) /\ Defined (spaced CFailPass) (defined (spaced CFailPass)) /\
   (exists s1, Parses (defined (spaced CNone)) (runesOf "1") REof s1 (Failed (ErrParse 0 0 0 "letter"))) /\ (exists s1, Parses (defined (spaced CFailPass)) (runesOf "1") REof s1 (Failed (ErrParse 0 0 0 "doc")))).
Proof.
  assert (T : forall s i toks, match outcome s i REof with Some (Tree t k) => Some k | _ => None end = Some toks -> exists s1 t, Parses s i REof s1 (Tree t toks)).
  { intros s i toks H. destruct (outcome s i REof) as [[t k|]|] eqn:E; try discriminate. injection H as ->. apply run_parse in E. destruct E as [s1 E]. eauto. }
  split; [|split].
  - split; [vm_compute; reflexivity|]. split; [vm_compute; reflexivity|]. split; [vm_compute; reflexivity|]. split; [apply T; vm_compute; reflexivity|apply run_fail; vm_compute; reflexivity].
  - split; [vm_compute; reflexivity|]. split; [vm_compute; reflexivity|]. split; [apply T; vm_compute; reflexivity|apply run_fail; vm_compute; reflexivity].
  - split; [vm_compute; reflexivity|]. split; [vm_compute; reflexivity|]. split; apply run_parse; vm_compute; reflexivity.
Qed.

Print Assumptions C60_nows_without_whitespace.
Print Assumptions C60_nokw_without_keywords.
Print Assumptions C60_failpass_is_for_errors.
Print Assumptions C60_conditions_needed.
