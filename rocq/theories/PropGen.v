(** Generate and the generated function: C32, C33, C34. *)
From Verif Require Import Base Utf8 Parser Build Syntax Lang Grammar WsLang ApiSpec InitSpec RefSpec PropRef.
From Verif Require Import Generate GoSpec GoRead GenSpec GenFacts.
Local Open Scope string_scope.
Local Open Scope list_scope.

(** C32: when every write succeeds, Generate writes the preamble and the body of a function.  Read
    as Go, the body is a function [fn] that compiles: [call] is not None, so every variable is
    declared once, before it is used, is of the right type, and is used.  A call of [fn] returns
    what Parse returns, but that a parse error that names the root definition may name none (see
    C34). *)
Theorem C32_generated_function : forall gendoc headCode opts calls s s',
  Defined calls s -> refersToDefs calls -> literalKeywords calls -> sourceNames calls -> Inits s s' None ->
  exists o body fn enough,
    Generates gendoc headCode opts neverFails s s' o None /\
    content o = String.append (preamble gendoc headCode opts) body /\
    readFunc body = Some fn /\
    forall fuel input e, enough <= fuel -> exists out, call fn fuel input e = Some out /\
      sameButName (rootDefinition calls) (outcome (Parse fuel s input e)) out.
Proof. exact generated_like. Qed.
Print Assumptions C32_generated_function.
Example C32_names : sourceNames calc.
Proof. intros d Hd. repeat (destruct Hd as [<-|Hd]; [vm_compute; reflexivity|]). destruct Hd. Qed.
Example C32_example : Defined calc calcSyntax /\ refersToDefs calc /\ literalKeywords calc /\ sourceNames calc /\ exists s', Inits calcSyntax s' None.
Proof. exact (conj calc_defined (conj calc_refs (conj calc_literal (conj C32_names calc_init)))). Qed.

(** Generate has one result: the [exists] of C32_generated_function is the result of every
    Generate of the syntax *)
Theorem C32_one_result : forall gendoc headCode opts W s s1 o1 err1 s2 o2 err2,
  Generates gendoc headCode opts W s s1 o1 err1 -> Generates gendoc headCode opts W s s2 o2 err2 ->
  s1 = s2 /\ o1 = o2 /\ err1 = err2.
Proof. exact Generates_one. Qed.
Print Assumptions C32_one_result.

(** Generate of a syntax with an error returns the error of Init, and writes nothing *)
Theorem C32_invalid_syntax : forall gendoc headCode opts W s s' err,
  Inits s s' (Some err) -> Generates gendoc headCode opts W s s' noOutput (Some (inl err)).
Proof. exact generated_invalid. Qed.
Print Assumptions C32_invalid_syntax.
Example C32_invalid_example : exists s', Inits emptySyntax s' (Some ErrNoParsersDefined).
Proof. eexists. exists 1. vm_compute. reflexivity. Qed.

(** the function that Generate writes for a syntax, read back; None when it is not Go *)
Definition generatedFunction (fuel : nat) (calls : list defcall) : option (option goFunc) :=
  match Generate "" "" (mkGenOptions "" false) neverFails fuel (fst (defineAll emptySyntax calls)) with
  | Ok (_, o, None) =>
    let p := preamble "" "" (mkGenOptions "" false) in
    if prefix p (content o) then Some (readFunc (substring (String.length p) (String.length (content o)) (content o))) else None
  | _ => None
  end.

(** the function generated for the example, called on the text of the example *)
Example C32_calc_call :
  match generatedFunction 200 calc with
  | Some (Some fn) => call fn 200 calcText REof = Some (Ok (Tree calcTree calcText))
  | _ => False
  end.
Proof. vm_compute. reflexivity. Qed.

(** C32 is false without [refersToDefs]: a reference to the character class of another definition
    is accepted by Init and by Parse, and the generated function declares its variable twice *)
Definition shared : list defcall :=
  [ DClass "a" CNone false (runesOf "x") []; DSequence "b" CRoot [mkItem "a" 1 1; mkItem "a:0" 1 1] ].
Theorem C32_declared_twice_refuted : exists calls s s' fn,
  Defined calls s /\ Inits s s' None /\ literalKeywords calls /\ sourceNames calls /\
  Parses s (runesOf "xx") REof s' (Tree (Node "b" 0 2 [Node "a" 0 1 []]) (runesOf "xx")) /\
  generatedFunction 200 calls = Some (Some fn) /\ forall fuel input e, call fn fuel input e = None.
Proof.
  destruct (generatedFunction 200 shared) as [[fn|]|] eqn:E; [|vm_compute in E; discriminate|vm_compute in E; discriminate].
  exists shared, (fst (defineAll emptySyntax shared)). eexists. exists fn.
  split; [vm_compute; reflexivity|]. split; [exists 200; vm_compute; reflexivity|].
  split; [intros d Hd Hf; repeat (destruct Hd as [<-|Hd]; [vm_compute in Hf; eauto; discriminate|]); destruct Hd|].
  split; [intros d Hd; repeat (destruct Hd as [<-|Hd]; [vm_compute; reflexivity|]); destruct Hd|].
  split; [exists 200; vm_compute; reflexivity|]. split; [exact E|].
  vm_compute in E. inversion E. intros. reflexivity.
Qed.
Print Assumptions C32_declared_twice_refuted.

(** C32 is false without [sourceNames]: a name with a NUL byte is a valid symbol name, and cannot
    be in a source text *)
Definition nulName : list defcall := [ DClass (String (Ascii.ascii_of_nat 0) "a") CRoot false (runesOf "x") [] ].
Theorem C32_name_refuted : exists calls s s',
  Defined calls s /\ Inits s s' None /\ literalKeywords calls /\ refersToDefs calls /\
  (exists t, Parses s (runesOf "x") REof s' (Tree t (runesOf "x"))) /\
  generatedFunction 200 calls = Some None.
Proof.
  exists nulName, (fst (defineAll emptySyntax nulName)). eexists.
  split; [vm_compute; reflexivity|]. split; [exists 200; vm_compute; reflexivity|].
  split; [intros d Hd Hf; repeat (destruct Hd as [<-|Hd]; [vm_compute in Hf; eauto; discriminate|]); destruct Hd|].
  split; [intros d Hd; repeat (destruct Hd as [<-|Hd]; [vm_compute; intuition (subst; simpl; tauto)|]); destruct Hd|].
  split; [eexists; exists 200; vm_compute; reflexivity|]. vm_compute. reflexivity.
Qed.
Print Assumptions C32_name_refuted.

(** C34, for the syntaxes without whitespace definitions: the generated function returns exactly
    what Parse returns, errors included.  What is missing from C34, the syntaxes with whitespace
    definitions, is false: C34_refuted.  For them C32_generated_function gives all of the parse
    error but the name of the definition. *)
Theorem C34_same_errors_partial : forall gendoc headCode opts calls s s',
  Defined calls s -> refersToDefs calls -> literalKeywords calls -> sourceNames calls -> Inits s s' None -> noWhitespaceDefs calls ->
  exists o body fn enough,
    Generates gendoc headCode opts neverFails s s' o None /\
    content o = String.append (preamble gendoc headCode opts) body /\
    readFunc body = Some fn /\
    forall fuel input e, enough <= fuel -> call fn fuel input e = Some (outcome (Parse fuel s input e)).
Proof. exact generated_equal. Qed.
Print Assumptions C34_same_errors_partial.
(** the example without its whitespace *)
Definition dense : list defcall := tl calc.
Example C34_example : Defined dense (fst (defineAll emptySyntax dense)) /\ refersToDefs dense /\ literalKeywords dense /\ sourceNames dense /\ noWhitespaceDefs dense /\
  (exists s', Inits (fst (defineAll emptySyntax dense)) s' None) /\
  match generatedFunction 200 dense with
  | Some (Some fn) => call fn 200 (runesOf "f(") REof = Some (Ok (Failed (ErrParse 2 0 2 "letter")))
  | _ => False
  end.
Proof.
  split; [vm_compute; reflexivity|].
  split; [intros d Hd; repeat (destruct Hd as [<-|Hd]; [vm_compute; intuition (subst; simpl; tauto)|]); destruct Hd|].
  split; [intros d Hd Hf; repeat (destruct Hd as [<-|Hd]; [vm_compute in Hf; eauto; discriminate|]); destruct Hd|].
  split; [intros d Hd; repeat (destruct Hd as [<-|Hd]; [vm_compute; reflexivity|]); destruct Hd|].
  split; [intros d Hd; repeat (destruct Hd as [<-|Hd]; [vm_compute; reflexivity|]); destruct Hd|].
  split; [eexists; exists 200; vm_compute; reflexivity|]. vm_compute. reflexivity.
Qed.

(** C34 is false with whitespace: the root sequence that is made around the root definition has no
    name in the generated code *)
Theorem C34_refuted : exists calls s s' fn name,
  Defined calls s /\ Inits s s' None /\ literalKeywords calls /\ refersToDefs calls /\ sourceNames calls /\
  generatedFunction 200 calls = Some (Some fn) /\ name <> "" /\
  exists input o l c, Parses s input REof s' (Failed (ErrParse o l c name)) /\
    exists fuel, call fn fuel input REof = Some (Ok (Failed (ErrParse o l c ""))).
Proof.
  destruct (generatedFunction 200 calc) as [[fn|]|] eqn:E; [|vm_compute in E; discriminate|vm_compute in E; discriminate].
  exists calc, calcSyntax. eexists. exists fn, "stmt".
  split; [exact calc_defined|]. split; [exists 200; vm_compute; reflexivity|].
  split; [exact calc_literal|]. split; [exact calc_refs|]. split; [exact C32_names|]. split; [exact E|]. split; [discriminate|].
  exists (runesOf "a)"), 1. eexists. eexists. split; [exists 200; vm_compute; reflexivity|].
  exists 200. vm_compute in E. inversion E. vm_compute. reflexivity.
Qed.
Print Assumptions C34_refuted.

(** C33, the part that holds: when Generate returns no error, the declarations have been written
    completely.  [B1] and [B2] are what is written between the preamble, a newline and the end.
    What is missing is false, see C33_refuted: the preamble, the newline and the end. *)
Theorem C33_declarations_partial : forall gendoc headCode opts calls s s',
  Defined calls s -> refersToDefs calls -> literalKeywords calls -> sourceNames calls -> Inits s s' None ->
  exists o0 B1 B2 T,
    Generates gendoc headCode opts neverFails s s' o0 None /\
    oTexts o0 = headPieces gendoc headCode opts ++ B1 ++ [newline] ++ B2 ++ T /\
    forall W o err, Generates gendoc headCode opts W s s' o err -> err = None ->
      exists H N T1, beginning H (headPieces gendoc headCode opts) /\ beginning N [newline] /\ beginning T1 T /\
        oTexts o = H ++ B1 ++ N ++ B2 ++ T1.
Proof. exact generated_written. Qed.
Print Assumptions C33_declarations_partial.

(** C33 is false: no error is returned when the first write, of the documentation, fails, and
    none when the last one fails *)
Definition failsAt (k : nat) : writer := fun i => if Nat.eqb i k then Some 1 else None.
Theorem C33_refuted : exists calls s s' o0 first last,
  Defined calls s /\ Inits s s' None /\
  Generates "doc" "code" (mkGenOptions "" true) neverFails s s' o0 None /\
  Generates "doc" "code" (mkGenOptions "" true) (failsAt 0) s s' first None /\
  Generates "doc" "code" (mkGenOptions "" true) (failsAt (oCalls o0 - 1)) s s' last None /\
  ~ In "doc" (oTexts first) /\ oCalls last = oCalls o0 /\ oTexts last = removelast (oTexts o0).
Proof.
  exists calc, calcSyntax. eexists _, _, _, _.
  split; [exact calc_defined|]. split; [exists 200; vm_compute; reflexivity|].
  split; [exists 200; vm_compute; reflexivity|]. split; [exists 200; vm_compute; reflexivity|]. split; [exists 200; vm_compute; reflexivity|].
  split; [|split; vm_compute; reflexivity].
  vm_compute. intros H. repeat (destruct H as [H|H]; [discriminate|]). destruct H.
Qed.
Print Assumptions C33_refuted.
