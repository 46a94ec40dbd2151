(** Properties of the command line tool: C37, C38, C40, C41; and ReadSyntax stops (C01). *)
From Verif Require Import Base Utf8 Parser Build Syntax SelfData Define ApiSpec DefSpec Cli CliSpec CliFacts ReadFacts.
Local Open Scope string_scope.
Local Open Scope list_scope.

(** C01, for the parser that reads syntax descriptions: ReadSyntax stops on every input *)
Theorem C01_read_terminates : forall s input e,
  exists fuel0, forall fuel, fuel0 <= fuel -> ReadSyntax fuel s input e <> NoFuel.
Proof. exact ReadSyntax_terminates. Qed.

(** C37, as far as it holds: a single source is taken whatever stdin is; without a source stdin is
    taken unless it is a terminal; several sources are refused, except a positional file together
    with an inline text *)
Theorem C37_one_partial : forall stdin o src, given o = [src] -> getSource stdin o = Some src.
Proof. exact one_source. Qed.
Theorem C37_none_partial : forall stdin o, given o = [] -> getSource stdin o = if stdin then Some SrcInput else None.
Proof. exact no_source. Qed.
Theorem C37_many_partial : forall stdin o, 1 < List.length (given o) ->
  ~ (List.length (foPositional o) = 1 /\ foFileName o = "" /\ foInline o <> "") -> getSource stdin o = None.
Proof. exact more_sources. Qed.
(** a positional file and an inline text are both given: the command goes on with the file *)
Theorem C37_refuted : exists o a b, a <> b /\ given o = [a; b] /\ getSource false o = Some a.
Proof.
  exists (mkFileOptions "x" "" ["f"]), (SrcFile "f"), (SrcInline "x"). split; [discriminate|]. split; reflexivity.
Qed.
(** an empty inline text counts as not given: stdin is read instead *)
Theorem C37_empty_refuted : exists w args v rest, parseFlags (syntaxFlags ++ inputFlags) args [] = Some (v, rest) /\
  In ("input-string", "") v /\ openSource w false (inputOptions v rest) = Some (SrcInput, (bytesOf "x", REof)).
Proof.
  exists (mkWorld (fun _ => None) (Some (bytesOf "x", REof))), ["-input-string"; ""; "-syntax"; "s"].
  eexists. eexists. split; [reflexivity|]. split; [right; left; reflexivity|reflexivity].
Qed.
Example C37_example : given (mkFileOptions "" "f" []) = [SrcFile "f"] /\ given (mkFileOptions "" "" []) = [] /\
  given (mkFileOptions "x" "f" []) = [SrcFile "f"; SrcInline "x"] /\ given (mkFileOptions "" "" ["a"; "b"]) = [SrcFile "a"; SrcFile "b"].
Proof. repeat split. Qed.

(** C38: the exit codes *)
Theorem C38_check : forall w args, isHelp args = false ->
  (Exits (fun n => check n w args) 0 <->
   exists v rest t toks, parseFlags (syntaxFlags ++ inputFlags) args [] = Some (v, rest) /\ parsesWith w v rest t toks).
Proof. exact check_zero. Qed.
Theorem C38_check_syntax : forall w args, isHelp args = false ->
  (Exits (fun n => checkSyntax n w args) 0 <->
   exists v rest src bs e s s', parseFlags syntaxFlags args [] = Some (v, rest) /\
     takes w (syntaxOptions v rest) src /\ delivers w src bs e /\ Reads bs e s /\ Inits s s' None).
Proof. exact checkSyntax_zero. Qed.
(** every other run that does not panic ends with -1, and a run has one result *)
Theorem C38_check_otherwise_partial : forall w args,
  (Exits (fun n => check n w args) 0 \/ Exits (fun n => check n w args) (-1) \/ Crashes (fun n => check n w args)) /\
  ~ (Exits (fun n => check n w args) 0 /\ Exits (fun n => check n w args) (-1)).
Proof.
  intros w args. split.
  - destruct (check_ends w args) as [[code H]|H]; [|auto]. destruct (check_codes _ _ _ H) as [->| ->]; auto.
  - intros [H1 H2]. pose proof (exits_unique _ _ _ (check_mono w args) H1 H2). discriminate.
Qed.
Theorem C38_check_syntax_otherwise_partial : forall w args,
  (Exits (fun n => checkSyntax n w args) 0 \/ Exits (fun n => checkSyntax n w args) (-1) \/ Crashes (fun n => checkSyntax n w args)) /\
  ~ (Exits (fun n => checkSyntax n w args) 0 /\ Exits (fun n => checkSyntax n w args) (-1)).
Proof.
  intros w args. split.
  - destruct (checkSyntax_ends w args) as [[code H]|H]; [|auto]. destruct (checkSyntax_codes _ _ _ H) as [->| ->]; auto.
  - intros [H1 H2]. pose proof (exits_unique _ _ _ (checkSyntax_mono w args) H1 H2). discriminate.
Qed.
(** the panic happens *)
Theorem C38_refuted : exists w args, isHelp args = false /\ Crashes (fun n => check n w args).
Proof.
  exists (mkWorld (fun _ => None) None), ["-syntax-string"; "a=a"; "-input-string"; "a"]. split; [reflexivity|].
  exists 300. destruct (check 300 _ _) as [x|w|] eqn:E; [vm_compute in E; discriminate|eauto|vm_compute in E; discriminate].
Qed.
Example C38_example : exists w args, isHelp args = false /\ Exits (fun n => check n w args) 0.
Proof.
  exists (mkWorld (fun _ => None) (Some (bytesOf "xx", REof))), ["-syntax-string"; "a=""x""+"]. split; [reflexivity|].
  exists 300. vm_compute. reflexivity.
Qed.
Example C38_example_fails : exists w args, isHelp args = false /\ Exits (fun n => check n w args) (-1).
Proof.
  exists (mkWorld (fun _ => None) (Some (bytesOf "xy", REof))), ["-syntax-string"; "a=""x""+"]. split; [reflexivity|].
  exists 300. vm_compute. reflexivity.
Qed.
Example C38_example_syntax : exists w args, isHelp args = false /\ Exits (fun n => checkSyntax n w args) 0 /\
  exists args', isHelp args' = false /\ Exits (fun n => checkSyntax n w args') (-1).
Proof.
  exists (mkWorld (fun _ => None) (Some (bytesOf "a=b", REof))), ["-syntax-string"; "a=""x"""]. split; [reflexivity|].
  split; [exists 300; vm_compute; reflexivity|]. exists []. split; [reflexivity|]. exists 300. vm_compute. reflexivity.
Qed.

(** C40: node by node, the printed tree is the parsed one; the text is present exactly for the leaves
    with a text *)
Theorem C40_show_tree_partial : forall toks path n,
  match nodeAt path n, shownAt path (mapNode toks n) with
  | Some m, Some sh =>
    shName sh = nName m /\ shFrom sh = nFrom m /\ shTo sh = nTo m /\
    (shNodes sh = None <-> nNodes m = []) /\
    (forall l, shNodes sh = Some l -> List.length l = List.length (nNodes m)) /\
    (forall t, shText sh = Some t <-> nNodes m = [] /\ t = nodeText toks m /\ t <> "")
  | None, None => True
  | _, _ => False
  end.
Proof. exact mapNode_at. Qed.
(** show prints that tree when the input is parsed, and nothing otherwise *)
Theorem C40_show_prints : forall w args sh, isHelp args = false ->
  ((exists fuel, show fuel w args = Ok (0%Z, Some sh)) <->
   exists v rest t toks, parseFlags showFlags args [] = Some (v, rest) /\ parsesWith w v rest t toks /\ sh = mapNode toks t).
Proof. exact show_prints. Qed.
(** a leaf with an empty text has no text *)
Theorem C40_empty_leaf_refuted : exists toks n, nNodes n = [] /\ shText (mapNode toks n) = None.
Proof. exists [], (Node "a" 0 0 []). split; reflexivity. Qed.
Example C40_example : mapNode (runesOf "ab") (Node "r" 0 2 [Node "a" 0 1 []; Node "b" 1 2 []; Node "e" 2 2 []]) =
  Shown "r" 0 2 None (Some [Shown "a" 0 1 (Some "a") None; Shown "b" 1 2 (Some "b") None; Shown "e" 2 2 None None]).
Proof. reflexivity. Qed.

Example C40_example_show : exists w args sh, isHelp args = false /\ exists fuel, show fuel w args = Ok (0%Z, Some sh) /\
  sh = Shown "a" 0 2 (Some "xx") None.
Proof.
  exists (mkWorld (fun _ => None) (Some (bytesOf "xx", REof))), ["-pretty"; "-syntax-string"; "a=""x""+"]. eexists. split; [reflexivity|].
  exists 300. split; vm_compute; reflexivity.
Qed.

(** C41: the words are the parts of the text between spaces and newlines, *)
Theorem C41_words : forall s, joinWith 32%Z (splitWords s []) = map (fun c => if Z.eqb c 10 then 32%Z else c) s /\
  Forall (Forall (fun c => c <> 32%Z /\ c <> 10%Z)) (splitWords s []).
Proof. intros s. destruct (splitWords_join s []) as (H1 & H2 & _); [constructor|]. split; assumption. Qed.
(** and they are divided into lines when no word is longer than a line *)
Theorem C41_wrap_partial : forall s, Forall (fun x => List.length x <= 72) (splitWords s []) ->
  exists lines, wrapLines s = Ok (joinWith 10%Z lines) /\ wrapped (splitWords s []) lines.
Proof. exact wrapLines_ok. Qed.
(** a longer word makes it panic when it is the first one; otherwise the word is lost *)
Theorem C41_panic_refuted : exists s, wrapLines s = Panic PanicIndex.
Proof. exists (repeat 97%Z 73). vm_compute. reflexivity. Qed.
Theorem C41_lost_refuted : exists word, List.length word = 73 /\
  wrapLines (runesOf "a " ++ word ++ runesOf " b")%list = Ok (joinWith 10%Z [runesOf "a"; runesOf "a"; runesOf "b"]).
Proof. exists (repeat 97%Z 73). split; vm_compute; reflexivity. Qed.
Example C41_example : wrapLines (runesOf "aa bb" ++ 10%Z :: runesOf "cc")%list = Ok (runesOf "aa bb cc") /\
  wrapLines (repeat 97%Z 70 ++ runesOf " b" ++ repeat 97%Z 9)%list = Ok (repeat 97%Z 70 ++ 10%Z :: runesOf "b" ++ repeat 97%Z 9)%list.
Proof. split; vm_compute; reflexivity. Qed.

Print Assumptions C01_read_terminates.
Print Assumptions C37_one_partial.
Print Assumptions C37_none_partial.
Print Assumptions C37_many_partial.
Print Assumptions C37_refuted.
Print Assumptions C37_empty_refuted.
Print Assumptions C38_check.
Print Assumptions C38_check_syntax.
Print Assumptions C38_check_otherwise_partial.
Print Assumptions C38_check_syntax_otherwise_partial.
Print Assumptions C38_refuted.
Print Assumptions C40_show_tree_partial.
Print Assumptions C40_show_prints.
Print Assumptions C41_words.
Print Assumptions C40_empty_leaf_refuted.
Print Assumptions C41_wrap_partial.
Print Assumptions C41_panic_refuted.
Print Assumptions C41_lost_refuted.
