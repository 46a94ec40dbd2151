(** Properties C38, C40 and C52 in terms of the arguments of the commands. *)
From Verif Require Import Base Utf8 Parser Build Syntax Define ApiSpec Cli CliSpec Json JsonSpec ArgSpec ArgFacts.
Local Open Scope string_scope.
Local Open Scope list_scope.

(** check exits with 0 exactly when the arguments are well formed and the input is parsed *)
Theorem C38_check_line : forall w args, ~ asksHelp args ->
  (Exits (fun n => check n w args) 0 <-> exists vs rest t toks, commandLine checkArgs args vs rest /\ treeFrom w vs rest t toks).
Proof. exact check_line. Qed.
(** check-syntax: when the syntax can be read and initialized *)
Theorem C38_check_syntax_line : forall w args, ~ asksHelp args ->
  (Exits (fun n => checkSyntax n w args) 0 <->
   exists vs rest src bs e s s', commandLine syntaxArgs args vs rest /\
     takes w (syntaxGiven vs rest) src /\ delivers w src bs e /\ Reads bs e s /\ Inits s s' None).
Proof. exact checkSyntax_line. Qed.
(** with -help as the first argument the commands exit with 0, and show prints no tree *)
Theorem C38_help : forall w args, asksHelp args ->
  Exits (fun n => check n w args) 0 /\ Exits (fun n => checkSyntax n w args) 0 /\ exists fuel, show fuel w args = Ok (0%Z, None).
Proof. exact help_line. Qed.
(** arguments are understood in at most one way *)
Theorem C38_one_reading : forall flags args vs rest vs' rest', In flags [syntaxArgs; checkArgs; showArgs] ->
  commandLine flags args vs rest -> commandLine flags args vs' rest' -> vs = vs' /\ rest = rest'.
Proof. intros flags args vs rest vs' rest' [<-|[<-|[<-|[]]]]; apply line_one; [apply syntaxArgs_plain|apply checkArgs_plain|apply showArgs_plain]. Qed.
(** show prints the tree exactly when the arguments are well formed and the input is parsed *)
Theorem C40_show_line : forall w args sh, ~ asksHelp args ->
  ((exists fuel, show fuel w args = Ok (0%Z, Some sh)) <->
   exists vs rest t toks, commandLine showArgs args vs rest /\ treeFrom w vs rest t toks /\ sh = mapNode toks t).
Proof. exact show_line. Qed.
(** otherwise it prints nothing and exits with -1, or it panics; it has one result *)
Theorem C40_show_otherwise_partial : forall w args, ~ asksHelp args ->
  exists fuel, (exists sh, show fuel w args = Ok (0%Z, Some sh)) \/ show fuel w args = Ok ((-1)%Z, None) \/ exists why, show fuel w args = Panic why.
Proof. exact show_cases. Qed.
Theorem C40_show_one : forall w args n m r r', show n w args = Ok r -> show m w args = Ok r' -> r = r'.
Proof. exact show_one. Qed.
(** the text printed by show is a JSON document that describes the tree of the input *)
Theorem C52_show_json_line_partial : forall modern w args vs rest code text,
  ~ asksHelp args -> commandLine showArgs args vs rest -> blank (lastOf "indent" vs) ->
  (exists fuel, showText modern fuel w args = Ok (code, Some text)) ->
  exists t toks j d, treeFrom w vs rest t toks /\ code = 0%Z /\ readJson text = Some j /\ describes j d /\ described toks t d.
Proof. exact show_text_line. Qed.
Theorem C52_show_prints_line : forall modern w args vs rest t toks,
  ~ asksHelp args -> commandLine showArgs args vs rest -> treeFrom w vs rest t toks ->
  exists fuel text, showText modern fuel w args = Ok (0%Z, Some text).
Proof. exact show_text_some_line. Qed.

(** a switch, an option with its value in the next argument, one with an equals sign, one given
    twice, and a positional argument *)
Example C40_line_example : exists vs, ~ asksHelp ["-pretty"; "--syntax-string"; "b"; "-indent= "; "-syntax-string"; "a=""x"""; "file"] /\
  commandLine showArgs ["-pretty"; "--syntax-string"; "b"; "-indent= "; "-syntax-string"; "a=""x"""; "file"] vs ["file"] /\
  lastOf "syntax-string" vs = "a=""x""" /\ lastOf "indent" vs = " " /\ lastOf "input" vs = "" /\ blank (lastOf "indent" vs).
Proof.
  eexists. split; [intros [r H]; discriminate|]. split.
  - apply (cl_switch showArgs "-" "pretty"); [simpl; auto|simpl; tauto|].
    apply (cl_value showArgs "--" "syntax-string"); [simpl; auto|simpl; tauto|].
    apply (cl_equals showArgs "-" "indent" " "); [simpl; auto|simpl; tauto|].
    apply (cl_value showArgs "-" "syntax-string"); [simpl; auto|simpl; tauto|].
    apply cl_word. right. intros r H. discriminate.
  - repeat split; reflexivity.
Qed.
Example C38_line_example : exists w args vs rest t toks, ~ asksHelp args /\ commandLine checkArgs args vs rest /\ treeFrom w vs rest t toks.
Proof.
  exists (mkWorld (fun _ => None) (Some (bytesOf "xx", REof))), ["-syntax-string"; "a=""x""+"].
  assert (N : ~ asksHelp ["-syntax-string"; "a=""x""+"]) by (intros [r H]; discriminate).
  assert (H : Exits (fun n => check n (mkWorld (fun _ => None) (Some (bytesOf "xx", REof))) ["-syntax-string"; "a=""x""+"]) 0) by (exists 300; vm_compute; reflexivity).
  apply (check_line _ _ N) in H. destruct H as (vs & rest & t & toks & H). exists vs, rest, t, toks. split; auto.
Qed.

Print Assumptions C38_check_line.
Print Assumptions C38_check_syntax_line.
Print Assumptions C38_help.
Print Assumptions C38_one_reading.
Print Assumptions C40_show_line.
Print Assumptions C52_show_json_line_partial.
Print Assumptions C52_show_prints_line.
Print Assumptions C40_show_otherwise_partial.
Print Assumptions C40_show_one.
