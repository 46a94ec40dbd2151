(** Property C67: the place where a syntax or an input comes from does not matter. *)
From Verif Require Import Base Utf8 Parser Build Syntax Define InitSpec ApiSpec Cli CliSpec CliFacts Generate GenSpec ArgSpec ArgFacts CliGen DefSpec CliGenFacts SourceSpec SourceFacts.
Local Open Scope string_scope.
Local Open Scope list_scope.

(** two command lines, each in its own world of files and standard input, whose syntax and input have
    the same bytes: check accepts both or none of them *)
Theorem C67_check : forall w args vs rest w' args' vs' rest' bs1 e1 bs2 e2,
  ~ asksHelp args -> commandLine checkArgs args vs rest -> syntaxHas w vs [] bs1 e1 -> inputHas w vs rest bs2 e2 ->
  ~ asksHelp args' -> commandLine checkArgs args' vs' rest' -> syntaxHas w' vs' [] bs1 e1 -> inputHas w' vs' rest' bs2 e2 ->
  (Exits (fun n => check n w args) 0 <-> Exits (fun n => check n w' args') 0).
Proof.
  intros w args vs rest w' args' vs' rest' bs1 e1 bs2 e2 H L S I H' L' S' I'.
  rewrite (check_bytes _ _ _ _ _ _ _ _ H L S I), (check_bytes _ _ _ _ _ _ _ _ H' L' S' I'). reflexivity.
Qed.
(** show prints the same tree *)
Theorem C67_show : forall w args vs rest w' args' vs' rest' bs1 e1 bs2 e2 sh,
  ~ asksHelp args -> commandLine showArgs args vs rest -> syntaxHas w vs [] bs1 e1 -> inputHas w vs rest bs2 e2 ->
  ~ asksHelp args' -> commandLine showArgs args' vs' rest' -> syntaxHas w' vs' [] bs1 e1 -> inputHas w' vs' rest' bs2 e2 ->
  ((exists fuel, show fuel w args = Ok (0%Z, Some sh)) <-> exists fuel, show fuel w' args' = Ok (0%Z, Some sh)).
Proof.
  intros w args vs rest w' args' vs' rest' bs1 e1 bs2 e2 sh H L S I H' L' S' I'.
  rewrite (show_bytes _ _ _ _ _ _ _ _ sh H L S I), (show_bytes _ _ _ _ _ _ _ _ sh H' L' S' I'). reflexivity.
Qed.
Theorem C67_check_syntax : forall w args vs rest w' args' vs' rest' bs e,
  ~ asksHelp args -> commandLine syntaxArgs args vs rest -> syntaxHas w vs rest bs e ->
  ~ asksHelp args' -> commandLine syntaxArgs args' vs' rest' -> syntaxHas w' vs' rest' bs e ->
  (Exits (fun n => checkSyntax n w args) 0 <-> Exits (fun n => checkSyntax n w' args') 0).
Proof.
  intros w args vs rest w' args' vs' rest' bs e H L S H' L' S'.
  rewrite (checkSyntax_bytes _ _ _ _ _ _ H L S), (checkSyntax_bytes _ _ _ _ _ _ H' L' S'). reflexivity.
Qed.
(** generate writes the same when the other options say the same, too *)
Theorem C67_generate : forall gendoc headCode W w args vs rest w' args' vs' rest' bs e o,
  ~ asksHelp args -> commandLine generateArgs args vs rest -> syntaxHas w vs rest bs e ->
  ~ asksHelp args' -> commandLine generateArgs args' vs' rest' -> syntaxHas w' vs' rest' bs e ->
  lastOf "package-name" vs = lastOf "package-name" vs' -> switchedOn "export" vs = switchedOn "export" vs' ->
  ((exists fuel, generateCommand gendoc headCode W fuel w args = Ok (0%Z, o)) <->
   exists fuel, generateCommand gendoc headCode W fuel w' args' = Ok (0%Z, o)).
Proof.
  intros gd hc W w args vs rest w' args' vs' rest' bs e o H L S H' L' S' E1 E2.
  rewrite (generate_bytes gd hc W _ _ _ _ _ _ o H L S), (generate_bytes gd hc W _ _ _ _ _ _ o H' L' S'), E1, E2. reflexivity.
Qed.
(** the runs are the same altogether, also when they fail or panic *)
Theorem C67_check_same : forall w args vs rest w' args' vs' rest' bs1 e1 bs2 e2,
  ~ asksHelp args -> commandLine checkArgs args vs rest -> syntaxHas w vs [] bs1 e1 -> inputHas w vs rest bs2 e2 ->
  ~ asksHelp args' -> commandLine checkArgs args' vs' rest' -> syntaxHas w' vs' [] bs1 e1 -> inputHas w' vs' rest' bs2 e2 ->
  forall fuel, check fuel w args = check fuel w' args'.
Proof. exact check_same. Qed.
Theorem C67_show_same : forall w args vs rest w' args' vs' rest' bs1 e1 bs2 e2,
  ~ asksHelp args -> commandLine showArgs args vs rest -> syntaxHas w vs [] bs1 e1 -> inputHas w vs rest bs2 e2 ->
  ~ asksHelp args' -> commandLine showArgs args' vs' rest' -> syntaxHas w' vs' [] bs1 e1 -> inputHas w' vs' rest' bs2 e2 ->
  forall fuel, show fuel w args = show fuel w' args'.
Proof. exact show_same. Qed.
Theorem C67_check_syntax_same : forall w args vs rest w' args' vs' rest' bs e,
  ~ asksHelp args -> commandLine syntaxArgs args vs rest -> syntaxHas w vs rest bs e ->
  ~ asksHelp args' -> commandLine syntaxArgs args' vs' rest' -> syntaxHas w' vs' rest' bs e ->
  forall fuel, checkSyntax fuel w args = checkSyntax fuel w' args'.
Proof. exact checkSyntax_same. Qed.
Theorem C67_generate_same : forall gendoc headCode W w args vs rest w' args' vs' rest' bs e,
  ~ asksHelp args -> commandLine generateArgs args vs rest -> syntaxHas w vs rest bs e ->
  ~ asksHelp args' -> commandLine generateArgs args' vs' rest' -> syntaxHas w' vs' rest' bs e ->
  lastOf "package-name" vs = lastOf "package-name" vs' -> switchedOn "export" vs = switchedOn "export" vs' ->
  forall fuel, generateCommand gendoc headCode W fuel w args = generateCommand gendoc headCode W fuel w' args'.
Proof. exact generate_same. Qed.
(** an empty file is no exception, but an empty text on the command line counts as none at all *)
Theorem C67_empty_refuted : exists w, wFile w "f" = Some (bytesOf "", REof) /\
  Exits (fun n => check n w ["-syntax-string"; "a=""x""?"; "f"]) 0 /\ Exits (fun n => check n w ["-syntax-string"; "a=""x""?"; "-input-string"; ""]) (-1).
Proof. exists (mkWorld (fun _ => Some ([], REof)) None). repeat split; exists 300; vm_compute; reflexivity. Qed.

(** a syntax in a file and the input on the standard input; both on the command line *)
Definition filesWorld : world := mkWorld (fun n => if String.eqb n "f" then Some (bytesOf "a=""x""", REof) else None) (Some (bytesOf "x", REof)).
Example C67_example :
  let args := ["-syntax"; "f"] in let args' := ["-syntax-string"; "a=""x"""; "-input-string"; "x"] in
  let vs := [("syntax", "f")] in let vs' := [("syntax-string", "a=""x"""); ("input-string", "x")] in
  (commandLine checkArgs args vs [] /\ syntaxHas filesWorld vs [] (bytesOf "a=""x""") REof /\ inputHas filesWorld vs [] (bytesOf "x") REof) /\
  (commandLine checkArgs args' vs' [] /\ syntaxHas filesWorld vs' [] (bytesOf "a=""x""") REof /\ inputHas filesWorld vs' [] (bytesOf "x") REof) /\
  Exits (fun n => check n filesWorld args) 0 /\ ~ asksHelp args /\ ~ asksHelp args'.
Proof.
  cbv zeta. split; [|split; [|split; [exists 300; vm_compute; reflexivity|split; intros [r H]; discriminate]]].
  - split; [apply (cl_value checkArgs "-" "syntax"); [simpl; auto|simpl; auto|apply cl_end]|]. split.
    + exists (SrcFile "f"). split; [apply takes_given; reflexivity|apply dl_file; [discriminate|reflexivity]].
    + exists (SrcFile "f"), SrcInput. split; [apply takes_given; reflexivity|]. split; [apply takes_stdin; [reflexivity|discriminate]|].
      apply da_other; [intros [A _]; discriminate|apply dl_input; reflexivity].
  - split; [apply (cl_value checkArgs "-" "syntax-string"); [simpl; auto|simpl; auto|]; apply (cl_value checkArgs "-" "input-string"); [simpl; auto 6|simpl; auto 6|apply cl_end]|]. split.
    + exists (SrcInline "a=""x"""). split; [apply takes_given; reflexivity|apply dl_inline].
    + exists (SrcInline "a=""x"""), (SrcInline "x"). split; [apply takes_given; reflexivity|]. split; [apply takes_given; reflexivity|].
      apply da_other; [intros [A _]; discriminate|apply dl_inline].
Qed.
Print Assumptions C67_check_same.
Print Assumptions C67_show_same.
Print Assumptions C67_check_syntax_same.
Print Assumptions C67_generate_same.
Print Assumptions C67_check.
Print Assumptions C67_show.
Print Assumptions C67_check_syntax.
Print Assumptions C67_generate.
Print Assumptions C67_empty_refuted.
