(** Property C66: the commands agree with each other about which syntaxes and inputs are right. *)
From Verif Require Import Base Utf8 Parser Build Syntax Define InitSpec ApiSpec Cli CliSpec Generate GenSpec ArgSpec ArgFacts CliGen DefSpec CliGenFacts.
Local Open Scope string_scope.
Local Open Scope list_scope.

(** when no write fails, generate accepts the arguments of check-syntax exactly when check-syntax does *)
Theorem C66_generate_check_syntax : forall gendoc headCode w args vs rest, ~ asksHelp args -> commandLine syntaxArgs args vs rest ->
  ((exists fuel o, generateCommand gendoc headCode neverFails fuel w args = Ok (0%Z, o)) <-> Exits (fun n => checkSyntax n w args) 0).
Proof. exact generate_checkSyntax. Qed.
(** show prints a tree for the arguments of check exactly when check accepts them *)
Theorem C66_show_check : forall w args vs rest, ~ asksHelp args -> commandLine checkArgs args vs rest ->
  ((exists fuel sh, show fuel w args = Ok (0%Z, Some sh)) <-> Exits (fun n => check n w args) 0).
Proof. exact show_check. Qed.
(** and in general they end with the same exit code *)
Theorem C66_generate_code : forall gendoc headCode w args vs rest code, ~ asksHelp args -> commandLine syntaxArgs args vs rest ->
  ((exists fuel o, generateCommand gendoc headCode neverFails fuel w args = Ok (code, o)) <-> Exits (fun n => checkSyntax n w args) code).
Proof. exact generate_checkSyntax_code. Qed.
Theorem C66_show_code : forall w args vs rest code, ~ asksHelp args -> commandLine checkArgs args vs rest ->
  ((exists fuel sh, show fuel w args = Ok (code, sh)) <-> Exits (fun n => check n w args) code).
Proof. exact show_check_code. Qed.
(** when check accepts an input, check-syntax accepts the syntax of it *)
Theorem C66_check_check_syntax : forall w args vs rest args' vs', ~ asksHelp args -> commandLine checkArgs args vs rest ->
  ~ asksHelp args' -> commandLine syntaxArgs args' vs' [] ->
  lastOf "syntax" vs' = lastOf "syntax" vs -> lastOf "syntax-string" vs' = lastOf "syntax-string" vs ->
  Exits (fun n => check n w args) 0 -> Exits (fun n => checkSyntax n w args') 0.
Proof. exact check_checkSyntax. Qed.
(** with a failing write, generate can fail for a syntax that check-syntax accepts *)
Theorem C66_failing_write_refuted : exists W w args, ~ asksHelp args /\ commandLine syntaxArgs args [("syntax-string", "a=""x""")] [] /\
  Exits (fun n => checkSyntax n w args) 0 /\ exists fuel o, generateCommand "doc" "code" W fuel w args = Ok ((-1)%Z, o).
Proof.
  exists (fun n => if Nat.eqb n 12 then Some 1 else None), (mkWorld (fun _ => None) None), ["-syntax-string"; "a=""x"""].
  split; [intros [r H]; discriminate|]. split; [apply (cl_value syntaxArgs "-" "syntax-string"); [simpl; auto|simpl; auto|apply cl_end]|].
  split; [exists 300; vm_compute; reflexivity|]. exists 300. eexists. vm_compute. reflexivity.
Qed.

Definition noWorld : world := mkWorld (fun _ => None) None.
Example C66_example :
  (~ asksHelp ["-syntax-string"; "a=""x"""] /\ commandLine syntaxArgs ["-syntax-string"; "a=""x"""] [("syntax-string", "a=""x""")] [] /\
   Exits (fun n => checkSyntax n noWorld ["-syntax-string"; "a=""x"""]) 0) /\
  (~ asksHelp ["-syntax-string"; "a=""x"""; "-input-string"; "x"] /\
   commandLine checkArgs ["-syntax-string"; "a=""x"""; "-input-string"; "x"] [("syntax-string", "a=""x"""); ("input-string", "x")] [] /\
   Exits (fun n => check n noWorld ["-syntax-string"; "a=""x"""; "-input-string"; "x"]) 0) /\
  Exits (fun n => check n noWorld ["-syntax-string"; "a=""x"""; "-input-string"; "y"]) (-1).
Proof.
  repeat split; try (intros [r H]; discriminate); try (exists 300; vm_compute; reflexivity).
  - apply (cl_value syntaxArgs "-" "syntax-string"); [simpl; auto|simpl; auto|apply cl_end].
  - apply (cl_value checkArgs "-" "syntax-string"); [simpl; auto|simpl; auto|]. apply (cl_value checkArgs "-" "input-string"); [simpl; auto 6|simpl; auto 6|apply cl_end].
Qed.
Print Assumptions C66_generate_check_syntax.
Print Assumptions C66_show_check.
Print Assumptions C66_generate_code.
Print Assumptions C66_show_code.
Print Assumptions C66_check_check_syntax.
Print Assumptions C66_failing_write_refuted.
