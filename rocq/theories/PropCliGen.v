(** Property C65: the generate command and the choice of the command. *)
From Verif Require Import Base Utf8 Parser Build Syntax Define InitSpec ApiSpec Cli CliSpec Generate GenSpec ArgSpec ArgFacts CliGen DefSpec CliGenFacts.
Local Open Scope string_scope.
Local Open Scope list_scope.

(** generate exits with 0 exactly when the arguments are well formed, the syntax can be read and
    Generate succeeds with the package name and the export option given; what it writes is what
    Generate writes, which is the subject of C32 *)
Theorem C65_generate : forall gendoc headCode W w args o, ~ asksHelp args ->
  ((exists fuel, generateCommand gendoc headCode W fuel w args = Ok (0%Z, o)) <->
   exists vs rest src bs e s s', commandLine generateArgs args vs rest /\
     takes w (syntaxGiven vs rest) src /\ delivers w src bs e /\ Reads bs e s /\
     Generates gendoc headCode (mkGenOptions (lastOf "package-name" vs) (switchedOn "export" vs)) W s s' o None).
Proof. exact generate_zero. Qed.
(** it stops; every other run that does not panic ends with -1, and a run has one result *)
Theorem C65_generate_ends_partial : forall gendoc headCode W w args,
  exists fuel, (exists code o, generateCommand gendoc headCode W fuel w args = Ok (code, o) /\ (code = 0%Z \/ code = (-1)%Z)) \/
    exists why, generateCommand gendoc headCode W fuel w args = Panic why.
Proof.
  intros gd hc W w args. destruct (generateCommand_ends gd hc W w args) as (fuel & H). specialize (H fuel (Nat.le_refl _)). exists fuel.
  destruct (generateCommand gd hc W fuel w args) as [[code o]|why|] eqn:E; [left|right|contradiction]; eauto.
  exists code, o. split; auto. eapply generate_codes; eauto.
Qed.
Theorem C65_generate_one : forall gendoc headCode W w args n m r r',
  generateCommand gendoc headCode W n w args = Ok r -> generateCommand gendoc headCode W m w args = Ok r' -> r = r'.
Proof. exact generate_one. Qed.
Theorem C65_generate_help : forall gendoc headCode W fuel w args, asksHelp args -> generateCommand gendoc headCode W fuel w args = Ok (0%Z, noOutput).
Proof. exact generate_help. Qed.
(** the first argument of the program names the command, which gets the other arguments; its exit code
    is the one of the program *)
Theorem C65_main : forall gendoc headCode W w prog cmd args code,
  Exits (fun n => mainExit gendoc headCode W n w (prog :: cmd :: args)) code <->
  (cmd = "check-syntax" /\ Exits (fun n => checkSyntax n w args) code) \/
  (cmd = "generate" /\ exists fuel o, generateCommand gendoc headCode W fuel w args = Ok (code, o)) \/
  (cmd = "check" /\ Exits (fun n => check n w args) code) \/
  (cmd = "show" /\ exists fuel sh, show fuel w args = Ok (code, sh)) \/
  (In cmd ["help"; "-help"] /\ code = 0%Z) \/
  (~ In cmd ["check-syntax"; "generate"; "check"; "show"; "help"; "-help"] /\ code = (-1)%Z).
Proof. exact main_dispatch. Qed.
Theorem C65_no_command : forall gendoc headCode W w osArgs, List.length osArgs <= 1 -> Exits (fun n => mainExit gendoc headCode W n w osArgs) (-1)%Z.
Proof. exact main_none. Qed.
(** Generate stops, after any history of calls *)
Theorem C65_generate_terminates : forall gendoc headCode opts W s, reachable s ->
  exists fuel0, forall fuel, fuel0 <= fuel -> Generate gendoc headCode opts W fuel s <> NoFuel.
Proof. exact Generate_terminates. Qed.

Definition someWorld : world := mkWorld (fun _ => None) (Some (bytesOf "a=""x"" b", REof)).
Example C65_example : exists o, (exists fuel, generateCommand "doc" "code" neverFails fuel someWorld ["-export"; "--package-name=p"; "-syntax-string"; "a=""x"""] = Ok (0%Z, o)) /\
  ~ asksHelp ["-export"; "--package-name=p"; "-syntax-string"; "a=""x"""] /\
  beginning ["doc"; newline; newline; "package p"; newline; newline; "code"; newline; newline; "func Parse(r io.Reader) (*Node, error) {"; newline] (oTexts o).
Proof.
  eexists. split; [exists 300; vm_compute; reflexivity|]. split; [intros [r H]; discriminate|]. eexists. vm_compute. reflexivity.
Qed.
Example C65_example_fails : exists o, (exists fuel, generateCommand "doc" "code" neverFails fuel someWorld [] = Ok ((-1)%Z, o)) /\
  Exits (fun n => mainExit "doc" "code" neverFails n someWorld ["treerack"; "check-syntax"; "-syntax-string"; "a=""x"""]) 0 /\
  Exits (fun n => mainExit "doc" "code" neverFails n someWorld ["treerack"; "checksyntax"; "-syntax-string"; "a=""x"""]) (-1).
Proof.
  exists noOutput. repeat split; exists 300; vm_compute; reflexivity.
Qed.

(** when the sources have no invalid characters there is no panic: generate and check-syntax exit with
    0 or -1 *)
Theorem C65_generate_returns : forall gendoc headCode W w args, cleanSources w ->
  (forall vs rest, commandLine generateArgs args vs rest -> cleanOptions (syntaxGiven vs rest)) ->
  exists fuel code o, generateCommand gendoc headCode W fuel w args = Ok (code, o) /\ (code = 0%Z \/ code = (-1)%Z).
Proof. exact generate_returns. Qed.
Theorem C38_check_syntax_returns_partial : forall w args, cleanSources w ->
  (forall vs rest, commandLine syntaxArgs args vs rest -> cleanOptions (syntaxGiven vs rest)) ->
  Exits (fun n => checkSyntax n w args) 0 \/ Exits (fun n => checkSyntax n w args) (-1).
Proof. exact checkSyntax_returns. Qed.
(** Generate returns for every syntax made by successful calls, and whatever writes fail *)
Theorem C65_returns : forall gendoc headCode opts W s, made s -> exists s' o err, Generates gendoc headCode opts W s s' o err.
Proof. exact Generate_returns. Qed.
(** with an invalid character in the syntax text it panics *)
Theorem C65_invalid_refuted : exists w args, ~ asksHelp args /\ exists fuel why, generateCommand "doc" "code" neverFails fuel w args = Panic why.
Proof.
  exists (mkWorld (fun _ => None) (Some ([97; 61; 255]%Z, REof))), []. split; [intros [r H]; discriminate|]. exists 300. eexists. vm_compute. reflexivity.
Qed.
Example C65_clean_example : cleanSources someWorld /\ forall vs rest, commandLine generateArgs ["-syntax-string"; "a=""x"""] vs rest -> cleanOptions (syntaxGiven vs rest).
Proof.
  split.
  - intros src bs e Hs H. inversion H; subst; [discriminate|intros []|exfalso; eapply Hs; eauto|]. injection H0 as <- <-. vm_compute. intuition discriminate.
  - intros vs rest H. assert (K : commandLine generateArgs ["-syntax-string"; "a=""x"""] [("syntax-string", "a=""x""")] []).
    { apply (cl_value generateArgs "-" "syntax-string"); [simpl; auto|simpl; auto|apply cl_end]. }
    destruct (line_one _ _ _ _ _ _ generateArgs_plain H K) as [-> ->]. vm_compute. intuition discriminate.
Qed.

Print Assumptions C65_generate_returns.
Print Assumptions C38_check_syntax_returns_partial.
Print Assumptions C65_returns.
Print Assumptions C65_invalid_refuted.
Print Assumptions C65_generate.
Print Assumptions C65_generate_ends_partial.
Print Assumptions C65_generate_one.
Print Assumptions C65_generate_help.
Print Assumptions C65_main.
Print Assumptions C65_no_command.
Print Assumptions C65_generate_terminates.
