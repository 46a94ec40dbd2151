(** Only what the sources deliver decides the result of a command, not where it comes from. *)
From Verif Require Import Base Utf8 Parser Build Syntax Define InitSpec ApiSpec Cli CliSpec CliFacts Generate GenSpec ArgSpec ArgFacts CliGen DefSpec CliGenFacts SourceSpec.
Local Open Scope string_scope.
Local Open Scope list_scope.

Lemma takes_one w o a b : takes w o a -> takes w o b -> a = b.
Proof. intros A B. apply getSource_takes in A. apply getSource_takes in B. congruence. Qed.
Lemma delivers_one w src bs e bs' e' : delivers w src bs e -> delivers w src bs' e' -> bs = bs' /\ e = e'.
Proof. intros A B. destruct A; inversion B; subst; try contradiction; auto; split; congruence. Qed.
Lemma deliversAfter_one w src1 src2 bs e bs' e' : deliversAfter w src1 src2 bs e -> deliversAfter w src1 src2 bs' e' -> bs = bs' /\ e = e'.
Proof.
  intros A B. destruct A; inversion B; subst; auto; try (exfalso; tauto). eapply delivers_one; eauto.
Qed.
Lemma syntaxHas_one w vs rest bs e src bs' e' : syntaxHas w vs rest bs e -> takes w (syntaxGiven vs rest) src -> delivers w src bs' e' -> bs' = bs /\ e' = e.
Proof. intros (src0 & T & D) T' D'. rewrite (takes_one _ _ _ _ T' T) in D'. eapply delivers_one; eauto. Qed.

Lemma treeFrom_bytes w vs rest bs1 e1 bs2 e2 t toks : syntaxHas w vs [] bs1 e1 -> inputHas w vs rest bs2 e2 ->
  (treeFrom w vs rest t toks <-> exists s s', Reads bs1 e1 s /\ Parses s (decodeUtf8 bs2) e2 s' (Tree t toks)).
Proof.
  intros HS HI. split.
  - intros (src1 & b1 & f1 & s & src2 & b2 & f2 & s' & T1 & D1 & R & T2 & D2 & P). destruct (syntaxHas_one _ _ _ _ _ _ _ _ HS T1 D1) as [-> ->].
    destruct HI as (x1 & x2 & A1 & A2 & A3). rewrite (takes_one _ _ _ _ A1 T1), (takes_one _ _ _ _ A2 T2) in A3. destruct (deliversAfter_one _ _ _ _ _ _ _ A3 D2) as [-> ->]. eauto.
  - intros (s & s' & R & P). destruct HS as (x & Tx & Dx). destruct HI as (x1 & x2 & A1 & A2 & A3). rewrite (takes_one _ _ _ _ A1 Tx) in A3.
    exists x, bs1, e1, s, x2, bs2, e2, s'. repeat (split; auto).
Qed.
Lemma check_bytes w args vs rest bs1 e1 bs2 e2 : ~ asksHelp args -> commandLine checkArgs args vs rest ->
  syntaxHas w vs [] bs1 e1 -> inputHas w vs rest bs2 e2 ->
  (Exits (fun n => check n w args) 0 <-> exists s s' t toks, Reads bs1 e1 s /\ Parses s (decodeUtf8 bs2) e2 s' (Tree t toks)).
Proof.
  intros Hh L HS HI. rewrite (check_line w args Hh). split.
  - intros (v2 & r2 & t & toks & L2 & T). destruct (line_one _ _ _ _ _ _ checkArgs_plain L2 L) as [-> ->].
    apply (treeFrom_bytes _ _ _ _ _ _ _ _ _ HS HI) in T. destruct T as (s & s' & A & B). eauto 8.
  - intros (s & s' & t & toks & A & B). exists vs, rest, t, toks. split; auto. apply (treeFrom_bytes _ _ _ _ _ _ _ _ _ HS HI). eauto.
Qed.
Lemma show_bytes w args vs rest bs1 e1 bs2 e2 sh : ~ asksHelp args -> commandLine showArgs args vs rest ->
  syntaxHas w vs [] bs1 e1 -> inputHas w vs rest bs2 e2 ->
  ((exists fuel, show fuel w args = Ok (0%Z, Some sh)) <-> exists s s' t toks, Reads bs1 e1 s /\ Parses s (decodeUtf8 bs2) e2 s' (Tree t toks) /\ sh = mapNode toks t).
Proof.
  intros Hh L HS HI. rewrite (show_line w args sh Hh). split.
  - intros (v2 & r2 & t & toks & L2 & T & ->). destruct (line_one _ _ _ _ _ _ showArgs_plain L2 L) as [-> ->].
    apply (treeFrom_bytes _ _ _ _ _ _ _ _ _ HS HI) in T. destruct T as (s & s' & A & B). eauto 9.
  - intros (s & s' & t & toks & A & B & ->). exists vs, rest, t, toks. split; auto. split; auto. apply (treeFrom_bytes _ _ _ _ _ _ _ _ _ HS HI). eauto.
Qed.
Lemma checkSyntax_bytes w args vs rest bs e : ~ asksHelp args -> commandLine syntaxArgs args vs rest -> syntaxHas w vs rest bs e ->
  (Exits (fun n => checkSyntax n w args) 0 <-> exists s s', Reads bs e s /\ Inits s s' None).
Proof.
  intros Hh L HS. rewrite (checkSyntax_line w args Hh). split.
  - intros (v2 & r2 & src & b & f & s & s' & L2 & T & D & R & I). destruct (line_one _ _ _ _ _ _ syntaxArgs_plain L2 L) as [-> ->].
    destruct (syntaxHas_one _ _ _ _ _ _ _ _ HS T D) as [-> ->]. eauto.
  - intros (s & s' & R & I). destruct HS as (src & T & D). exists vs, rest, src, bs, e, s, s'. repeat (split; auto).
Qed.
Lemma generate_bytes gd hc W w args vs rest bs e o : ~ asksHelp args -> commandLine generateArgs args vs rest -> syntaxHas w vs rest bs e ->
  ((exists fuel, generateCommand gd hc W fuel w args = Ok (0%Z, o)) <->
   exists s s', Reads bs e s /\ Generates gd hc (mkGenOptions (lastOf "package-name" vs) (switchedOn "export" vs)) W s s' o None).
Proof.
  intros Hh L HS. rewrite (generate_zero gd hc W w args o Hh). split.
  - intros (v2 & r2 & src & b & f & s & s' & L2 & T & D & R & I). destruct (line_one _ _ _ _ _ _ generateArgs_plain L2 L) as [-> ->].
    destruct (syntaxHas_one _ _ _ _ _ _ _ _ HS T D) as [-> ->]. eauto.
  - intros (s & s' & R & I). destruct HS as (src & T & D). exists vs, rest, src, bs, e, s, s'. repeat (split; auto).
Qed.

(** ** the whole result is a function of the content *)
Definition syntaxResult (fuel : nat) (bs : list Z) (e : rend) : res (option syntax) :=
  x <- ReadSyntax fuel emptySyntax (decodeUtf8 bs) e ;; Ok (match x with (s, None) => Some s | (_, Some _) => None end).
Lemma openSyntax_bytes fuel w vs rest bs e src : takes w (syntaxGiven vs rest) src -> delivers w src bs e ->
  exists used, (src = SrcInput <-> used = true) /\
    openSyntax fuel w (syntaxGiven vs rest) = (x <- syntaxResult fuel bs e ;; Ok (match x with Some s => Some (s, used) | None => None end)).
Proof.
  intros T D. apply getSource_takes in T. destruct (openSource_give _ _ _ _ _ T D) as (src0 & E & Hs).
  exists (match src0 with SrcInput => true | _ => false end). split; [rewrite <- Hs; destruct src0; split; auto; discriminate|].
  unfold openSyntax, syntaxResult. rewrite E. destruct (ReadSyntax fuel emptySyntax (decodeUtf8 bs) e) as [[s [er|]]| |]; reflexivity.
Qed.
Lemma parseCommand_bytes fuel w vs rest bs1 e1 bs2 e2 : syntaxHas w vs [] bs1 e1 -> inputHas w vs rest bs2 e2 ->
  parseCommand fuel w (rev vs) rest =
  (so <- syntaxResult fuel bs1 e1 ;;
   match so with
   | None => Ok None
   | Some s => x <- Parse fuel s (decodeUtf8 bs2) e2 ;; match x with (_, Tree n toks) => Ok (Some (n, toks)) | (_, Failed _) => Ok None end
   end).
Proof.
  intros (src & T & D) (x1 & x2 & A1 & A2 & A3). rewrite (takes_one _ _ _ _ A1 T) in A3. destruct (openSyntax_bytes fuel _ _ _ _ _ _ T D) as (used & Hu & O).
  unfold parseCommand. rewrite syntaxOptions_given, O, inputOptions_given. destruct (syntaxResult fuel bs1 e1) as [[s|]| |]; try reflexivity. simpl.
  apply getSource_takes in A2. destruct (openSource_give_after _ _ _ _ _ _ _ A2 A3 Hu) as [src3 O3]. rewrite O3. reflexivity.
Qed.
Lemma line_flags flags args vs rest : plainFlags flags -> commandLine flags args vs rest -> parseFlags flags args [] = Some (rev vs, rest).
Proof. intros P L. apply flags_line; eauto. Qed.

Theorem check_same w args vs rest w' args' vs' rest' bs1 e1 bs2 e2 :
  ~ asksHelp args -> commandLine checkArgs args vs rest -> syntaxHas w vs [] bs1 e1 -> inputHas w vs rest bs2 e2 ->
  ~ asksHelp args' -> commandLine checkArgs args' vs' rest' -> syntaxHas w' vs' [] bs1 e1 -> inputHas w' vs' rest' bs2 e2 ->
  forall fuel, check fuel w args = check fuel w' args'.
Proof.
  intros H L S I H' L' S' I' fuel. unfold check. change (syntaxFlags ++ inputFlags) with checkArgs.
  rewrite (not_help _ H), (not_help _ H'), (line_flags _ _ _ _ checkArgs_plain L), (line_flags _ _ _ _ checkArgs_plain L').
  rewrite (parseCommand_bytes fuel _ _ _ _ _ _ _ S I), (parseCommand_bytes fuel _ _ _ _ _ _ _ S' I'). reflexivity.
Qed.
Theorem show_same w args vs rest w' args' vs' rest' bs1 e1 bs2 e2 :
  ~ asksHelp args -> commandLine showArgs args vs rest -> syntaxHas w vs [] bs1 e1 -> inputHas w vs rest bs2 e2 ->
  ~ asksHelp args' -> commandLine showArgs args' vs' rest' -> syntaxHas w' vs' [] bs1 e1 -> inputHas w' vs' rest' bs2 e2 ->
  forall fuel, show fuel w args = show fuel w' args'.
Proof.
  intros H L S I H' L' S' I' fuel. unfold show. change showFlags with showArgs.
  rewrite (not_help _ H), (not_help _ H'), (line_flags _ _ _ _ showArgs_plain L), (line_flags _ _ _ _ showArgs_plain L').
  rewrite (parseCommand_bytes fuel _ _ _ _ _ _ _ S I), (parseCommand_bytes fuel _ _ _ _ _ _ _ S' I'). reflexivity.
Qed.
Theorem checkSyntax_same w args vs rest w' args' vs' rest' bs e :
  ~ asksHelp args -> commandLine syntaxArgs args vs rest -> syntaxHas w vs rest bs e ->
  ~ asksHelp args' -> commandLine syntaxArgs args' vs' rest' -> syntaxHas w' vs' rest' bs e ->
  forall fuel, checkSyntax fuel w args = checkSyntax fuel w' args'.
Proof.
  intros H L (src & T & D) H' L' (src' & T' & D') fuel. unfold checkSyntax. change syntaxFlags with syntaxArgs.
  rewrite (not_help _ H), (not_help _ H'), (line_flags _ _ _ _ syntaxArgs_plain L), (line_flags _ _ _ _ syntaxArgs_plain L'), !syntaxOptions_given.
  destruct (openSyntax_bytes fuel _ _ _ _ _ _ T D) as (u & _ & O). destruct (openSyntax_bytes fuel _ _ _ _ _ _ T' D') as (u' & _ & O'). rewrite O, O'.
  destruct (syntaxResult fuel bs e) as [[s|]| |]; reflexivity.
Qed.
Theorem generate_same gd hc W w args vs rest w' args' vs' rest' bs e :
  ~ asksHelp args -> commandLine generateArgs args vs rest -> syntaxHas w vs rest bs e ->
  ~ asksHelp args' -> commandLine generateArgs args' vs' rest' -> syntaxHas w' vs' rest' bs e ->
  lastOf "package-name" vs = lastOf "package-name" vs' -> switchedOn "export" vs = switchedOn "export" vs' ->
  forall fuel, generateCommand gd hc W fuel w args = generateCommand gd hc W fuel w' args'.
Proof.
  intros H L (src & T & D) H' L' (src' & T' & D') E1 E2 fuel. unfold generateCommand.
  rewrite (not_help _ H), (not_help _ H'), (proj2 (generateFlags_args args (rev vs) rest)), (proj2 (generateFlags_args args' (rev vs') rest')) by eauto.
  rewrite !syntaxOptions_given, !flagValue_last, E1.
  replace (flagSwitch "export" (rev vs)) with (flagSwitch "export" (rev vs')) by (rewrite !flagSwitch_on; auto).
  destruct (openSyntax_bytes fuel _ _ _ _ _ _ T D) as (u & _ & O). destruct (openSyntax_bytes fuel _ _ _ _ _ _ T' D') as (u' & _ & O'). rewrite O, O'.
  destruct (syntaxResult fuel bs e) as [[s|]| |]; reflexivity.
Qed.
