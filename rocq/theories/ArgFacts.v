(** The flags of a command are parsed as ArgSpec.v says. *)
From Verif Require Import Base Utf8 Parser Build Syntax Define ApiSpec Cli CliSpec CliFacts FuelFacts Json JsonSpec JsonFacts ArgSpec.
Local Open Scope string_scope.
Local Open Scope list_scope.

Fixpoint noEquals (s : string) : bool := match s with EmptyString => true | String c r => negb (Ascii.eqb c "=") && noEquals r end.
Definition plainName (s : string) : bool := match s with EmptyString => false | String c r => negb (Ascii.eqb c "-") && noEquals s end.
Definition plainFlags (flags : list (string * bool)) : Prop := Forall (fun f => plainName (fst f) = true) flags /\ NoDup (map fst flags).

Lemma splitFlag_plain n : noEquals n = true -> splitFlag n = (n, None).
Proof. induction n as [|c n IH]; simpl; auto. intros H. apply andb_prop in H. destruct H as [H1 H2]. destruct (Ascii.eqb c "="); [discriminate|]. rewrite IH; auto. Qed.
Lemma splitFlag_equals n v : noEquals n = true -> splitFlag (n ++ String "=" v) = (n, Some v).
Proof. induction n as [|c n IH]; simpl; auto. intros H. apply andb_prop in H. destruct H as [H1 H2]. destruct (Ascii.eqb c "="); [discriminate|]. rewrite IH; auto. Qed.
Lemma splitFlag_inv s : forall n v, splitFlag s = (n, v) -> match v with None => s = n | Some x => s = (n ++ String "=" x)%string end.
Proof.
  induction s as [|c s IH]; simpl; intros n v H; [inversion H; auto|].
  destruct (Ascii.eqb_spec c "=") as [->|Hc]; [inversion H; auto|]. destruct (splitFlag s) as [n' v']. inversion H; subst. specialize (IH _ _ eq_refl). destruct v; simpl; congruence.
Qed.
Lemma splitName_inv s n v : splitName s = (n, v) -> match v with None => s = n | Some x => s = (n ++ String "=" x)%string end.
Proof. destruct s as [|c s]; simpl; intros H; [inversion H; auto|]. destruct (splitFlag s) as [n' v'] eqn:E. apply splitFlag_inv in E. inversion H; subst. destruct v; simpl; congruence. Qed.
Lemma splitName_plain n : plainName n = true -> splitName n = (n, None).
Proof. destruct n as [|c n]; [discriminate|]. simpl. intros H. repeat (apply andb_prop in H; destruct H as [? H]). rewrite splitFlag_plain; auto. Qed.
Lemma splitName_equals n v : plainName n = true -> splitName (n ++ String "=" v) = (n, Some v).
Proof. destruct n as [|c n]; [discriminate|]. simpl. intros H. repeat (apply andb_prop in H; destruct H as [? H]). rewrite splitFlag_equals; auto. Qed.

Lemma flagArg_name s full : flagArgOf s = FaName full -> s = ("-" ++ full)%string \/ s = ("--" ++ full)%string.
Proof.
  unfold flagArgOf. destruct s as [|c s]; [discriminate|]. intros H. 
  destruct (Ascii.eqb_spec c "-") as [->|Hc].
  - destruct s as [|d s]; [discriminate|]. destruct (Ascii.eqb_spec d "-") as [->|Hd].
    + destruct s as [|x s]; [discriminate|]. right. simpl. f_equal. f_equal. destruct x as [[] [] [] [] [] [] [] []]; simpl in H; congruence.
    + left. simpl. f_equal. destruct d as [[] [] [] [] [] [] [] []]; simpl in *; congruence.
  - exfalso. destruct c as [[] [] [] [] [] [] [] []]; try discriminate; congruence.
Qed.
Lemma flagArg_stop s : flagArgOf s = FaStop -> s = "-" \/ forall r, s <> ("-" ++ r)%string.
Proof.
  intros H. destruct s as [|c s]; [right; intros r X; discriminate|]. destruct (Ascii.eqb_spec c "-") as [->|Hc]; [|right; intros r X; inversion X; congruence].
  destruct s as [|d s]; [auto|]. exfalso. unfold flagArgOf in H. destruct (Ascii.eqb_spec d "-") as [->|Hd].
  - destruct s as [|x s]; [discriminate|]. destruct x as [[] [] [] [] [] [] [] []]; simpl in H; congruence.
  - destruct d as [[] [] [] [] [] [] [] []]; simpl in *; congruence.
Qed.
Lemma flagArg_end s : flagArgOf s = FaEnd -> s = "--".
Proof.
  intros H. destruct s as [|c s]; [discriminate|]. destruct (Ascii.eqb_spec c "-") as [->|Hc].
  - unfold flagArgOf in H. destruct s as [|d s]; [discriminate|]. destruct (Ascii.eqb_spec d "-") as [->|Hd].
    + destruct s as [|x s]; [auto|]. destruct x as [[] [] [] [] [] [] [] []]; simpl in H; congruence.
    + destruct d as [[] [] [] [] [] [] [] []]; simpl in *; congruence.
  - exfalso. unfold flagArgOf in H. destruct c as [[] [] [] [] [] [] [] []]; try discriminate; congruence.
Qed.
Lemma flagArg_word a : a = "-" \/ (forall r, a <> ("-" ++ r)%string) -> flagArgOf a = FaStop.
Proof.
  intros [->|H]; [reflexivity|]. destruct a as [|c s]; [reflexivity|]. destruct (Ascii.eqb_spec c "-") as [->|Hc]; [exfalso; apply (H s); auto|].
  destruct c as [[] [] [] [] [] [] [] []]; try reflexivity; congruence.
Qed.
Lemma flagArg_dash dash n x : In dash ["-"; "--"] -> plainName n = true -> flagArgOf (dash ++ n ++ x) = FaName (n ++ x).
Proof.
  intros Hd Hn. destruct n as [|c n]; [discriminate|]. simpl in Hn. apply andb_prop in Hn. destruct Hn as [H1 H2]. apply andb_prop in H2. destruct H2 as [H2 _].
  destruct Hd as [<-|[<-|[]]]; simpl; destruct c as [[] [] [] [] [] [] [] []]; simpl in *; try reflexivity; discriminate.
Qed.
Lemma append_nil s : (s ++ "")%string = s.
Proof. induction s; simpl; congruence. Qed.
Lemma find_flag (flags : list (string * bool)) name b : NoDup (map fst flags) -> In (name, b) flags -> find (fun f : string * bool => String.eqb (fst f) name) flags = Some (name, b).
Proof.
  induction flags as [|[n x] flags IH]; [intros _ []|]. simpl. intros Hn [H|H].
  - inversion H; subst. rewrite String.eqb_refl. auto.
  - inversion Hn; subst. destruct (String.eqb_spec n name) as [->|]; [|auto]. exfalso. apply H2. apply (in_map fst) in H. exact H.
Qed.
Lemma parseBool_words v : (exists b, parseBool v = Some b) <-> In v (trueWords ++ falseWords).
Proof.
  unfold parseBool. rewrite in_app_iff. split.
  - intros [b H]. destruct (existsb _ _) eqn:E1; [left|destruct (existsb _ ["0"; _; _; _; _; _]) eqn:E2; [right|discriminate]].
    + apply existsb_exists in E1. destruct E1 as (x & Hx & E). apply String.eqb_eq in E. subst. auto.
    + apply existsb_exists in E2. destruct E2 as (x & Hx & E). apply String.eqb_eq in E. subst. auto.
  - intros H. destruct (existsb (String.eqb v) ["1"; "t"; "T"; "true"; "TRUE"; "True"]) eqn:E1; eauto.
    destruct H as [H|H].
    + exfalso. assert (X : existsb (String.eqb v) trueWords = true) by (apply existsb_exists; exists v; split; auto; apply String.eqb_refl). unfold trueWords in X. congruence.
    + assert (X : existsb (String.eqb v) falseWords = true) by (apply existsb_exists; exists v; split; auto; apply String.eqb_refl). unfold falseWords in X. rewrite X. eauto.
Qed.

Lemma parseFlags_line flags n : forall args acc v rest, List.length args <= n -> parseFlags flags args acc = Some (v, rest) ->
  exists vs, commandLine flags args vs rest /\ v = rev vs ++ acc.
Proof.
  induction n as [|n IH]; intros args acc v rest Hl H.
  { destruct args; simpl in Hl; [|lia]. inversion H; subst. exists []. split; [constructor|auto]. }
  destruct args as [|s args].
  { inversion H; subst. exists []. split; [constructor|auto]. }
  simpl in Hl. cbn [parseFlags] in H. destruct (flagArgOf s) as [| | |full] eqn:Ef.
  - inversion H; subst. exists []. split; [|auto]. apply cl_word. apply flagArg_stop. auto.
  - inversion H; subst. apply flagArg_end in Ef. subst. exists []. split; [constructor|auto].
  - discriminate.
  - destruct (splitName full) as [name value] eqn:Es. apply splitName_inv in Es. apply flagArg_name in Ef.
    destruct (find _ flags) as [[n' b]|] eqn:Efi; [|discriminate]. apply find_some in Efi. destruct Efi as [Hin He]. apply String.eqb_eq in He. simpl in He. subst n'.
    assert (Hd : exists dash, In dash ["-"; "--"] /\ s = (dash ++ full)%string) by (destruct Ef as [->| ->]; eexists; (split; [|reflexivity]); simpl; auto).
    destruct Hd as (dash & Hd & ->). clear Ef. 
    assert (Hcons : forall (x : string * string) vs, rev vs ++ x :: acc = rev (x :: vs) ++ acc) by (intros; simpl; rewrite <- app_assoc; auto).
    destruct b.
    + destruct value as [x|].
      * destruct (parseBool x) eqn:Eb; [|discriminate]. subst full. apply IH in H; [|lia]. destruct H as (vs & Hv & ->). exists ((name, x) :: vs). split; [|apply Hcons].
        apply (cl_switched flags dash name x); auto. apply parseBool_words. eauto.
      * subst full. apply IH in H; [|lia]. destruct H as (vs & Hv & ->). exists ((name, "true") :: vs). split; [|apply Hcons]. apply cl_switch; auto.
    + destruct value as [x|].
      * subst full. apply IH in H; [|lia]. destruct H as (vs & Hv & ->). exists ((name, x) :: vs). split; [|apply Hcons]. apply (cl_equals flags dash name x); auto.
      * subst full. destruct args as [|x args]; [discriminate|]. simpl in Hl. apply IH in H; [|lia]. destruct H as (vs & Hv & ->). exists ((name, x) :: vs). split; [|apply Hcons]. apply cl_value; auto.
Qed.
Lemma line_parseFlags flags args vs rest : plainFlags flags -> commandLine flags args vs rest ->
  forall acc, parseFlags flags args acc = Some (rev vs ++ acc, rest).
Proof.
  intros [Hp Hn] H. rewrite Forall_forall in Hp.
  assert (Hcons : forall (x : string * string) vs acc, rev vs ++ x :: acc = rev (x :: vs) ++ acc) by (intros; simpl; rewrite <- app_assoc; auto).
  induction H as [|a args Ha|args|dash name value args vs rest Hd Hi Hr IH|dash name value args vs rest Hd Hi Hr IH|dash name args vs rest Hd Hi Hr IH|dash name value args vs rest Hd Hi Hv Hr IH]; intros acc; auto.
  - cbn [parseFlags]. rewrite (flagArg_word _ Ha). auto.
  - pose proof (Hp _ Hi) as Hpl. simpl in Hpl. cbn [parseFlags]. rewrite <- (append_nil name) at 1. rewrite flagArg_dash; auto. rewrite append_nil, splitName_plain; auto. rewrite (find_flag _ _ _ Hn Hi). rewrite IH, Hcons. auto.
  - pose proof (Hp _ Hi) as Hpl. simpl in Hpl. cbn [parseFlags]. rewrite flagArg_dash; auto. change ("=" ++ value)%string with (String "=" value). rewrite splitName_equals; auto. rewrite (find_flag _ _ _ Hn Hi). rewrite IH, Hcons. auto.
  - pose proof (Hp _ Hi) as Hpl. simpl in Hpl. cbn [parseFlags]. rewrite <- (append_nil name) at 1. rewrite flagArg_dash; auto. rewrite append_nil, splitName_plain; auto. rewrite (find_flag _ _ _ Hn Hi). rewrite IH, Hcons. auto.
  - pose proof (Hp _ Hi) as Hpl. simpl in Hpl. cbn [parseFlags]. rewrite flagArg_dash; auto. change ("=" ++ value)%string with (String "=" value). rewrite splitName_equals; auto. rewrite (find_flag _ _ _ Hn Hi).
    apply parseBool_words in Hv. destruct Hv as [b Hv]. rewrite Hv. rewrite IH, Hcons. auto.
Qed.
Lemma flags_line flags args v rest : plainFlags flags ->
  (parseFlags flags args [] = Some (v, rest) <-> exists vs, commandLine flags args vs rest /\ v = rev vs).
Proof.
  intros Hp. split.
  - intros H. apply parseFlags_line with (n := List.length args) in H; auto. destruct H as (vs & H & ->). rewrite app_nil_r. eauto.
  - intros (vs & H & ->). rewrite (line_parseFlags _ _ _ _ Hp H). rewrite app_nil_r. auto.
Qed.
Lemma flagValue_last name vs : flagValue name (rev vs) = lastOf name vs.
Proof.
  induction vs as [|[n x] vs IH] using rev_ind; [reflexivity|]. rewrite rev_app_distr. unfold lastOf. rewrite fold_left_app. simpl. unfold flagValue. simpl.
  destruct (String.eqb n name); [reflexivity|]. exact IH.
Qed.
Lemma syntaxOptions_given vs rest : syntaxOptions (rev vs) rest = syntaxGiven vs rest.
Proof. unfold syntaxOptions, syntaxGiven. rewrite !flagValue_last. auto. Qed.
Lemma inputOptions_given vs rest : inputOptions (rev vs) rest = inputGiven vs rest.
Proof. unfold inputOptions, inputGiven. rewrite !flagValue_last. auto. Qed.
Lemma parsesWith_from w vs rest t toks : parsesWith w (rev vs) rest t toks <-> treeFrom w vs rest t toks.
Proof. unfold parsesWith, treeFrom. rewrite syntaxOptions_given, inputOptions_given. tauto. Qed.
Lemma isHelp_asks args : isHelp args = true <-> asksHelp args.
Proof.
  unfold isHelp, asksHelp. destruct args as [|a args]; [split; [discriminate|intros [r H]; discriminate]|].
  destruct (String.eqb_spec a "-help") as [->|H]; split; intros K; eauto; [discriminate|]. destruct K as [r K]. inversion K; congruence.
Qed.
Lemma not_help args : ~ asksHelp args -> isHelp args = false.
Proof. intros H. destruct (isHelp args) eqn:E; auto. apply isHelp_asks in E. contradiction. Qed.
Ltac plain := split; [repeat constructor|simpl; repeat constructor; simpl; intuition discriminate].
Lemma syntaxArgs_plain : plainFlags syntaxArgs. Proof. plain. Qed.
Lemma checkArgs_plain : plainFlags checkArgs. Proof. plain. Qed.
Lemma showArgs_plain : plainFlags showArgs. Proof. plain. Qed.

Theorem check_line w args : ~ asksHelp args ->
  (Exits (fun n => check n w args) 0 <-> exists vs rest t toks, commandLine checkArgs args vs rest /\ treeFrom w vs rest t toks).
Proof.
  intros Hh. rewrite (check_zero w args (not_help _ Hh)). change (syntaxFlags ++ inputFlags) with checkArgs. split.
  - intros (v & rest & t & toks & H & P). apply (flags_line _ _ _ _ checkArgs_plain) in H. destruct H as (vs & H & ->). apply parsesWith_from in P. eauto 8.
  - intros (vs & rest & t & toks & H & P). apply parsesWith_from in P. exists (rev vs), rest, t, toks. split; auto. apply (flags_line _ _ _ _ checkArgs_plain). eauto.
Qed.
Theorem checkSyntax_line w args : ~ asksHelp args ->
  (Exits (fun n => checkSyntax n w args) 0 <->
   exists vs rest src bs e s s', commandLine syntaxArgs args vs rest /\
     takes w (syntaxGiven vs rest) src /\ delivers w src bs e /\ Reads bs e s /\ Inits s s' None).
Proof.
  intros Hh. rewrite (checkSyntax_zero w args (not_help _ Hh)). change syntaxFlags with syntaxArgs. split.
  - intros (v & rest & src & bs & e & s & s' & H & P). apply (flags_line _ _ _ _ syntaxArgs_plain) in H. destruct H as (vs & H & ->). rewrite syntaxOptions_given in P. exists vs, rest, src, bs, e, s, s'. auto.
  - intros (vs & rest & src & bs & e & s & s' & H & P). rewrite <- syntaxOptions_given in P. exists (rev vs), rest, src, bs, e, s, s'. split; auto. apply (flags_line _ _ _ _ syntaxArgs_plain). eauto.
Qed.
Theorem show_line w args sh : ~ asksHelp args ->
  ((exists fuel, show fuel w args = Ok (0%Z, Some sh)) <->
   exists vs rest t toks, commandLine showArgs args vs rest /\ treeFrom w vs rest t toks /\ sh = mapNode toks t).
Proof.
  intros Hh. rewrite (show_prints w args sh (not_help _ Hh)). change showFlags with showArgs. split.
  - intros (v & rest & t & toks & H & P & E). apply (flags_line _ _ _ _ showArgs_plain) in H. destruct H as (vs & H & ->). apply parsesWith_from in P. exists vs, rest, t, toks. auto.
  - intros (vs & rest & t & toks & H & P & E). apply parsesWith_from in P. exists (rev vs), rest, t, toks. split; auto. apply (flags_line _ _ _ _ showArgs_plain). eauto.
Qed.
Theorem show_text_line modern w args vs rest code text : ~ asksHelp args -> commandLine showArgs args vs rest -> blank (lastOf "indent" vs) ->
  (exists fuel, showText modern fuel w args = Ok (code, Some text)) ->
  exists t toks j d, treeFrom w vs rest t toks /\ code = 0%Z /\ readJson text = Some j /\ describes j d /\ described toks t d.
Proof.
  intros Hh Hv B H. rewrite <- flagValue_last in B. assert (Hp : parseFlags showFlags args [] = Some (rev vs, rest)) by (apply (flags_line _ _ _ _ showArgs_plain); eauto).
  destruct (show_text modern w args _ _ code text (not_help _ Hh) Hp B H) as (t & toks & j & d & P & R). apply parsesWith_from in P. exists t, toks, j, d. auto.
Qed.
Theorem show_text_some_line modern w args vs rest t toks : ~ asksHelp args -> commandLine showArgs args vs rest -> treeFrom w vs rest t toks ->
  exists fuel text, showText modern fuel w args = Ok (0%Z, Some text).
Proof.
  intros Hh Hv P. apply parsesWith_from in P. eapply show_text_some; eauto; [apply not_help; auto|]. apply (flags_line _ _ _ _ showArgs_plain); eauto.
Qed.
Theorem help_line w args : asksHelp args ->
  Exits (fun n => check n w args) 0 /\ Exits (fun n => checkSyntax n w args) 0 /\ exists fuel, show fuel w args = Ok (0%Z, None).
Proof. intros H. apply isHelp_asks in H. repeat split; exists 0; unfold check, checkSyntax, show; rewrite H; auto. Qed.
(** the arguments are understood in at most one way *)
Theorem line_one flags args vs rest vs' rest' : plainFlags flags -> commandLine flags args vs rest -> commandLine flags args vs' rest' -> vs = vs' /\ rest = rest'.
Proof.
  intros Hp H H'. pose proof (line_parseFlags _ _ _ _ Hp H []) as E. rewrite (line_parseFlags _ _ _ _ Hp H' []) in E. rewrite !app_nil_r in E. inversion E as [[E1 E2]]. split; auto. rewrite <- (rev_involutive vs), <- (rev_involutive vs'). congruence.
Qed.
Theorem show_cases w args : ~ asksHelp args ->
  exists fuel, (exists sh, show fuel w args = Ok (0%Z, Some sh)) \/ show fuel w args = Ok ((-1)%Z, None) \/ exists why, show fuel w args = Panic why.
Proof.
  intros Hh. apply not_help in Hh. unfold show. rewrite Hh. destruct (parseFlags _ args []) as [[v rest]|]; [|exists 0; auto].
  destruct (parseCommand_ends w v rest) as (n & H). specialize (H n (Nat.le_refl _)). exists n. destruct (parseCommand n w v rest) as [[[t toks]|]|why|]; cbn [bind]; eauto. contradiction.
Qed.
Lemma show_mono w args n m : n <= m -> leRes (show n w args) (show m w args).
Proof.
  intros H. unfold show. destruct (isHelp args); [apply leRes_same|]. destruct (parseFlags _ args []) as [[v rest]|]; [|apply leRes_same].
  apply leRes_bind; [now apply parseCommand_mono|]. intros; apply leRes_same.
Qed.
Theorem show_one w args n m r r' : show n w args = Ok r -> show m w args = Ok r' -> r = r'.
Proof.
  intros Ha Hb. destruct (Nat.le_ge_cases n m) as [H|H]; pose proof (show_mono w args _ _ H) as X; unfold leRes in X; rewrite ?Ha, ?Hb in X; specialize (X ltac:(discriminate)); congruence.
Qed.
