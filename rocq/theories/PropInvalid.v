(** Property C10: what Parse returns for input with an invalid character. *)
From Verif Require Import Base Utf8 IdSet Results Parser Build Syntax ParseFacts ReaderFacts TermFacts FuelFacts RunFacts ErrFacts ApiSpec ApiFacts DefSpec ReaderBack PropParse SelfData Define ReadLang.
Local Open Scope nat_scope.

Lemma run_error_reader P B kws root rootB fuel input e k :
  parseInputPB P B kws root rootB fuel input e = Ok (Failed (ErrReader k)) -> ~ In runeError input.
Proof.
  intros H. unfold parseInputPB in H. binv H. pose proof (parse_cinv _ _ _ _ _ _ _ E) as Hc.
  assert (K : forall c, cinv input e GT c -> cReadErr c = Some (ErrReader k) -> ~ In runeError input).
  { intros c Hci Hce. pose proof (ri_case _ _ _ (ci_r _ _ _ _ Hci)) as Hr. rewrite Hce in Hr. destruct Hr as (-> & _). apply (ri_tokens _ _ _ (ci_r _ _ _ _ Hci)). }
  destruct (cReadErr x) eqn:Ere.
  { inversion H; subst. eapply K; eauto. }
  binv H. destruct x0 as [c1 [err|]].
  2:{ binv H. destruct x0 as [[[|] ok] c2]; discriminate. }
  inversion H; subst err; clear H. unfold finalizeParse in E0. destruct (nth_error P root) as [ob|]; [|discriminate].
  assert (N : forall c fp, parseError P c fp <> Ok (ErrReader k)).
  { intros c fp He. unfold parseError in He. destruct (nth_error P fp); [|discriminate]. binv He. discriminate. }
  destruct (longestResult _ _ _); try (binv E0; inversion E0; subst; exfalso; eapply N; eauto).
  destruct (_ <? _); [binv E0; inversion E0; subst; exfalso; eapply N; eauto|].
  destruct (read x) as [c2 ok] eqn:Er. pose proof (cinv_read _ _ _ _ _ Hc Er) as Hc2. destruct (cEof c2); [discriminate|].
  destruct (cReadErr c2) eqn:Ere2; [inversion E0; subst; eapply K; eauto|].
  binv E0. inversion E0; subst. exfalso. eapply N; eauto.
Qed.

(** C10, what holds: input with an invalid byte sequence (decoded as U+FFFD) is answered with
    ErrInvalidUnicodeCharacter; or with a ParseError in the text before it, the one that Parse returns
    for every continuation of that text; or the syntax is not usable.  (Or Parse panics:
    C10_invalid_refuted.) *)
Theorem C10_outcomes_partial : forall s before after e s' out, Parses s (before ++ runeError :: after) e s' out ->
  out = Failed ErrInvalidUnicodeCharacter \/
  (exists off line col def, out = Failed (ErrParse off line col def) /\ off <= List.length before /\
     forall more e', exists s2, Parses s (before ++ more) e' s2 (Failed (ErrParse off line col def))) \/
  (exists err, out = Failed err /\ Inits s s' (Some err)).
Proof.
  intros s before after e s' out H. pose proof H as H0. apply Parses_run in H. destruct H as (fuel & r & HI & H). destruct r as [err|].
  { right. right. exists err. split; auto. exists fuel. exact HI. }
  destruct H as (root & Er & H). unfold parseInput in H. destruct out as [t toks|err].
  { apply run_tree in H. destruct H as (_ & _ & H & _). exfalso. apply H. apply in_or_app. right. left. auto. }
  pose proof H as H1. apply run_error in H1. destruct H1 as [[-> _]|[(k & -> & _)|(off & line & col & a & ob & -> & _)]]; auto.
  { exfalso. apply run_error_reader in H. apply H. apply in_or_app. right. left. auto. }
  right. left. exists off, line, col, (definitionName (nodeName ob)). split; auto.
  assert (F : forall more e', exists s2, Parses s (before ++ more) e' s2 (Failed (ErrParse off line col (definitionName (nodeName ob))))).
  { intros more e'. apply (reader_error s before 0 s' (Failed (ErrParse off line col (definitionName (nodeName ob))))).
    exists fuel. unfold Parse. rewrite HI. cbn [bind]. rewrite Er. unfold parseInput. rewrite (run_back _ _ _ _ _ _ _ _ _ 0 _ _ _ _ H). reflexivity. }
  split; [|exact F]. destruct (F [] REof) as (s2 & F2). rewrite app_nil_r in F2. apply error_position in F2. tauto.
Qed.
(** the second case *)
Example C10_outcomes_example : exists s', Parses demoSyntax (runesOf "let + " ++ runeError :: runesOf "x") REof s' (Failed (ErrParse 4 0 4 "sum")).
Proof.
  destruct (Parse 200 demoSyntax (runesOf "let + " ++ runeError :: runesOf "x") REof) as [[s' o]|w|] eqn:E; vm_compute in E; [|discriminate|discriminate].
  exists s', 200. inversion E. reflexivity.
Qed.

(** the same for syntax texts: ReadSyntax refuses a text with an invalid character, without effect; it
    answers so, with a ParseError of the text before, or it panics (C47_refuted) *)
Theorem C47_invalid_partial : forall s before after e s' err, ReadLang.Reads s (before ++ runeError :: after) e s' err ->
  s' = s /\
  (err = Some ErrInvalidUnicodeCharacter \/
   (exists off line col def, err = Some (ErrParse off line col def) /\ off <= List.length before /\
      forall more e', ReadLang.Reads s (before ++ more) e' s err) \/
   err = Some ErrSyntaxInitialized /\ sInitialized s = true).
Proof.
  intros s before after e s' err [fuel H]. unfold ReadSyntax in H. destruct (sInitialized s) eqn:Ei; [inversion H; subst; auto|].
  binv H. destruct x as [t toks|er].
  { exfalso. apply run_tree in E. destruct E as (_ & _ & E & _). apply E. apply in_or_app. right. left. auto. }
  inversion H; subst. split; auto. unfold selfParse in E. pose proof E as H1. apply run_error in H1. destruct H1 as [[-> _]|[(k & -> & _)|(off & line & col & a & ob & -> & _)]]; auto.
  { exfalso. apply run_error_reader in E. apply E. apply in_or_app. right. left. auto. }
  right. left. apply run_back with (k := 0) in E. exists off, line, col, (definitionName (nodeName ob)). split; auto. split.
  - apply run_error in E. destruct E as [[E _]|[(q & E & _)|(o9 & l9 & c9 & a9 & ob9 & E & _ & E2 & _)]]; try discriminate. inversion E; subst. exact E2.
  - intros more e'. exists fuel. unfold ReadSyntax. rewrite Ei. unfold selfParse. rewrite (run_local _ _ _ _ _ _ _ _ _ _ _ _ more e' E). reflexivity.
Qed.
Example C47_invalid_example : exists err, ReadLang.Reads emptySyntax (runesOf "a b c" ++ runeError :: runesOf "x") REof emptySyntax (Some err).
Proof. eexists. exists 400. vm_compute. reflexivity. Qed.

Print Assumptions C47_invalid_partial.
Print Assumptions C10_outcomes_partial.
