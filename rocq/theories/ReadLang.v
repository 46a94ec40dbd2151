(** Reading a syntax text: the texts that the built-in parser accepts. *)
From Verif Require Import Base Utf8 IdSet Results Parser Build Syntax SelfData Define ListFacts ParseFacts FuelFacts InitSpec InitFuel Grammar WsLang ApiSpec WsApi ApiFacts RefSpec RefApi RefCheck ErrFacts RunFacts TextFacts ReadSpec SelfGrammar SelfLang.
Local Open Scope string_scope.
Local Open Scope list_scope.
Local Open Scope nat_scope.

Lemma self_nokw : nokwOnSequences published.
Proof.
  assert (H : forallb (fun d => negb (hasFlag (callFlags d) CNoKeyword)) published = true) by (vm_compute; reflexivity).
  rewrite forallb_forall in H. unfold nokwOnSequences. intros n ct os Hd. apply H in Hd. apply negb_true_iff in Hd. auto.
Qed.
Lemma self_rootName : rootName published = Some "syntax".
Proof. vm_compute. reflexivity. Qed.
Lemma self_Inits : Inits selfSyntax selfInit None.
Proof. destruct self_init_from as [n0 H]. exists n0. apply H. lia. Qed.

(** ReadSyntax returns no error, or an error, or panics, for some bound of the steps *)
Definition Reads (s : syntax) (input : list rune) (e : rend) (s' : syntax) (err : option gerr) : Prop := exists fuel, ReadSyntax fuel s input e = Ok (s', err).
Definition ReadPanics (s : syntax) (input : list rune) (e : rend) : Prop := exists fuel why, ReadSyntax fuel s input e = Panic why.
(** the text is a syntax text, and this is its tree *)
Definition isSyntax (input : list rune) (t : node) : Prop := Means published input "syntax" 0 (Match (List.length input) [t]).
(** the text is a list of these definitions *)
Definition spells (text : list rune) (defs : list textDef) : Prop := ~ In runeError text /\ exists t, isSyntax text t /\ defsOf text t = Some defs.

(** the built-in parser gives the tree of the text, and a tree only for a syntax text *)
Theorem self_tree input t : (exists fuel, selfParse fuel input REof = Ok (Tree t input)) <-> ~ In runeError input /\ isSyntax input t.
Proof.
  split.
  - intros (fuel & H). apply self_parses in H. assert (Hv : ~ In runeError input) by (eapply Parses_spans; eauto). split; auto.
    eapply (u_tree_means published selfSyntax); eauto using self_usable, self_refers, self_keywords, self_nokw, self_noLeft, self_rootName.
  - intros [Hv Hm]. pose proof (proj2 (u_parse_outcome published selfSyntax selfInit "syntax" input _ self_usable self_refers self_keywords self_nokw self_rootName self_Inits Hv Hm selfInit t input) ltac:(auto)) as HP.
    apply parses_self in HP. tauto.
Qed.
Lemma self_eof fuel input e t toks : selfParse fuel input e = Ok (Tree t toks) -> e = REof /\ toks = input.
Proof. intros H. apply self_parses in H. eapply (u_tree_eof published); eauto using self_usable. Qed.
Lemma Reads_tree s input e s' : Reads s input e s' None -> e = REof /\ ~ In runeError input /\ sInitialized s = false /\ exists t, isSyntax input t /\ define input s t = Ok (s', None).
Proof.
  intros (fuel & H). unfold ReadSyntax in H. destruct (sInitialized s); [discriminate|]. binv H. destruct x as [t toks|err]; [|discriminate].
  destruct (self_eof _ _ _ _ _ E) as [-> ->]. destruct (proj1 (self_tree input t) (ex_intro _ _ E)) as [H1 H2]. eauto 6.
Qed.
(** only texts of the language are read *)
Theorem read_text s input e s' : Reads s input e s' None -> texts published "syntax" "syntax" input.
Proof.
  intros (fuel & H). unfold ReadSyntax in H. destruct (sInitialized s); [discriminate|]. binv H. destruct x as [t toks|err]; [|discriminate]. apply self_parses in E.
  destruct (u_tree_text published selfSyntax selfInit input e t toks self_usable E self_sensible) as (name & H1 & H2). rewrite self_rootName in H1. inversion H1; subst. auto.
Qed.
