(** C35: the textual form of a class, a literal or a quantifier, read as a syntax, denotes the same
    class, literal or range. *)
From Verif Require Import Base Utf8 Utf8Facts Results Parser Build Syntax SyntaxFacts Define Grammar RefSpec RefFuel RefApi Rep SelfGrammar ReadUse DefSpec ApiSpec ReadSpec SelfLang ReadLang ReadMeans ReadFacts CliFacts Format FormatSpec FormatBack.
Local Open Scope string_scope.
Local Open Scope list_scope.
Local Open Scope nat_scope.

(** classes: the text name=t, where t is the textual form of a class defined with Class, has the
    effect of the same call of Class *)
Theorem C35_class : forall calls s k name ct cnot chars ranges,
  Defined calls s -> In (DClass name ct cnot chars ranges) calls -> plainName name ->
  Forall fair chars -> Forall (fun r => fair (fst r) /\ fair (snd r)) ranges ->
  exists t, formatOf (S (S k)) s name = Ok t /\ rereads name t (DClass name CNone cnot chars ranges).
Proof. intros. eapply class_back; eauto. Qed.
Theorem C35_any : forall calls s k name ct,
  Defined calls s -> In (DAnyChar name ct) calls -> plainName name ->
  exists t, formatOf (S (S k)) s name = Ok t /\ rereads name t (DAnyChar name CNone).
Proof. intros. eapply any_back; eauto. Qed.

(** literals: those of one character are printed as a class of that character.  Others have to be
    without quotes: see C35_literal_refuted *)
Theorem C35_literal_partial : forall calls s k name ct chars,
  Defined calls s -> In (DCharSequence name ct chars) calls -> plainName name ->
  Forall fair chars -> List.length chars = 1 \/ ~ In 34%Z chars ->
  exists t, formatOf (S (S k)) s name = Ok t /\
    rereads name t (if Nat.eqb (List.length chars) 1 then DClass name CNone false chars [] else DCharSequence name CNone chars).
Proof. intros. eapply literal_back; eauto. Qed.

(** quantifiers: the text of a sequence of quantified references has the effect of a call of Sequence
    with the same references and ranges *)
Theorem C35_quantifier : forall calls s k name ct items,
  Defined calls s -> In (DSequence name ct items) calls -> plainName name -> items <> [] -> Forall intRange items ->
  (forall it, In it items -> plainName (siName it) /\ In (siName it) (map callName calls)) ->
  exists t items', formatOf (S (S (S k))) s name = Ok t /\
    map siName items' = map siName items /\ map bounds items' = map bounds items /\
    rereads name t (DSequence name CNone items').
Proof. intros. eapply sequence_back; eauto. Qed.

(** definitions read from a text: sequences of quantified classes, literals and references *)
Theorem C35_text_partial : forall text defs s k name flags items,
  spells text defs -> Reads emptySyntax text REof s None -> In (mkTextDef name flags (ESequence items)) defs -> plainName name -> items <> [] ->
  (forall x b, In (x, b) items -> readable x /\ intRange (mkItem "" (fst b) (snd b)) /\ forall m, x = ESymbol m -> In m (map tdName defs)) ->
  exists t, formatOf (S (S (S k))) s name = Ok t /\ spells (stringRunes (name ++ "=" ++ t)) [mkTextDef name CNone (normalSeq items)].
Proof. intros. eapply text_back; eauto. Qed.

(** ** examples *)
Lemma spells_run text defs fuel : match selfParse fuel text REof with Ok (Tree t toks) => Some (toks, defsOf toks t) | _ => None end = Some (text, Some defs) -> spells text defs.
Proof.
  destruct (selfParse fuel text REof) as [[t toks|]| |] eqn:E; try discriminate. intros H. injection H as E1 E2. subst toks. destruct (proj1 (self_tree text t)) as [Hv Hs]; [eauto|].
  split; auto. exists t. split; auto.
Qed.
Lemma plain_ascii n : n <> "" -> isValidSymbol n = true -> forallb (fun r => Z.leb 0 r && Z.ltb r 128)%bool (runesOf n) = true -> runesString (runesOf n) = n -> plainName n.
Proof.
  intros H1 H2 H3 H4. repeat split; auto. exists (runesOf n). split; auto. rewrite forallb_forall in H3. apply Forall_forall. intros r Hr. specialize (H3 r Hr). apply andb_true_iff in H3. rewrite Z.leb_le, Z.ltb_lt in H3.
  unfold fair, scalar, runeError. lia.
Qed.
Definition exampleCalls : list defcall :=
  [DClass "letter" CNone false [95; 93; 45]%Z [(97, 122); (10, 13)]%Z; DClass "other" CNone true [94; 34]%Z []; DAnyChar "any" CNone;
   DCharSequence "quoted" CNone [92; 110; 10; 93]%Z; DCharSequence "one" CNone [34]%Z;
   DSequence "word" CRoot [mkItem "letter" 1 0; mkItem "other" 0 1; mkItem "any" 0 0; mkItem "quoted" 2 5; mkItem "one" 3 3; mkItem "letter" 0 7; mkItem "any" 12 0]].
Definition exampleSyntax : syntax := fst (defineAll emptySyntax exampleCalls).
Example C35_example : Defined exampleCalls exampleSyntax /\ Forall plainName (map callName exampleCalls) /\
  formatOf 3 exampleSyntax "letter" = Ok "[_\]\-a-z\n-\r]" /\
  formatOf 3 exampleSyntax "any" = Ok "." /\
  formatOf 3 exampleSyntax "word" = Ok "letter+ other? any quoted{2,5} one{3} letter{,7} any{12,}".
Proof.
  split; [vm_compute; reflexivity|]. split; [|split; [|split]; vm_compute; reflexivity].
  repeat constructor; apply plain_ascii; try discriminate; vm_compute; reflexivity.
Qed.
Definition exampleText : list rune := runesOf "a=[b]; c = a* [^x-z\]]{2,} . c?".
Example C35_text_example : exists defs s items, spells exampleText defs /\ Reads emptySyntax exampleText REof s None /\
  In (mkTextDef "c" CNone (ESequence items)) defs /\ List.length items = 4 /\
  (forall x b, In (x, b) items -> readable x /\ intRange (mkItem "" (fst b) (snd b)) /\ forall m, x = ESymbol m -> In m (map tdName defs)) /\
  formatOf 3 s "c" = Ok "a* [^\]x-z]{2,} . c?".
Proof.
  exists [mkTextDef "a" CNone (EClass false [98]%Z []); mkTextDef "c" CNone (ESequence [(ESymbol "a", (0, -1)%Z); (EClass true [93]%Z [(120, 122)]%Z, (2, -1)%Z); (EAny, (0, 0)%Z); (ESymbol "c", (0, 1)%Z)])], (fst (rawAll emptySyntax (flat_map textCalls [mkTextDef "a" CNone (EClass false [98]%Z []); mkTextDef "c" CNone (ESequence [(ESymbol "a", (0, -1)%Z); (EClass true [93]%Z [(120, 122)]%Z, (2, -1)%Z); (EAny, (0, 0)%Z); (ESymbol "c", (0, 1)%Z)])]))), [(ESymbol "a", (0, -1)%Z); (EClass true [93]%Z [(120, 122)]%Z, (2, -1)%Z); (EAny, (0, 0)%Z); (ESymbol "c", (0, 1)%Z)].
  split; [apply (spells_run _ _ 1000); vm_compute; reflexivity|]. split; [exists 1000; vm_compute; reflexivity|].
  split; [right; left; reflexivity|]. split; [reflexivity|]. split; [|vm_compute; reflexivity].
  intros x b Hin. repeat (destruct Hin as [Hin|Hin]; [inversion Hin; subst; clear Hin; (split; [|split; [vm_compute; split; reflexivity|intros m Hm; try discriminate; inversion Hm; subst; simpl; tauto]])|]); [..|destruct Hin].
  - apply plain_ascii; try discriminate; vm_compute; reflexivity.
  - split; repeat constructor; cbn [fst snd]; unfold runeError; try lia; discriminate.
  - exact I.
  - apply plain_ascii; try discriminate; vm_compute; reflexivity.
Qed.

(** ** C35 is false of literals with quotes: they are not escaped.  The textual form of a literal of five characters,
    quote, space, b, space, quote, is read as a sequence of an empty literal, the symbol b and an
    empty literal. *)
Definition quoteCalls : list defcall := [DCharSequence "a" CNone [34; 32; 98; 32; 34]%Z].
Definition quoteSyntax : syntax := fst (defineAll emptySyntax quoteCalls).
Definition quoteText : string := match formatOf 3 quoteSyntax "a" with Ok t => t | _ => "" end.
Theorem C35_literal_refuted : exists calls s name chars t,
  Defined calls s /\ In (DCharSequence name CNone chars) calls /\ plainName name /\ Forall fair chars /\ formatOf 3 s name = Ok t /\
  spells (stringRunes (name ++ "=" ++ t)) [mkTextDef name CNone (ESequence [(EText [], (0, 0)%Z); (ESymbol "b", (0, 0)%Z); (EText [], (0, 0)%Z)])] /\
  ~ rereads name t (DCharSequence name CNone chars).
Proof.
  exists quoteCalls, quoteSyntax, "a", [34; 32; 98; 32; 34]%Z, quoteText. split; [vm_compute; reflexivity|]. split; [left; reflexivity|].
  split; [apply plain_ascii; try discriminate; vm_compute; reflexivity|]. split; [repeat constructor; unfold runeError; try lia; discriminate|]. split; [vm_compute; reflexivity|].
  assert (Hs : spells (stringRunes ("a" ++ "=" ++ quoteText)) [mkTextDef "a" CNone (ESequence [(EText [], (0, 0)%Z); (ESymbol "b", (0, 0)%Z); (EText [], (0, 0)%Z)])]) by (apply (spells_run _ _ 1000); vm_compute; reflexivity).
  split; [exact Hs|]. intros H. specialize (H emptySyntax (fst (defineCall emptySyntax (DCharSequence "a" CNone [34; 32; 98; 32; 34]%Z))) None eq_refl).
  rewrite (spells_means emptySyntax _ _ eq_refl Hs) in H. destruct H as [_ H]. specialize (H ltac:(vm_compute; reflexivity)). vm_compute in H. discriminate H.
Qed.

(** ** and of quantified groups of one quantified item: the group is not printed, and the text is not a
    syntax text *)
Definition nestedText : list rune := runesOf "a=[a];b=(a*){3}".
Definition nestedDefs : list textDef := [mkTextDef "a" CNone (EClass false [97]%Z []); mkTextDef "b" CNone (ESequence [(ESequence [(ESymbol "a", (0, -1)%Z)], (3, 3)%Z)])].
Definition nestedSyntax : syntax := fst (rawAll emptySyntax (flat_map textCalls nestedDefs)).
Theorem C35_quantifier_refuted : exists text defs s name x t,
  spells text defs /\ Reads emptySyntax text REof s None /\ In (mkTextDef name CNone x) defs /\ plainName name /\
  formatOf 4 s name = Ok t /\ t = "a*{3}" /\ forall s0 e s', ~ Reads s0 (stringRunes (name ++ "=" ++ t)) e s' None.
Proof.
  exists nestedText, nestedDefs, nestedSyntax, "b", (ESequence [(ESequence [(ESymbol "a", (0, -1)%Z)], (3, 3)%Z)]), "a*{3}".
  split; [apply (spells_run _ _ 1000); vm_compute; reflexivity|]. split; [exists 1000; vm_compute; reflexivity|]. split; [right; left; reflexivity|].
  split; [apply plain_ascii; try discriminate; vm_compute; reflexivity|]. split; [vm_compute; reflexivity|]. split; [reflexivity|].
  intros s0 e s' H. destruct (Reads_tree _ _ _ _ H) as (_ & _ & _ & t & Ht & _).
  assert (Hn : exists r ns, Means published (stringRunes ("b" ++ "=" ++ "a*{3}")) "syntax" 0 (Match r ns) /\ r <> 7).
  { exists 4. eexists. split; [split; [discriminate|]; exists 200; vm_compute; reflexivity|discriminate]. }
  destruct Hn as (r & ns & Hn & Hr). pose proof (Gives_fun _ _ _ _ _ _ _ Ht Hn) as E. inversion E; subst. apply Hr. reflexivity.
Qed.

Print Assumptions C35_class.
Print Assumptions C35_any.
Print Assumptions C35_literal_partial.
Print Assumptions C35_quantifier.
Print Assumptions C35_text_partial.
Print Assumptions C35_literal_refuted.
Print Assumptions C35_quantifier_refuted.
