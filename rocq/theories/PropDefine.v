(** Properties of the definition calls and Init: C17, C18, C19, C20, C22, C23, C24, C25, C26, C27, C30, C45. *)
From Coq Require Import Permutation.
From Verif Require Import TextSpec Base Utf8 Escape Parser Build Syntax Define Lang Sound Grammar WsLang ApiSpec DefSpec Utf8Facts InitSpec LangGen ApiFacts DefineFacts RefFacts Api WsRefs WsIds PropParse.

(** C18: Init succeeds only when every name needed by the root, the keywords and the whitespace
    definitions is defined, and otherwise names a needed and undefined one; the only other
    failures are a syntax without definitions and an implicit root that cannot be a root *)
Theorem C18_references : forall calls s s' err,
  Defined calls s -> symbolRefs calls -> Inits s s' err ->
  match err with
  | None => forall n, needed calls n -> grammarOf calls n <> None
  | Some (ErrParserNotFound n) => needed calls n /\ grammarOf calls n = None
  | Some ErrNoParsersDefined => calls = []
  | Some (ErrIncompatible n a b) => b = CRoot /\ exists d, In d calls /\ callName d = n /\ rootName calls = Some n /\ isRoot d = false /\
      In (a, b) incompatiblePairs /\ hasFlag (callFlags d) a = true
  | Some _ => False
  end.
Proof. exact init_refs_all. Qed.
(** without whitespace definitions any reference will do *)
Theorem C18_references_plain : forall calls s s' err,
  Defined calls s -> noWhitespaceDefs calls -> Inits s s' err ->
  match err with
  | None => forall n, needed calls n -> grammarOf calls n <> None
  | Some (ErrParserNotFound n) => needed calls n /\ grammarOf calls n = None
  | Some ErrNoParsersDefined => calls = []
  | Some (ErrIncompatible n a b) => b = CRoot /\ exists d, In d calls /\ callName d = n /\ rootName calls = Some n /\ isRoot d = false /\
      In (a, b) incompatiblePairs /\ hasFlag (callFlags d) a = true
  | Some _ => False
  end.
Proof. exact init_refs. Qed.
Definition dangling : list defcall :=
  [ DCharSequence "a" CAlias (runesOf "a"); DSequence "b" CNone [mkItem "missing" 0 0]; DChoice "c" CNone ["a"; "b"] ]%string.
Example C18_example : exists s s', Defined dangling s /\ noWhitespaceDefs dangling /\ Inits s s' (Some (ErrParserNotFound "missing")).
Proof.
  exists (fst (defineAll emptySyntax dangling)), (match Init 50 (fst (defineAll emptySyntax dangling)) with Ok (s, _) => s | _ => emptySyntax end).
  split; [vm_compute; reflexivity|]. split; [intros d Hd; repeat (destruct Hd as [<-|Hd]; [reflexivity|]); destruct Hd|]. exists 50. vm_compute. reflexivity.
Qed.

(** with whitespace, in a repeated item of a spaced sequence, in a keyword, and complete *)
Definition spaceDef : defcall := DClass "sp" (N.lor CWhitespace CAlias) false (runesOf " ") [].
Definition danglingSpaced : list defcall :=
  [ spaceDef; DCharSequence "a" CAlias (runesOf "a"); DSequence "b" CNone [mkItem "a" 1 1; mkItem "missing" 0 (-1)] ]%string.
Definition danglingKeyword : list defcall :=
  [ spaceDef; DCharSequence "a" CAlias (runesOf "a"); DSequence "b" CKeyword [mkItem "a" 1 1; mkItem "missing" 1 1]; DSequence "c" CNone [mkItem "a" 1 1] ]%string.
Definition completeSpaced : list defcall :=
  [ spaceDef; DCharSequence "a" CAlias (runesOf "a"); DSequence "b" CNone [mkItem "a" 1 1; mkItem "b" 0 (-1)] ]%string.
Lemma symbolRefs_list calls : Forall (fun p => forallb isValidSymbol (ruleRefs (snd p)) = true \/ forallb (fun x => match grammarOf calls x with Some _ => true | None => false end) (ruleRefs (snd p)) = true) (flat_map callRules calls) -> symbolRefs calls.
Proof.
  intros H n r x Hn Hx. apply ruleIn_pair in Hn. rewrite Forall_forall in H. destruct (H _ Hn) as [H0|H0]; rewrite forallb_forall in H0; specialize (H0 x Hx); auto.
  left. destruct (grammarOf calls x); congruence.
Qed.
Example C18_spaced : exists s s', Defined danglingSpaced s /\ symbolRefs danglingSpaced /\ Inits s s' (Some (ErrParserNotFound "missing")).
Proof.
  exists (fst (defineAll emptySyntax danglingSpaced)), (match Init 50 (fst (defineAll emptySyntax danglingSpaced)) with Ok (s, _) => s | _ => emptySyntax end).
  split; [vm_compute; reflexivity|]. split; [apply symbolRefs_list; repeat (constructor; [vm_compute; auto|]); constructor|]. exists 50. vm_compute. reflexivity.
Qed.
Example C18_keyword : exists s s', Defined danglingKeyword s /\ symbolRefs danglingKeyword /\ Inits s s' (Some (ErrParserNotFound "missing")).
Proof.
  exists (fst (defineAll emptySyntax danglingKeyword)), (match Init 50 (fst (defineAll emptySyntax danglingKeyword)) with Ok (s, _) => s | _ => emptySyntax end).
  split; [vm_compute; reflexivity|]. split; [apply symbolRefs_list; repeat (constructor; [vm_compute; auto|]); constructor|]. exists 50. vm_compute. reflexivity.
Qed.
Example C18_complete : exists s s', Defined completeSpaced s /\ symbolRefs completeSpaced /\ Inits s s' None.
Proof.
  exists (fst (defineAll emptySyntax completeSpaced)), (match Init 50 (fst (defineAll emptySyntax completeSpaced)) with Ok (s, _) => s | _ => emptySyntax end).
  split; [vm_compute; reflexivity|]. split; [apply symbolRefs_list; repeat (constructor; [vm_compute; auto|]); constructor|]. exists 50. vm_compute. reflexivity.
Qed.
(** the name of the whitespace definition that Init generates, which is not a symbol, can be
    referred to without being defined *)
Definition danglingGenerated : list defcall :=
  [ spaceDef; DCharSequence "a" CAlias (runesOf "a"); DSequence "b" CNone [mkItem "a" 1 1; mkItem ":ws" 1 1] ]%string.
Theorem C18_generated_refuted : exists calls s s', Defined calls s /\ Inits s s' None /\ exists n, needed calls n /\ grammarOf calls n = None.
Proof.
  exists danglingGenerated, (fst (defineAll emptySyntax danglingGenerated)), (match Init 50 (fst (defineAll emptySyntax danglingGenerated)) with Ok (s, _) => s | _ => emptySyntax end).
  split; [vm_compute; reflexivity|]. split; [exists 50; vm_compute; reflexivity|]. exists ":ws"%string. split; [|reflexivity].
  eapply need_ref; [apply need_root; vm_compute; reflexivity|vm_compute; reflexivity|]. simpl. auto.
Qed.

(** C17: after Init of a syntax with whitespace no two definitions share a name or an identity,
    none was lost to another one of the same name, and every name that the calls defined is there *)
Theorem C17_definitions : forall calls s s',
  Defined calls s -> hasWhitespaceDef calls -> symbolRefs calls -> Inits s s' None ->
  NoDup (map fst (registered s')) /\ map snd (registered s') = seq 1 (List.length (registered s')) /\
  List.length (registered s') = definitionCount calls /\
  forall d n, In d calls -> In n (callNames d) -> In n (map fst (registered s')).
Proof. exact init_definitions. Qed.
(** and the parsers taking part in a parse differ in identity and in name; missing: keywords that
    are sequences with whitespace, where C17_keyword_refuted shows a shared identity *)
Theorem C17_identities_partial : forall calls s s',
  Defined calls s -> (hasWhitespaceDef calls -> symbolRefs calls /\ keywordsPlain calls) -> Inits s s' None ->
  forall a b oa ob, takesPart s' a -> takesPart s' b -> nth_error (parsers s') a = Some oa -> nth_error (parsers s') b = Some ob ->
  nodeID oa = nodeID ob \/ nodeName oa = nodeName ob -> a = b.
Proof. exact init_identities. Qed.
Definition repeatedSpaced : list defcall :=
  [ spaceDef; DCharSequence "a" CAlias (runesOf "a"); DCharSequence "k" CKeyword (runesOf "kw"); DSequence "b" CNone [mkItem "a" 0 (-1); mkItem "k" 2 5; mkItem "a" 1 1] ]%string.
Example C17_example : exists s s', Defined repeatedSpaced s /\ hasWhitespaceDef repeatedSpaced /\ symbolRefs repeatedSpaced /\ keywordsPlain repeatedSpaced /\ Inits s s' None /\
  definitionCount repeatedSpaced = 13 /\ List.length (registered s) = 8 /\ exists a b, a <> b /\ takesPart s' a /\ takesPart s' b.
Proof.
  exists (fst (defineAll emptySyntax repeatedSpaced)), (match Init 50 (fst (defineAll emptySyntax repeatedSpaced)) with Ok (s, _) => s | _ => emptySyntax end).
  split; [vm_compute; reflexivity|]. split; [exists spaceDef; split; [left; reflexivity|reflexivity]|].
  split; [apply symbolRefs_list; repeat (constructor; [vm_compute; auto|]); constructor|].
  split. { intros d Hd Hf. repeat (destruct Hd as [<-|Hd]; [first [exact I|vm_compute in Hf; discriminate]|]). destruct Hd. }
  split; [exists 50; vm_compute; reflexivity|]. split; [vm_compute; reflexivity|]. split; [vm_compute; reflexivity|].
  do 2 eexists. split; [|split; [apply tp_root; vm_compute; reflexivity|apply tp_keyword; vm_compute; left; reflexivity]]. discriminate.
Qed.

(** C45: Init always ends, whatever the history, *)
Theorem C45_terminates : forall s, apiSteps emptySyntax s -> exists n0, forall n, n0 <= n -> Init n s <> NoFuel.
Proof. exact Init_terminates. Qed.
(** and does not panic when the calls before it succeeded; missing: after refused calls, where
    C45_refuted shows a panic *)
Theorem C45_no_panic_partial : forall s, made s -> exists n0, forall n, n0 <= n -> exists s' err, Init n s = Ok (s', err).
Proof. exact made_init. Qed.
Example C45_example : made (fst (defineAll emptySyntax completeSpaced)).
Proof.
  assert (H : forall calls s s', made s -> defineAll s calls = (s', None) -> made s').
  { induction calls as [|d calls IH]; intros s s' M E; simpl in E; [inversion E; subst; auto|]. destruct (defineCall s d) as [s1 [e|]] eqn:Ed; [discriminate|]. eapply IH; [eapply made_define; eauto|exact E]. }
  apply (H completeSpaced emptySyntax); [apply made_new|vm_compute; reflexivity].
Qed.

(** C19: after a successful Init, Init succeeds again without effect, *)
Theorem C19_init_idempotent : forall s s', Inits s s' None -> forall fuel, Init fuel s' = Ok (s', None).
Proof. exact Init_again. Qed.
(** every definition call and ReadSyntax is refused without effect, *)
Theorem C19_define_refused : forall s s' d, Inits s s' None ->
  defineCall s' d = (s', Some (if isValidSymbol (callName d) then ErrSyntaxInitialized else ErrInvalidSymbolName)).
Proof. exact define_after_init. Qed.
Theorem C19_read_refused : forall s s' fuel input e, Inits s s' None -> ReadSyntax fuel s' input e = Ok (s', Some ErrSyntaxInitialized).
Proof. intros s s' fuel input e H. exact (read_after_init s s' fuel input e H). Qed.
(** no call changes the syntax any more, *)
Theorem C19_initialized_forever : forall s s' s2, Inits s s' None -> apiSteps s' s2 -> s2 = s'.
Proof. exact initialized_forever. Qed.
(** and a failed validation is final *)
Theorem C19_failed_forever : forall s s' n s2, Inits s s' (Some (ErrParserNotFound n)) -> apiSteps s' s2 ->
  (forall fuel, Init fuel s2 = Ok (s2, Some ErrInitFailed)) /\
  forall fuel input e, Parse fuel s2 input e = Ok (s2, Failed ErrInitFailed).
Proof. exact failed_forever. Qed.
Example C19_example : exists s', Inits demoSyntax s' None.
Proof.
  destruct demo_parses as (s' & H). apply Parses_run in H. destruct H as (fuel & [err|] & HI & H); [discriminate|]. exists s', fuel. auto.
Qed.

(** C20: the root is the explicit one or the last one, and it alone carries the root mark *)
Theorem C20_root : forall calls s, Defined calls s ->
  rootDefName s = rootName calls /\ rootMarks s = match rootName calls with Some n => [n] | None => [] end.
Proof. exact root_selection. Qed.
(** a second explicit root is refused *)
Theorem C20_second_root : forall calls s d,
  Defined calls s -> existsb isRoot calls = true -> isRoot d = true -> isValidSymbol (callName d) = true ->
  exists s' err, defineCall s d = (s', Some err) /\
  (err = ErrMultipleRoots \/ (exists a b, err = ErrIncompatible (callName d) a b /\ incompatibleFlags (callFlags d) a b) \/
   exists n, err = ErrDuplicateDefinition n /\ In n (callNames d) /\ In n (map fst (registered s))).
Proof. exact second_root. Qed.
Example C20_example : rootName demo = Some "stmt"%string /\ existsb isRoot demo = true /\
  snd (defineCall demoSyntax (DSequence "again" CRoot [])) = Some ErrMultipleRoots.
Proof. vm_compute. auto. Qed.

(** C22: at any time before Init, registered definitions have different names and the identities
    1..n in definition order; *)
Theorem C22_registered : forall s, apiSteps emptySyntax s -> sInitFailed s = false -> sInitialized s = false ->
  NoDup (map fst (registered s)) /\ map snd (registered s) = seq 1 (List.length (registered s)).
Proof. intros s H. apply registered_ok. exact (apiSteps_reachable _ _ H re_new). Qed.
(** a successful call adds its own names, none of which was there before; a refused call adds at
    most some of its names, and a duplicate definition error names a name that was there *)
Theorem C22_names : forall s d s' e, apiSteps emptySyntax s -> sInitFailed s = false -> sInitialized s = false -> defineCall s d = (s', e) ->
  match e with
  | None => map fst (registered s') = map fst (registered s) ++ callNames d /\
            forall n, In n (callNames d) -> ~ In n (map fst (registered s))
  | Some err => (exists k, map fst (registered s') = map fst (registered s) ++ firstn k (callNames d)) /\
            forall n, err = ErrDuplicateDefinition n -> In n (callNames d) /\ In n (map fst (registered s))
  end.
Proof. intros s d s' e H. apply define_names. exact (apiSteps_reachable _ _ H re_new). Qed.
Example C22_example : registered demoSyntax <> [] /\
  snd (defineCall demoSyntax (DSequence "id" CNone [])) = Some (ErrDuplicateDefinition "id").
Proof. vm_compute. split; [discriminate|reflexivity]. Qed.

(** C23: an incompatibility error names a pair of flags of the call; *)
Theorem C23_reported_pair : forall s d s' n a b,
  defineCall s d = (s', Some (ErrIncompatible n a b)) -> n = callName d /\ incompatibleFlags (callFlags d) a b.
Proof. exact define_incompat. Qed.
(** calls with such a pair are refused, with that error, unless a child name is taken; *)
Theorem C23_refused : forall s d a b, sInitialized s = false -> isValidSymbol (callName d) = true -> incompatibleFlags (callFlags d) a b ->
  exists s' err, defineCall s d = (s', Some err) /\
  ((exists a' b', err = ErrIncompatible (callName d) a' b' /\ incompatibleFlags (callFlags d) a' b') \/
   (exists m, err = ErrDuplicateDefinition m) /\ match d with DSequence _ _ _ => False | DChoice _ _ _ => False | _ => True end).
Proof. exact define_refuses. Qed.
(** and this does not depend on the order in which Go iterates over the map of incompatible flags *)
Theorem C23_any_map_order : forall table d, Permutation table incompatibleCommitTypes ->
  match checkCommitTypeIn table d with
  | None => forall a b, ~ incompatibleFlags (dCommit d) a b
  | Some err => exists a b, incompatibleFlags (dCommit d) a b /\ err = ErrIncompatible (dName d) a b
  end.
Proof. exact check_any_order. Qed.
Example C23_example : incompatibleFlags (N.lor CKeyword CNoKeyword) CKeyword CNoKeyword.
Proof. vm_compute. auto 10. Qed.

(** C24: names are accepted exactly when they have no reserved character; *)
Theorem C24_valid : forall n, isValidSymbol n = true <-> forall r, In r (stringRunes n) -> ~ reserved r.
Proof. exact valid_symbol. Qed.
Theorem C24_calls : forall s d,
  (isValidSymbol (callName d) = false -> defineCall s d = (s, Some ErrInvalidSymbolName)) /\
  (isValidSymbol (callName d) = true -> snd (defineCall s d) <> Some ErrInvalidSymbolName).
Proof. exact define_symbol. Qed.
(** no accepted name is the internal name of a child, *)
Theorem C24_no_child_name : forall n m i, isValidSymbol n = true -> n <> childName m i.
Proof. exact valid_no_child. Qed.
(** and no byte of it is a quote, a backslash or a line break *)
Theorem C24_bytes : forall n b, isValidSymbol n = true -> In b (bytesOf n) -> ~ reserved b.
Proof. exact valid_bytes. Qed.
Example C24_example : isValidSymbol "foo-bar" = true /\ isValidSymbol "foo:0" = false.
Proof. vm_compute. auto. Qed.

(** C25: the normalized range of an item, *)
Theorem C25_normalize : forall it, let (n, mn, mx) := normalizeItemRange it in
  n = siName it /\
  (siMin it = 0 /\ siMax it = 0 -> mn = 1 /\ mx = 1)%Z /\
  (~ (siMin it = 0 /\ siMax it = 0) -> mn = Z.max 0 (siMin it) /\ (0 < siMax it -> mx = siMax it) /\ (siMax it <= 0 -> mx = -1))%Z.
Proof. exact normalize_spec. Qed.
Theorem C25_idempotent : forall it, normalizeItemRange (normalizeItemRange it) = normalizeItemRange it.
Proof. exact normalize_idem. Qed.
(** and the counts of the specification of the language (used by C02, C03, C16) are those of the
    normalized range *)
Theorem C25_counts : forall it k, quantity (siMin it) (siMax it) k <->
  (siMin (normalizeItemRange it) <= Z.of_nat k)%Z /\ ((0 < siMax (normalizeItemRange it))%Z -> (Z.of_nat k <= siMax (normalizeItemRange it))%Z).
Proof. exact quantity_norm. Qed.

(** C26 *)
Theorem C26_round_trip : forall esc banned chars, In esc banned -> (forall c, In c banned -> ~ In c controlLetters) ->
  unescape esc banned (escape esc banned chars) = Some chars.
Proof. exact escape_unescape. Qed.
Theorem C26_clean : forall esc banned chars, wellEscaped esc banned (escape esc banned chars).
Proof. exact escape_clean. Qed.
Example C26_example : In classEscape classBanned /\ (forall c, In c classBanned -> ~ In c controlLetters) /\
  escape classEscape classBanned [97; 91; 10]%Z = [97; 92; 91; 92; 110]%Z.
Proof. split; [left; auto|]. split; [|reflexivity]. intros c Hc Hl. simpl in *. intuition (subst; discriminate). Qed.

(** C27: what classes, AnyChar and literals match *)
Theorem C27_class : forall calls s root n ct cnot chars ranges w, Defined calls s -> rootName calls = Some root ->
  In (DClass n ct cnot chars ranges) calls -> n <> root -> hasFlag ct CNoKeyword = false ->
  (texts calls root n w <-> exists r, w = [r] /\ inClass cnot chars ranges r).
Proof. exact class_texts. Qed.
Theorem C27_anyChar : forall calls s root n ct w, Defined calls s -> rootName calls = Some root ->
  In (DAnyChar n ct) calls -> n <> root -> hasFlag ct CNoKeyword = false ->
  (texts calls root n w <-> exists r, w = [r]).
Proof. exact any_texts. Qed.
Theorem C27_literal : forall calls s root n ct chars w, Defined calls s -> rootName calls = Some root ->
  In (DCharSequence n ct chars) calls -> n <> root -> hasFlag ct CNoKeyword = false ->
  (texts calls root n w <-> w = chars).
Proof. exact literal_texts. Qed.
Theorem C27_match : forall cnot chars ranges r, matchChar chars ranges cnot r = true <-> inClass cnot chars ranges r.
Proof. exact matchChar_inClass. Qed.
Example C27_example : In (DClass "letter" CAlias false [] [(97, 122)%Z]) demo /\ rootName demo = Some "stmt"%string.
Proof. split; [simpl; auto|reflexivity]. Qed.

(** C30: after a successful Init, any calls whatsoever leave the result of Parse as it is, and it
    is the result that the first Parse of the uninitialized syntax gives *)
Theorem C30_no_trace : forall s s' s2 input e s3 out, Inits s s' None -> apiSteps s' s2 ->
  (Parses s2 input e s3 out <-> Parses s input e s3 out).
Proof.
  intros s s' s2 input e s3 out HI H. rewrite (initialized_forever _ _ _ HI H). symmetry. apply Parses_after_Init. exact HI.
Qed.

Print Assumptions C17_definitions.
Print Assumptions C17_identities_partial.
Print Assumptions C18_references.
Print Assumptions C18_references_plain.
Print Assumptions C18_generated_refuted.
Print Assumptions C45_terminates.
Print Assumptions C45_no_panic_partial.
Print Assumptions C19_init_idempotent.
Print Assumptions C19_define_refused.
Print Assumptions C19_read_refused.
Print Assumptions C19_initialized_forever.
Print Assumptions C19_failed_forever.
Print Assumptions C20_root.
Print Assumptions C20_second_root.
Print Assumptions C22_registered.
Print Assumptions C22_names.
Print Assumptions C23_reported_pair.
Print Assumptions C23_refused.
Print Assumptions C23_any_map_order.
Print Assumptions C24_valid.
Print Assumptions C24_calls.
Print Assumptions C24_no_child_name.
Print Assumptions C24_bytes.
Print Assumptions C25_normalize.
Print Assumptions C25_idempotent.
Print Assumptions C25_counts.
Print Assumptions C26_round_trip.
Print Assumptions C26_clean.
Print Assumptions C27_class.
Print Assumptions C27_anyChar.
Print Assumptions C27_literal.
Print Assumptions C27_match.
Print Assumptions C30_no_trace.
