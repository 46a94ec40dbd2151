(** C64: the expressions of a syntax text stand for the texts that they denote (MeaningSpec.v). *)
From Verif Require Import Base Utf8 Utf8Facts Parser Build Syntax Grammar ApiSpec ReadFacts CliFacts DefSpec Lang ReadSpec ReadLang ReadMeans RefCheck SelfLang Format FormatSpec FormatNestSpec FormatAllSpec FormatAll MeaningSpec Meaning MeaningWs WsLang Rep PropRead.
Local Open Scope string_scope.
Local Open Scope list_scope.
Local Open Scope nat_scope.

(** in a syntax read from a text, a definition has exactly the texts that its expression denotes, at any
    depth of groups, choices and quantifiers, with whitespace between the items unless the definition is
    flagged nows or ws; nokw takes the keywords away from all but choices *)
Theorem C64_definition : forall text defs s, spells text defs -> Reads emptySyntax text REof s None ->
  let calls := flat_map textCalls defs in
  forall root, rootName calls = Some root ->
  forall name flags x w, In (mkTextDef name flags x) defs -> name <> root ->
  (texts calls root name w <-> ownTexts (whitespaceNames calls) (keywordTexts calls) (texts calls root) flags x w).
Proof. exact def_meantWs. Qed.
(** and so has the root, with whitespace around *)
Theorem C64_root : forall text defs s, spells text defs -> Reads emptySyntax text REof s None ->
  let calls := flat_map textCalls defs in
  forall root, rootName calls = Some root ->
  forall flags x w, In (mkTextDef root flags x) defs ->
  (texts calls root root w <-> exists u v z, w = u ++ v ++ z /\
     spaces (whitespaceNames calls) (texts calls root) u /\
     ownTexts (whitespaceNames calls) (keywordTexts calls) (texts calls root) flags x v /\
     spaces (whitespaceNames calls) (texts calls root) z).
Proof. exact root_meantWs. Qed.
(** without whitespace definitions in the text *)
Theorem C64_plain : forall text defs s name flags x root,
  spells text defs -> Reads emptySyntax text REof s None ->
  (forall d, In d defs -> hasFlag (tdFlags d) CWhitespace = false) ->
  In (mkTextDef name flags x) defs ->
  let calls := flat_map textCalls defs in
  forall w, texts calls root name w <->
    denotes (texts calls root) x w /\ (hasFlag flags CNoKeyword = true -> (exists options, x = EChoice options) \/ ~ In w (keywordTexts calls)).
Proof. exact text_meant. Qed.

(** C48, continued: the text of every node of a parsed tree is one that the expression of its definition
    denotes, with whitespace around it if the definition is the root *)
Theorem C48_nodes_partial : forall text defs s s' input e t toks n flags x,
  let calls := flat_map textCalls defs in
  spells text defs -> Reads emptySyntax text REof s None -> textReady defs -> sensibleRanges calls ->
  Parses s input e s' (Tree t toks) -> inTree n t -> In (mkTextDef (nName n) flags x) defs ->
  exists root u v w, rootName calls = Some root /\ nodeRunes toks n = u ++ v ++ w /\
    ownTexts (whitespaceNames calls) (keywordTexts calls) (texts calls root) flags x v /\
    (nName n <> root -> u = [] /\ w = []) /\
    spaces (whitespaceNames calls) (texts calls root) u /\ spaces (whitespaceNames calls) (texts calls root) w.
Proof. exact node_meantWs. Qed.

(** C35, continued: the normal form, which the textual form of a definition spells, denotes the same texts *)
Theorem C35_normal : forall env x w, denotes env (normalAll x) w <-> denotes env x w.
Proof. exact normal_same. Qed.
(** so the textual form of a definition read from a text spells an expression for the same texts.  Missing:
    the definitions that C35 is false of *)
Theorem C35_texts_partial : forall text defs s name flags x,
  Forall scalar text -> spells text defs -> Reads emptySyntax text REof s None -> In (mkTextDef name flags x) defs ->
  (forall m, In (ESymbol m) (inside x) -> In m (map tdName defs)) ->
  (forall chars, In (EText chars) (inside x) -> List.length chars = 1 \/ ~ In 34%Z chars) ->
  (forall items y b it, In (ESequence items) (inside x) -> In (y, b) items -> normalAll y = ESequence [it] -> normalBounds b = (0, 0)%Z) ->
  exists t N y, (forall k, N <= k -> formatOf k s name = Ok t) /\
    spells (stringRunes (name ++ "=" ++ t)) [mkTextDef name CNone y] /\
    forall env w, denotes env y w <-> denotes env x w.
Proof. exact printed_same. Qed.

(** ** examples *)
Definition wordText : list rune := runesOf "if:kw=""if""; word:nokw=[a-z]+; list:root=word ("","" (word | .{2}))*".
Definition listExpr : expr := ESequence [(ESymbol "word", (0, 0)%Z); (ESequence [(EText [44]%Z, (0, 0)%Z); (EChoice [ESymbol "word"; ESequence [(EAny, (2, 2)%Z)]], (0, 0)%Z)], (0, -1)%Z)].
Definition wordExpr : expr := ESequence [(EClass false [] [(97, 122)]%Z, (1, -1)%Z)].
Definition wordDefs : list textDef := [mkTextDef "if" CKeyword (EText [105; 102]%Z); mkTextDef "word" CNoKeyword wordExpr; mkTextDef "list" CRoot listExpr].
Definition wordSyntax : syntax := fst (rawAll emptySyntax (flat_map textCalls wordDefs)).
Example C64_example : spells wordText wordDefs /\ Reads emptySyntax wordText REof wordSyntax None /\
  (forall d, In d wordDefs -> hasFlag (tdFlags d) CWhitespace = false) /\ sensibleRanges (flat_map textCalls wordDefs) /\
  (exists s' t, Parses wordSyntax (runesOf "ab,12") REof s' (Tree t (runesOf "ab,12")) /\ nName t = "list") /\
  keywordTexts (flat_map textCalls wordDefs) = [runesOf "if"] /\
  (forall env, denotes env wordExpr (runesOf "if")) /\ (forall env : string -> list rune -> Prop, env "word" (runesOf "ab") -> denotes env listExpr (runesOf "ab,12")).
Proof.
  split; [apply (spells_run _ _ 3000); vm_compute; reflexivity|]. split; [exists 3000; vm_compute; reflexivity|].
  split; [intros d Hd; repeat (destruct Hd as [<-|Hd]; [reflexivity|]); destruct Hd|]. split; [apply sensibleb_ok; vm_compute; reflexivity|].
  split; [eexists; eexists; split; [exists 1000; vm_compute; reflexivity|reflexivity]|]. split; [reflexivity|].
  assert (Q1 : quantity 0 0 1) by (left; auto).
  split.
  - intros env. apply inTurn_one. exists 2. split; [right; cbn; lia|]. change (runesOf "if") with ([105%Z] ++ [102%Z] ++ []).
    repeat (constructor; [eexists; split; [reflexivity|right; exists 97%Z, 122%Z; split; [left; reflexivity|lia]]|]). constructor.
  - intros env He. cbn [denotes listExpr map fst snd]. change (runesOf "ab,12") with (runesOf "ab" ++ [44; 49; 50]%Z ++ []). constructor; [apply repeated_once; exact He|].
    constructor; [|constructor]. exists 1. split; [right; cbn; lia|]. cbn [repeat]. apply inTurn_one. change [44; 49; 50]%Z with ([44] ++ [49; 50] ++ [])%Z.
    constructor; [apply repeated_once; reflexivity|]. constructor; [|constructor]. apply repeated_once. right. left. apply inTurn_one. exists 2. split; [right; cbn; lia|].
    change [49; 50]%Z with ([49] ++ [50] ++ [])%Z. repeat (constructor; [eexists; reflexivity|]). constructor.
Qed.

(** with whitespace: the definitions of [sumText] (PropRead.v) *)
Example C64_spaced_example : exists s, Reads emptySyntax sumText REof s None /\ textReady sumDefs /\ sensibleRanges (flat_map textCalls sumDefs) /\
  rootName (flat_map textCalls sumDefs) = Some "sum" /\ whitespaceNames (flat_map textCalls sumDefs) = ["space"] /\
  (exists s' t, Parses s (runesOf "1 + 2 ") REof s' (Tree t (runesOf "1 + 2 ")) /\ nName t = "sum") /\
  forall env : string -> list rune -> Prop, env "num" (runesOf "1") -> env "num" (runesOf "2") -> env "space" (runesOf " ") ->
    denotesSpaced (spaces ["space"] env) env false false
      (ESequence [(ESymbol "num", (0, 0)%Z); (ESequence [(EClass false (runesOf "+-") [], (0, 0)%Z); (ESymbol "num", (0, 0)%Z)], (0, 3)%Z)]) (runesOf "1 + 2").
Proof.
  exists (fst (rawAll emptySyntax (flat_map textCalls sumDefs))).
  split; [exists 3000; vm_compute; reflexivity|]. split; [exact (proj1 C48_example)|]. split; [apply sensibleb_ok; vm_compute; reflexivity|]. split; [reflexivity|]. split; [reflexivity|].
  split; [eexists; eexists; split; [exists 1000; vm_compute; reflexivity|reflexivity]|].
  intros env H1 H2 Hs. set (sp := spaces ["space"] env).
  assert (Hsp : sp (runesOf " ")) by (exists 1; cbn [repeat]; apply inTurn_one; exists "space"; split; [left; reflexivity|exact Hs]).
  cbn [denotesSpaced map fst snd]. change (runesOf "1 + 2") with (runesOf "1" ++ [] ++ (runesOf " + 2" ++ [])).
  eapply spaced_first with (k := 0); [left; auto|exact H1|constructor|].
  eapply spaced_next with (k := 0); [right; cbn; lia| |constructor]. cbn [repeat]. apply inTurn_one. exists (runesOf " "), (runesOf "+ 2"). split; [reflexivity|]. split; [exact Hsp|].
  change (runesOf "+ 2") with (runesOf "+" ++ [] ++ (runesOf " 2" ++ [])). eapply spaced_first with (k := 0); [left; auto| |constructor|].
  - exists 43%Z. split; [reflexivity|]. left. left. reflexivity.
  - eapply spaced_next with (k := 0); [left; auto| |constructor]. cbn [repeat]. apply inTurn_one. exists (runesOf " "), (runesOf "2"). split; [reflexivity|]. split; [exact Hsp|exact H2].
Qed.

Print Assumptions C64_definition.
Print Assumptions C64_root.
Print Assumptions C64_plain.
Print Assumptions C48_nodes_partial.
Print Assumptions C35_normal.
Print Assumptions C35_texts_partial.
