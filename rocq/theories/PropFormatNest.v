(** C35, continued: the textual form of definitions with groups and choices, read as a syntax. *)
From Verif Require Import Base Utf8 Utf8Facts Parser Build Syntax SyntaxFacts Define Rep SelfGrammar ReadUse DefSpec ApiSpec ReadFacts CliFacts Grammar RefSpec RefApi ReadSpec SelfLang ReadLang ReadMeans Format FormatSpec FormatNestSpec FormatNestBack FormatAllSpec FormatAll PropFormat.
Local Open Scope string_scope.
Local Open Scope list_scope.
Local Open Scope nat_scope.

(** definitions read from a text, of any depth: the text name=t, where t is the textual form of a
    definition, spells that definition.  Missing: literals with quotes (C35_literal_refuted) and groups of
    one quantified item that are quantified again (C35_quantifier_refuted), of which it is false *)
Theorem C35_nested_partial : forall text defs s name flags x,
  spells text defs -> Reads emptySyntax text REof s None -> In (mkTextDef name flags x) defs -> plainName name ->
  printable (map tdName defs) x ->
  exists t N, (forall k, N <= k -> formatOf k s name = Ok t) /\
    spells (stringRunes (name ++ "=" ++ t)) [mkTextDef name CNone (normalAll x)].
Proof. exact nested_back. Qed.

(** every definition of every text, with what the text itself leaves open: the references are to
    definitions of the text; literals have no quotes; and a single item with a quantifier is not quantified
    a second time *)
Theorem C35_read_partial : forall text defs s name flags x,
  Forall scalar text -> spells text defs -> Reads emptySyntax text REof s None -> In (mkTextDef name flags x) defs ->
  (forall m, In (ESymbol m) (inside x) -> In m (map tdName defs)) ->
  (forall chars, In (EText chars) (inside x) -> List.length chars = 1 \/ ~ In 34%Z chars) ->
  (forall items y b it, In (ESequence items) (inside x) -> In (y, b) items -> normalAll y = ESequence [it] -> normalBounds b = (0, 0)%Z) ->
  exists t N, (forall k, N <= k -> formatOf k s name = Ok t) /\
    spells (stringRunes (name ++ "=" ++ t)) [mkTextDef name CNone (normalAll x)].
Proof. exact all_back. Qed.

(** choices of references, made with Choice: the syntax language has no choices of one option *)
Theorem C35_choice_partial : forall calls s name ct options,
  Defined calls s -> In (DChoice name ct options) calls -> plainName name -> 2 <= List.length options ->
  (forall o, In o options -> plainName o /\ In o (map callName calls)) ->
  exists t N, (forall k, N <= k -> formatOf k s name = Ok t) /\ rereads name t (DChoice name CNone options).
Proof. exact choice_back. Qed.

(** ** examples *)
Definition deepText : list rune := runesOf "a=[b]; c = (a | (""x"" a)* [^q] | .{2,3})? a+ (a ""yz"" | [0-9]){4}; d = a | c* | (c | ""uv"" | (a | c)) (a*) | (a | c){1} (a{1,1})? | ((a c){1}){0}".
Definition deepC : expr := ESequence [
  (EChoice [ESymbol "a"; ESequence [(ESequence [(EText [120]%Z, (0, 0)%Z); (ESymbol "a", (0, 0)%Z)], (0, -1)%Z); (EClass true [113]%Z [], (0, 0)%Z)]; ESequence [(EAny, (2, 3)%Z)]], (0, 1)%Z);
  (ESymbol "a", (1, -1)%Z);
  (EChoice [ESequence [(ESymbol "a", (0, 0)%Z); (EText [121; 122]%Z, (0, 0)%Z)]; EClass false [] [(48, 57)]%Z], (4, 4)%Z)].
Definition deepD : expr := EChoice [ESymbol "a"; ESequence [(ESymbol "c", (0, -1)%Z)]; ESequence [(EChoice [ESymbol "c"; EText [117; 118]%Z; EChoice [ESymbol "a"; ESymbol "c"]], (0, 0)%Z); (ESequence [(ESymbol "a", (0, -1)%Z)], (0, 0)%Z)];
  ESequence [(EChoice [ESymbol "a"; ESymbol "c"], (1, 1)%Z); (ESequence [(ESymbol "a", (1, 1)%Z)], (0, 1)%Z)];
  ESequence [(ESequence [(ESequence [(ESymbol "a", (0, 0)%Z); (ESymbol "c", (0, 0)%Z)], (1, 1)%Z)], (0, 0)%Z)]].
Definition deepDefs : list textDef := [mkTextDef "a" CNone (EClass false [98]%Z []); mkTextDef "c" CNone deepC; mkTextDef "d" CNone deepD].
Definition deepSyntax : syntax := fst (rawAll emptySyntax (flat_map textCalls deepDefs)).
Ltac eachOf Hin := repeat (destruct Hin as [Hin|Hin]; [first [injection Hin as <- <-|subst]|]); [..|destruct Hin].
Ltac isPrintable :=
  lazymatch goal with
  | |- printable _ (ESequence _) =>
    apply printable_sequence; [discriminate
      |let Hin := fresh in intros ? ? Hin; eachOf Hin; isPrintable
      |let Hin := fresh in intros ? ? Hin; eachOf Hin; vm_compute; split; reflexivity
      |let Hin := fresh in intros ? ? ? Hin; repeat (destruct Hin as [Hin|Hin]; [injection Hin as <- <-; first [reflexivity|let X := fresh in intros X; vm_compute in X; discriminate X]|]); destruct Hin]
  | |- printable _ (EChoice _) =>
    apply printable_choice; [simpl; lia|let Hin := fresh in intros ? Hin; eachOf Hin; isPrintable]
  | |- printable _ (ESymbol _) => apply printable_flat; [apply plain_ascii; try discriminate; vm_compute; reflexivity|let E := fresh in intros ? E; injection E as <-; simpl; tauto]
  | |- printable _ (EText [_]) => apply printable_flat; [split; [repeat constructor; unfold runeError; try lia; discriminate|left; reflexivity]|discriminate]
  | |- printable _ (EText _) => apply printable_flat; [split; [repeat constructor; unfold runeError; try lia; discriminate|right; simpl; lia]|discriminate]
  | |- printable _ _ => apply printable_flat; [first [exact I|split; repeat constructor; cbn [fst snd]; unfold runeError; try lia; discriminate]|discriminate]
  end.
Example C35_nested_example : spells deepText deepDefs /\ Reads emptySyntax deepText REof deepSyntax None /\
  In (mkTextDef "c" CNone deepC) deepDefs /\ In (mkTextDef "d" CNone deepD) deepDefs /\ printable (map tdName deepDefs) deepC /\ printable (map tdName deepDefs) deepD /\
  formatOf 20 deepSyntax "c" = Ok "(a | ([x] a)* [^q] | .{2,3})? a+ (a ""yz"" | [0-9]){4}" /\
  formatOf 20 deepSyntax "d" = Ok "a | c* | (c | ""uv"" | a | c) a* | (a | c) a? | (a c)" /\
  normalAll deepD = EChoice [ESymbol "a"; ESequence [(ESymbol "c", (0, -1)%Z)]; ESequence [(EChoice [ESymbol "c"; EText [117; 118]%Z; ESymbol "a"; ESymbol "c"], (0, 0)%Z); (ESymbol "a", (0, -1)%Z)];
    ESequence [(EChoice [ESymbol "a"; ESymbol "c"], (0, 0)%Z); (ESymbol "a", (0, 1)%Z)]; ESequence [(ESymbol "a", (0, 0)%Z); (ESymbol "c", (0, 0)%Z)]].
Proof.
  split; [apply (spells_run _ _ 3000); vm_compute; reflexivity|]. split; [exists 3000; vm_compute; reflexivity|].
  split; [right; left; reflexivity|]. split; [right; right; left; reflexivity|]. split; [unfold deepC; isPrintable|]. split; [unfold deepD; isPrintable|]. repeat split; vm_compute; reflexivity.
Qed.

Ltac eachInside := let Hin := fresh in intros Hin; cbn [inside deepC deepD flat_map fst app] in Hin; repeat (destruct Hin as [Hin|Hin]; [first [discriminate Hin|injection Hin as <- <-|injection Hin as <-]|]); [..|destruct Hin].
Example C35_read_example : forall x, In x [deepC; deepD] -> Forall scalar deepText /\
  (forall m, In (ESymbol m) (inside x) -> In m (map tdName deepDefs)) /\
  (forall chars, In (EText chars) (inside x) -> List.length chars = 1 \/ ~ In 34%Z chars) /\
  (forall items y b it, In (ESequence items) (inside x) -> In (y, b) items -> normalAll y = ESequence [it] -> normalBounds b = (0, 0)%Z).
Proof.
  intros x Hx. split; [apply Forall_forall; intros c Hc; unfold deepText in Hc; vm_compute in Hc; repeat (destruct Hc as [<-|Hc]; [split; lia|]); destruct Hc|].
  destruct Hx as [<-|[<-|[]]]; (split; [intros m; unfold deepC, deepD; eachInside; simpl; tauto|]; split; [intros cs; unfold deepC, deepD; eachInside; first [left; reflexivity|right; simpl; intuition discriminate]|];
    intros items y b it; unfold deepC, deepD; eachInside; intros Hin2; repeat (destruct Hin2 as [Hin2|Hin2]; [injection Hin2 as <- <-; first [reflexivity|intros X; vm_compute in X; discriminate X]|]); destruct Hin2).
Qed.

Definition optionCalls : list defcall := [DAnyChar "a" CNone; DCharSequence "b" CNone [120; 121]%Z; DChoice "c" CRoot ["b"; "c"; "a"]].
Example C35_choice_example : Defined optionCalls (fst (defineAll emptySyntax optionCalls)) /\ Forall plainName (map callName optionCalls) /\
  formatOf 3 (fst (defineAll emptySyntax optionCalls)) "c" = Ok "b | c | a".
Proof. split; [vm_compute; reflexivity|]. split; [|vm_compute; reflexivity]. repeat constructor; apply plain_ascii; try discriminate; vm_compute; reflexivity. Qed.

Print Assumptions C35_nested_partial.
Print Assumptions C35_read_partial.
Print Assumptions C35_choice_partial.
