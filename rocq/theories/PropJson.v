(** Property C52: the text printed by show. *)
From Verif Require Import Base Utf8 Parser Build Syntax SelfData Define ApiSpec Cli CliSpec Json JsonSpec JsonFacts.
Local Open Scope string_scope.
Local Open Scope list_scope.

(** the text printed by show is a JSON document that describes the tree of the input: the names, the
    spans, the structure and the texts of the leaves.  [modern]: for older and newer versions of the
    JSON encoder. *)
Theorem C52_show_json_partial : forall modern w args v rest code text,
  isHelp args = false -> parseFlags showFlags args [] = Some (v, rest) -> blank (flagValue "indent" v) ->
  (exists fuel, showText modern fuel w args = Ok (code, Some text)) ->
  exists t toks j d, parsesWith w v rest t toks /\ code = 0%Z /\ readJson text = Some j /\ describes j d /\ described toks t d.
Proof. exact show_text. Qed.
(** it is printed for every input that is parsed *)
Theorem C52_show_prints : forall modern w args v rest t toks,
  isHelp args = false -> parseFlags showFlags args [] = Some (v, rest) -> parsesWith w v rest t toks ->
  exists fuel text, showText modern fuel w args = Ok (0%Z, Some text).
Proof. exact show_text_some. Qed.
(** for every tree and text of tokens *)
Theorem C52_tree_json : forall modern pretty indent toks n, blank indent ->
  exists j d, readJson (marshal modern pretty indent (mapNode toks n) ++ [10%Z]) = Some j /\ describes j d /\ described toks n d.
Proof. exact marshal_read. Qed.
(** a JSON value describes at most one tree *)
Theorem C52_one_tree : forall j d d', describes j d -> describes j d' -> d = d'.
Proof. intros j d d' H. exact (describes_one j d H d'). Qed.
(** strings made of characters are printed without loss *)
Theorem C52_characters : forall w, inUtf8 (runesString w) = runesString w.
Proof. exact clean_runes. Qed.
(** with an indentation that is not white space, the text is not JSON *)
Theorem C52_indent_refuted : exists w args text, isHelp args = false /\
  (exists fuel, showText true fuel w args = Ok (0%Z, Some text)) /\ readJson text = None.
Proof.
  exists (mkWorld (fun _ => None) (Some (bytesOf "x", REof))), ["-indent"; "--"; "-syntax-string"; "a=""x"""]. eexists. split; [reflexivity|]. split.
  - exists 300. vm_compute. reflexivity.
  - vm_compute. reflexivity.
Qed.

(** a leaf with quotes, a tag and a tab; with indentation *)
Example C52_example : exists w args text j, isHelp args = false /\
  (exists fuel, showText false fuel w args = Ok (0%Z, Some text)) /\ readJson text = Some j /\
  describes j (JNode "a" 0 4 (Some (String """" (String "<" (String (ascii_of_nat 9) (String "\" EmptyString))))) None).
Proof.
  exists (mkWorld (fun _ => None) (Some ([34; 60; 9; 92]%Z, REof))), ["-pretty"; "-syntax-string"; "a=.+"]. eexists. eexists. split; [reflexivity|]. split; [|split].
  - exists 300. vm_compute. reflexivity.
  - vm_compute. reflexivity.
  - apply describes_leaf; repeat split.
Qed.
Example C52_example_text : marshal true false "" (mapNode (runesOf "a<b") (Node "r" 0 3 [Node "l" 0 2 []; Node "e" 3 3 []])) =
  bytesOf "{""name"":""r"",""from"":0,""to"":3,""nodes"":[{""name"":""l"",""from"":0,""to"":2,""text"":""a\u003c""},{""name"":""e"",""from"":3,""to"":3}]}".
Proof. vm_compute. reflexivity. Qed.
(** the reader refuses other texts *)
Example C52_reader : readJson (bytesOf "{""a"": [1, 2") = None /\ readJson (bytesOf "[1] x") = None /\ readJson (bytesOf "{""a"" 1}") = None /\
  readJson (bytesOf " { ""a"" : [ 1 , ""b\u0041\n"" ] , ""c"":{} } ") =
  Some (JObject [("a", JArray [JNumber 1; JString (String "b" (String "A" (String (ascii_of_nat 10) EmptyString)))]); ("c", JObject [])]).
Proof. repeat split; vm_compute; reflexivity. Qed.

Print Assumptions C52_show_json_partial.
Print Assumptions C52_show_prints.
Print Assumptions C52_tree_json.
Print Assumptions C52_one_tree.
Print Assumptions C52_characters.
Print Assumptions C52_indent_refuted.
