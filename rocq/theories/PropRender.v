(** C51: the texts of nodes and errors. *)
From Verif Require Import TextSpec Base Utf8 Parser Build Syntax Lang Sound Grammar WsLang ApiSpec RefCheck PropRefuted PropParse Render RenderFacts.

(** two nodes of parsed trees that print alike have the same name, span and text *)
Theorem C51_node_text : forall calls s s1 input r t toks n calls' s' s1' input' r' t' toks' n',
  Defined calls s -> wsReady calls -> sensibleRanges calls -> Parses s input r s1 (Tree t toks) -> inTree n t ->
  Defined calls' s' -> wsReady calls' -> sensibleRanges calls' -> Parses s' input' r' s1' (Tree t' toks') -> inTree n' t' ->
  nodeString toks n = nodeString toks' n' -> nName n = nName n' /\ nFrom n = nFrom n' /\ nTo n = nTo n' /\ nodeText toks n = nodeText toks' n'.
Proof. exact node_text. Qed.
(** the fields of the text of a node, separated by colons: name, start and end in decimal, text *)
Theorem C51_node_fields : forall calls s s1 input r t toks n,
  Defined calls s -> wsReady calls -> sensibleRanges calls -> Parses s input r s1 (Tree t toks) -> inTree n t ->
  nodeFields (nodeString toks n) = (nName n, Some (Z.of_nat (nFrom n)), Some (Z.of_nat (nTo n)), nodeText toks n).
Proof. exact node_fields. Qed.
(** two errors of Parse on the same input that print alike are the same error, position and
    definition included; the errors of the reader have texts of their own *)
Theorem C51_error_text : forall s input r foreign s1 s2 r2 s' e e', Parses s input r s1 (Failed e) -> Parses s' input r2 s2 (Failed e') -> own e -> own e' ->
  errorString foreign e = errorString foreign e' -> e = e'.
Proof. exact error_text. Qed.
(** in general, two errors that print alike are the same but for the offset of a parse error *)
Theorem C51_errors_differ : forall foreign e e', own e -> own e' -> errorString foreign e = errorString foreign e' -> sameError e e'.
Proof. exact error_inj. Qed.
(** a parse error prints its position, counted from one *)
Theorem C51_position : forall foreign s input r s1 off line col def, Parses s input r s1 (Failed (ErrParse off line col def)) ->
  columnOf (firstn off input) col /\
  errorString foreign (ErrParse off line col def) =
    ("<input>:" ++ itoaNat (1 + newlines (firstn off input)) ++ ":" ++ itoaNat (1 + col) ++ ":parse failed, parsing: " ++ def)%string.
Proof. exact position_text. Qed.
(** an error and a node, and their texts *)
Example C51_example_error : exists s1 e, Parses demoSyntax (runesOf "a + let") REof s1 (Failed e) /\ own e /\ errorString (fun _ => EmptyString) e = "<input>:1:8:parse failed, parsing: letter"%string.
Proof.
  assert (H : exists s1, Parses demoSyntax (runesOf "a + let") REof s1 (Failed (ErrParse 7 0 7 "letter"))) by (apply run_parse; vm_compute; reflexivity).
  destruct H as [s1 H]. eexists s1, _. split; [exact H|]. split; [exact I|]. vm_compute. reflexivity.
Qed.
Example C51_example_node : exists s1 t n, Parses demoSyntax demoText REof s1 (Tree t demoText) /\ inTree n t /\ nodeString demoText n = "sum:4:10:a + bc"%string.
Proof.
  destruct demo_parses as [s1 H]. exists s1, demoTree, (Node "sum" 4 10 [Node "id" 4 5 []; Node "id" 8 10 []]). split; [exact H|]. split; [|vm_compute; reflexivity].
  eapply inTree_below; [right; left; reflexivity|]. eapply inTree_below; [left; reflexivity|]. apply inTree_here.
Qed.
Print Assumptions C51_node_text.
Print Assumptions C51_node_fields.
Print Assumptions C51_error_text.
Print Assumptions C51_errors_differ.
Print Assumptions C51_position.
