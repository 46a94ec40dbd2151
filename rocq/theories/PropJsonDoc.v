(** C63: the JSON example. *)
From Verif Require Import Base Utf8 Parser Build Syntax Lang Grammar WsLang ApiSpec RefSpec RefCheck ReadSpec ReadLang PropRefuted PropRead JsonDoc JsonSyntax JsonDocApi.

(** C63: with the syntax of examples/json.treerack Parse accepts exactly the JSON documents, where
    backspace and form feed are whitespace too, strings contain all characters but quotes,
    backslashes and the whitespace characters except space, and digits after backslash and u are
    lower case.  With the characters of RFC 8259 this is false: see [C63_rfc_refuted]. *)
Theorem C63_documents_partial : forall s s' input, Reads emptySyntax jsonSyntax REof s None -> Inits s s' None -> ~ In runeError input ->
  ((exists t, Parses s input REof s' (Tree t input)) <-> document exampleBlank examplePlain exampleHex input).
Proof. exact json_documents. Qed.

(** C63: the documents of RFC 8259 without upper case digits after backslash and u, and without
    U+FFFD, are accepted; and when the characters of the input are those that RFC 8259 allows
    somewhere, nothing else is accepted. *)
Theorem C63_rfc_partial : forall s s' input, Reads emptySyntax jsonSyntax REof s None -> Inits s s' None -> ~ In runeError input ->
  (document rfcBlank rfcPlain exampleHex input -> exists t, Parses s input REof s' (Tree t input)) /\
  ((forall r, In r input -> (32 <= r <= 1114111 \/ r = 9 \/ r = 10 \/ r = 13)%Z) -> (exists t, Parses s input REof s' (Tree t input)) -> document rfcBlank rfcPlain rfcHex input).
Proof. exact json_rfc. Qed.

(** there is such a syntax, and it accepts a document *)
Definition someJson : list rune := runesOf " { ""a"" : [ 1, -2.5e+10 , ""x\ty\u00af"" ] , ""b"": {} ,""c"":[true,false , null]}".
Example C63_example : exists s s' t, Reads emptySyntax jsonSyntax REof s None /\ Inits s s' None /\ Parses s someJson REof s' (Tree t someJson) /\ document rfcBlank rfcPlain rfcHex someJson.
Proof.
  destruct (run_tree jsonRead someJson REof ltac:(vm_compute; reflexivity)) as (s' & t & H). exists jsonRead, s', t. pose proof (Parses_Inits _ _ _ _ _ _ H) as Hi. split; [exact json_reads|]. split; auto. split; auto.
  destruct (allowed_run someJson ltac:(vm_compute; reflexivity)) as [Hv Ha]. apply (C63_rfc_partial jsonRead s' someJson json_reads Hi); eauto.
Qed.

(** upper case digits are rejected, a string with U+FFFD makes Parse panic (see C10), other control characters are accepted in strings, and
    backspace is accepted as whitespace *)
Definition upperHex : list rune := runesOf """\u00AF""".
Definition replacement : list rune := [34; 65533; 34]%Z.
Definition control : list rune := [34; 1; 34]%Z.
Definition backspace : list rune := [8; 48]%Z.
Theorem C63_rfc_refuted : exists s, Reads emptySyntax jsonSyntax REof s None /\
  (document rfcBlank rfcPlain rfcHex upperHex /\ exists s' err, Parses s upperHex REof s' (Failed err)) /\
  (document rfcBlank rfcPlain rfcHex replacement /\ ParsePanics s replacement REof) /\
  (~ document rfcBlank rfcPlain rfcHex control /\ exists s' t, Parses s control REof s' (Tree t control)) /\
  (~ document rfcBlank rfcPlain rfcHex backspace /\ exists s' t, Parses s backspace REof s' (Tree t backspace)).
Proof.
  assert (Str : forall u, pieces rfcPlain rfcHex u -> document rfcBlank rfcPlain rfcHex (34%Z :: u ++ [34%Z])).
  { intros u Hu. rewrite <- (app_nil_r (34%Z :: u ++ [34%Z])). apply (document_value _ _ _ [] (34%Z :: u ++ [34%Z]) []); [constructor| |constructor]. apply value_string. constructor. auto. }
  exists jsonRead. split; [exact json_reads|]. split; [|split; [|split]].
  - split; [|apply run_failure; vm_compute; reflexivity]. apply (Str [92; 117; 48; 48; 65; 70]%Z). rewrite <- (app_nil_r [92; 117; 48; 48; 65; 70]%Z). constructor; [|constructor]. constructor; unfold rfcHex; lia.
  - split; [|apply (run_panic _ _ _ PanicIndex); vm_compute; reflexivity]. apply (Str [65533]%Z). rewrite <- (app_nil_r [65533]%Z). constructor; [|constructor]. constructor. unfold rfcPlain. lia.
  - split; [intros H; apply (rfc_allowed _ 1%Z) in H; [unfold allowed in H; lia|simpl; auto]|apply run_tree; vm_compute; reflexivity].
  - split; [intros H; apply (rfc_allowed _ 8%Z) in H; [unfold allowed in H; lia|simpl; auto]|apply run_tree; vm_compute; reflexivity].
Qed.

Print Assumptions C63_documents_partial.
Print Assumptions C63_rfc_partial.
Print Assumptions C63_rfc_refuted.
