(** C39: Text() of the nodes and the bytes of the document; C10: what holds about invalid bytes. *)
From Verif Require Import TextSpec Base Utf8 Parser Build Syntax Grammar ApiSpec ErrFacts ApiFacts TextFacts PropParse.

(** C39: the bytes of the text of the root node are the bytes of the document *)
Theorem C39_root_text : forall calls s bs e s' t toks,
  Forall (fun b => 0 <= b < 256)%Z bs -> Defined calls s -> wsReady calls ->
  Parses s (decodeUtf8 bs) e s' (Tree t toks) -> bytesOf (nodeText toks t) = bs.
Proof. exact root_text_bytes. Qed.
(** the bytes of the text of any node are found in the document behind the bytes of nFrom characters
    and hold nTo - nFrom characters *)
Theorem C39_node_text : forall s bs e s' t toks n,
  Forall (fun b => 0 <= b < 256)%Z bs -> Parses s (decodeUtf8 bs) e s' (Tree t toks) -> inTree n t ->
  exists before after,
    bs = before ++ bytesOf (nodeText toks n) ++ after /\
    decodeUtf8 before = firstn (nFrom n) (decodeUtf8 bs) /\
    List.length (decodeUtf8 before) = nFrom n /\
    List.length (decodeUtf8 (bytesOf (nodeText toks n))) = nTo n - nFrom n.
Proof. exact text_bytes. Qed.
(** 12 bytes, 6 characters: a, e with acute accent, the euro sign, an emoji, a and b *)
Definition manyBytes : list Z := [97; 195; 169; 226; 130; 172; 240; 159; 152; 128; 97; 98]%Z.
Definition anySyntax : syntax :=
  fst (defineAll emptySyntax [DAnyChar "x" CAlias; DSequence "two" CNone [mkItem "x" 2 2]; DSequence "doc" CRoot [mkItem "two" 1 0]]%string).
Example C39_example : exists s',
  Parses anySyntax (decodeUtf8 manyBytes) REof s'
    (Tree (Node "doc" 0 6 [Node "two" 0 2 []; Node "two" 2 4 []; Node "two" 4 6 []]) (decodeUtf8 manyBytes)) /\
  bytesOf (nodeText (decodeUtf8 manyBytes) (Node "two" 2 4 [])) = [226; 130; 172; 240; 159; 152; 128]%Z.
Proof.
  destruct (Parse 100 anySyntax (decodeUtf8 manyBytes) REof) as [[s' o]|w|] eqn:E; vm_compute in E; [|discriminate|discriminate].
  exists s'. split; [|vm_compute; reflexivity]. exists 100. inversion E; subst. reflexivity.
Qed.

(** C10, what holds: input with an invalid byte sequence (decoded as U+FFFD) is never accepted, and
    ErrInvalidUnicodeCharacter is returned only for input that contains one *)
Theorem C10_never_accepted_partial : forall s input e s' t toks, Parses s input e s' (Tree t toks) -> ~ In runeError input.
Proof. intros. eapply Parses_spans; eauto. Qed.
Theorem C10_reported_partial : forall s input e s', Parses s input e s' (Failed ErrInvalidUnicodeCharacter) -> In runeError input.
Proof.
  intros s input e s' H. apply Parses_error in H; [|intros X; exact X]. destruct H as (fuel & root & _ & H). apply run_error in H.
  destruct H as [[_ H]|[(k & H & _)|(o & l & c & a & ob & H & _)]]; try discriminate. exact H.
Qed.
Example C10_example : exists s', Parses anySyntax (decodeUtf8 [97; 255]%Z) REof s' (Failed ErrInvalidUnicodeCharacter).
Proof.
  destruct (Parse 100 anySyntax (decodeUtf8 [97; 255]%Z) REof) as [[s' o]|w|] eqn:E; vm_compute in E; [|discriminate|discriminate].
  exists s', 100. inversion E; subst. reflexivity.
Qed.

Print Assumptions C39_root_text.
Print Assumptions C39_node_text.
Print Assumptions C10_never_accepted_partial.
Print Assumptions C10_reported_partial.
