(** C61: alias definitions written out in place of the references. *)
From Verif Require Import Base Utf8 Parser Build Syntax Grammar WsLang ApiSpec InitFuel RefSpec RefCheck WsApi ApiFacts PropRef PropRefuted PropDefine PropOrder InlineSpec InlineApi.

(** C61: replacing references to alias sequences by their items, and references to alias choices in
    choices by their options, or the other way around giving a name to some of the items or options,
    leaves the accepted inputs and their trees as they are.  [spacedAlike]: with whitespace
    definitions, the items must take whitespace as the sequence they are moved to, and the first
    one must not be one that may be missing and may be repeated, see [C61_conditions_needed]. *)
Theorem C61_written_out : forall calls sel s s' s1 s1', Defined calls s -> Defined (map (writeOut calls sel) calls) s' ->
  (forall n, sel n = true -> rootName calls <> Some n) -> spacedAlike calls sel ->
  refersToDefs calls -> literalKeywords calls -> nokwOnSequences calls -> noLeftRecursion calls ->
  Inits s s1 None -> Inits s' s1' None ->
  forall input t toks, ~ In runeError input -> (Parses s input REof s1 (Tree t toks) <-> Parses s' input REof s1' (Tree t toks)).
Proof. exact write_trees. Qed.

(** calls with an argument list and a choice of its own for names *)
Definition named : list defcall :=
  [ DClass "space" (N.lor CWhitespace CAlias) false (runesOf " ") [];
    DCharSequence "let" CKeyword (runesOf "let");
    DClass "letter" CAlias false [] [(97, 122)%Z];
    DSequence "id" (N.lor CNoWhitespace CNoKeyword) [mkItem "letter" 1 0];
    DCharSequence "open" CAlias (runesOf "(");
    DCharSequence "close" CAlias (runesOf ")");
    DSequence "args" CAlias [mkItem "open" 1 2; mkItem "expr" 0 3; mkItem "close" 1 1];
    DSequence "call" CNone [mkItem "id" 1 1; mkItem "args" 1 1; mkItem "args" 0 1];
    DChoice "name" CAlias ["let"; "id"];
    DChoice "expr" CAlias ["name"; "call"];
    DSequence "stmt" CRoot [mkItem "let" 0 1; mkItem "expr" 1 1] ]%string.
Definition chosen (n : string) : bool := (String.eqb n "args" || String.eqb n "name")%bool.
Definition spelled : list defcall := map (writeOut named chosen) named.
Definition namedText : list rune := runesOf "let f ( a g(b) )".
Definition namedTree : node :=
  Node "stmt" 0 16 [Node "let" 0 3 []; Node "call" 4 16 [Node "id" 4 5 []; Node "id" 8 9 []; Node "call" 10 15 [Node "id" 10 11 []; Node "id" 12 13 []]]].
Example spelled_calls : nth 7 spelled (DAnyChar "" CNone) = DSequence "call" CNone [mkItem "id" 1 1; mkItem "open" 1 2; mkItem "expr" 0 3; mkItem "close" 1 1; mkItem "args" 0 1]%string /\
  nth 9 spelled (DAnyChar "" CNone) = DChoice "expr" CAlias ["let"; "id"; "call"]%string.
Proof. split; vm_compute; reflexivity. Qed.
Lemma named_spaced : spacedAlike named chosen.
Proof.
  intros _ n ct items it ctX itemsX Hin Hit Ho Hb. unfold seqBody in Hb. destruct (chosen (siName it)) eqn:Ec; [|discriminate]. unfold chosen in Ec. apply orb_true_iff in Ec. destruct Ec as [Ec|Ec]; apply String.eqb_eq in Ec; rewrite Ec in Hb; vm_compute in Hb; [|discriminate]. injection Hb as <- <-.
  repeat (destruct Hin as [Hin|Hin]; [try discriminate; injection Hin as <- <- <-; repeat (destruct Hit as [<-|Hit]; [try discriminate; cbn [siName] in Ec; try discriminate|]); try destruct Hit; (split; [reflexivity|]; intros _; eexists _, _; split; [reflexivity|left; discriminate])|]); destruct Hin.
Qed.
Example C61_example : Defined named (defined named) /\ Defined spelled (defined spelled) /\ (forall n, chosen n = true -> rootName named <> Some n) /\ spacedAlike named chosen /\
  refersToDefs named /\ literalKeywords named /\ nokwOnSequences named /\ noLeftRecursion named /\
  (exists s1, Inits (defined named) s1 None /\ Parses (defined named) namedText REof s1 (Tree namedTree namedText)) /\
  (exists s1, Inits (defined spelled) s1 None /\ Parses (defined spelled) namedText REof s1 (Tree namedTree namedText)).
Proof.
  split; [vm_compute; reflexivity|]. split; [vm_compute; reflexivity|].
  split; [intros n H; apply orb_true_iff in H; destruct H as [H|H]; apply String.eqb_eq in H; subst; discriminate|]. split; [exact named_spaced|].
  split; [intros d Hd; repeat (destruct Hd as [<-|Hd]; [vm_compute; intuition (subst; simpl; tauto)|]); destruct Hd|].
  split; [intros d Hd Hf; repeat (destruct Hd as [<-|Hd]; [vm_compute in Hf; eauto; discriminate|]); destruct Hd|].
  split; [intros n ct os Hd; repeat (destruct Hd as [Hd|Hd]; [inversion Hd; reflexivity|]); destruct Hd|].
  split; [apply (leftFree_ok named 20); vm_compute; reflexivity|].
  split.
  - assert (H : exists s', Parses (defined named) namedText REof s' (Tree namedTree namedText)) by (apply run_parse; vm_compute; reflexivity).
    destruct H as [s1 H]. exists s1. split; [eapply Parses_Inits; eauto|exact H].
  - assert (H : exists s', Parses (defined spelled) namedText REof s' (Tree namedTree namedText)) by (apply run_parse; vm_compute; reflexivity).
    destruct H as [s1 H]. exists s1. split; [eapply Parses_Inits; eauto|exact H].
Qed.

(** with whitespace the position of a first item that may be missing and may be repeated, and nows on the sequence, make a
    difference: the two syntaxes have different trees for the same text, and one accepts a text that
    the other one rejects *)
Definition wsTail (ct : commitType) (mn : Z) : list defcall :=
  [ DClass "space" (N.lor CWhitespace CAlias) false (runesOf " ") []; lit "a" "a"; lit "b" "b";
    DSequence "tail" (N.lor CAlias ct) [mkItem "b" mn 2];
    DSequence "item" CNone [one "a"; one "tail"]; DSequence "doc" CRoot [one "item"] ]%string.
Definition onlyTail (n : string) : bool := String.eqb n "tail".
Lemma init_state s s2 s1 input e out : Inits s s2 None -> Parses s input e s1 out -> s1 = s2.
Proof.
  intros (f' & HI') HP. apply Parses_run in HP. destruct HP as (f & r & HI & _). destruct (Nat.le_ge_cases f f') as [L|L].
  - pose proof (Init_mono _ _ s L) as X. rewrite HI in X. specialize (X ltac:(discriminate)). congruence.
  - pose proof (Init_mono _ _ s L) as X. rewrite HI' in X. specialize (X ltac:(discriminate)). congruence.
Qed.
Theorem C61_conditions_needed :
  (exists s1 s1' t t', Inits (defined (wsTail CNone 0)) s1 None /\ Inits (defined (map (writeOut (wsTail CNone 0) onlyTail) (wsTail CNone 0))) s1' None /\
    Parses (defined (wsTail CNone 0)) (runesOf "a ") REof s1 (Tree t (runesOf "a ")) /\
    Parses (defined (map (writeOut (wsTail CNone 0) onlyTail) (wsTail CNone 0))) (runesOf "a ") REof s1' (Tree t' (runesOf "a ")) /\ t <> t') /\
  (exists s1 s1' t' err, Inits (defined (wsTail CNoWhitespace 1)) s1 None /\ Inits (defined (map (writeOut (wsTail CNoWhitespace 1) onlyTail) (wsTail CNoWhitespace 1))) s1' None /\
    Parses (defined (wsTail CNoWhitespace 1)) (runesOf "a b b") REof s1 (Failed err) /\
    Parses (defined (map (writeOut (wsTail CNoWhitespace 1) onlyTail) (wsTail CNoWhitespace 1))) (runesOf "a b b") REof s1' (Tree t' (runesOf "a b b"))).
Proof.
  split.
  - assert (H : exists s', Parses (defined (wsTail CNone 0)) (runesOf "a ") REof s' (Tree (Node "doc" 0 2 [Node "item" 0 2 []]) (runesOf "a "))) by (apply run_parse; vm_compute; reflexivity).
    assert (H' : exists s', Parses (defined (map (writeOut (wsTail CNone 0) onlyTail) (wsTail CNone 0))) (runesOf "a ") REof s' (Tree (Node "doc" 0 2 [Node "item" 0 1 []]) (runesOf "a "))) by (apply run_parse; vm_compute; reflexivity).
    destruct H as [s1 H], H' as [s1' H']. pose proof (Parses_Inits _ _ _ _ _ _ H) as I. pose proof (Parses_Inits _ _ _ _ _ _ H') as I'.
    exists s1, s1', (Node "doc" 0 2 [Node "item" 0 2 []]), (Node "doc" 0 2 [Node "item" 0 1 []]). split; [exact I|]. split; [exact I'|]. split; [exact H|]. split; [exact H'|]. discriminate.
  - assert (H : exists s' err, Parses (defined (wsTail CNoWhitespace 1)) (runesOf "a b b") REof s' (Failed err)) by (destruct (outcome (defined (wsTail CNoWhitespace 1)) (runesOf "a b b") REof) as [[t0 l0|e0]|] eqn:E; [vm_compute in E; discriminate| |vm_compute in E; discriminate]; destruct (run_parse _ _ _ _ E) as [s1 H]; eauto).
    assert (H' : exists s', Parses (defined (map (writeOut (wsTail CNoWhitespace 1) onlyTail) (wsTail CNoWhitespace 1))) (runesOf "a b b") REof s' (Tree (Node "doc" 0 5 [Node "item" 0 5 []]) (runesOf "a b b"))) by (apply run_parse; vm_compute; reflexivity).
    destruct H as (s1 & err & H), H' as [s1' H'].
    assert (I : exists s2, Inits (defined (wsTail CNoWhitespace 1)) s2 None /\ Parses (defined (wsTail CNoWhitespace 1)) (runesOf "a b b") REof s2 (Failed err)).
    { destruct (run_init (defined (wsTail CNoWhitespace 1))) as (s2 & I); [vm_compute; reflexivity|]. exists s2. split; [exact I|]. rewrite <- (init_state _ _ _ _ _ _ I H). exact H. }
    destruct I as (s2 & I1 & I2). pose proof (Parses_Inits _ _ _ _ _ _ H') as I'. exists s2, s1', (Node "doc" 0 5 [Node "item" 0 5 []]), err. split; [exact I1|]. split; [exact I'|]. split; [exact I2|exact H'].
Qed.

Print Assumptions C61_written_out.
Print Assumptions C61_conditions_needed.
