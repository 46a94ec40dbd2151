(** Syntaxes made from a text, with definitions that start with themselves. *)
From Verif Require Import Base Utf8 Parser Build Syntax Define Grammar WsLang ApiSpec WsApi WsNames Rep ApiFacts RefSpec RefApi RefCheck GrowSpec GrowApi ReadFacts ReadSpec ReadUse SelfLang ReadLang ReadMeans.
Local Open Scope string_scope.
Local Open Scope list_scope.
Local Open Scope nat_scope.

Section SPELLS.
Variables (text : list rune) (defs : list textDef) (s s' : syntax) (name : string) (input : list rune).
Let calls := flat_map textCalls defs.
Hypothesis Hs : spells text defs.
Hypothesis HR : Reads emptySyntax text REof s None.
Hypothesis Hw : textReady defs.
Hypothesis Hr : refersToDefs calls.
Hypothesis Hk : literalKeywords calls.
Hypothesis Hn : nokwOnSequences calls.
Hypothesis Hroot : rootName calls = Some name.
Hypothesis Hv : ~ In runeError input.
Hypothesis Hi : Inits s s' None.

Lemma spells_proper : hasWhitespaceDef calls -> properNames calls.
Proof.
  intros H. destruct Hs as (Hv0 & t & Hs0 & Hd). destruct (Hw H) as (H1 & H2 & H3). apply text_proper. intros d Hin. split; auto. eapply names_colonFree; eauto.
Qed.
Let Hu := spells_usable text s defs Hs HR Hw.

Theorem spells_grown_outcome r : MeansL calls input name 0 r ->
  forall s2 t toks, Parses s input REof s2 (Tree t toks) <-> s2 = s' /\ toks = input /\ r = Match (List.length input) [t].
Proof. intros Hm. exact (parse_meansL calls s s' name input r Hu spells_proper Hk Hr Hn Hi Hroot Hv Hm). Qed.
Theorem spells_grown_prefix t ns : MeansL calls input name 0 (Match t ns) ->
  ~ ParsePanics s input REof /\ (t < List.length input -> exists err, Parses s input REof s' (Failed err)).
Proof.
  intros Hm. split.
  - exact (meansL_safe calls s s' name input _ Hu spells_proper Hk Hr Hn Hi Hroot Hv Hm t ns eq_refl).
  - exact (meansL_prefix calls s s' name input _ Hu spells_proper Hk Hr Hn Hi Hroot Hv Hm t ns eq_refl).
Qed.
Hypothesis Hg : growthGrounded calls name.
Theorem spells_grown : exists r, MeansL calls input name 0 r /\ (forall r', MeansL calls input name 0 r' -> r' = r) /\
  forall s2 t toks, Parses s input REof s2 (Tree t toks) <-> s2 = s' /\ toks = input /\ r = Match (List.length input) [t].
Proof.
  destruct (meansL_total calls input name 0 Hg) as (r & Hm & H1). exists r. split; auto. split; auto. apply spells_grown_outcome; auto.
Qed.
Theorem spells_grown_nested t toks : Parses s input REof s' (Tree t toks) -> wellNested t.
Proof.
  intros HP. destruct spells_grown as (r & Hm & _). exact (meansL_nested calls s s' name input r Hu spells_proper Hk Hr Hn Hi Hroot Hv Hm s' t toks HP).
Qed.
End SPELLS.
