(** C49: the order of the definitions, and C50: definitions that are not used. *)
From Coq Require Import Permutation.
From Verif Require Import TextSpec Base Utf8 Parser Build Syntax Lang Grammar WsLang ApiSpec InitSpec WsApi ApiFacts RefSpec RefFuel RefCheck PropRef PropRefuted DefSpec PropDefine OrderSpec OrderFacts OrderSame.

(** C49: two syntaxes with the same definitions in a different order accept the same inputs with the
    same trees; the root is the same, and so is the order of the whitespace definitions.
    Missing: syntaxes with left recursion, and the errors of rejected inputs. *)
Theorem C49_any_order_partial : forall calls calls' s s' s1 s1', Defined calls s -> Defined calls' s' -> Permutation calls calls' ->
  rootName calls' = rootName calls -> whitespaceNames calls' = whitespaceNames calls ->
  refersToDefs calls -> literalKeywords calls -> nokwOnSequences calls -> noLeftRecursion calls -> Inits s s1 None -> Inits s' s1' None ->
  forall input t toks, ~ In runeError input -> (Parses s input REof s1 (Tree t toks) <-> Parses s' input REof s1' (Tree t toks)).
Proof. exact any_order. Qed.
(** the definitions of [calc] backwards *)
Definition calcBack : list defcall := rev calc.
Example calcBack_meets : Defined calcBack (defined calcBack) /\ Permutation calc calcBack /\ rootName calcBack = rootName calc /\ whitespaceNames calcBack = whitespaceNames calc /\
  exists s1, Inits (defined calcBack) s1 None /\ Parses (defined calcBack) calcText REof s1 (Tree calcTree calcText).
Proof.
  split; [vm_compute; reflexivity|]. split; [apply Permutation_rev|]. split; [vm_compute; reflexivity|]. split; [vm_compute; reflexivity|].
  assert (H : exists s', Parses (defined calcBack) calcText REof s' (Tree calcTree calcText)) by (apply run_parse; vm_compute; reflexivity).
  destruct H as [s1 H]. exists s1. split; [eapply Parses_Inits; eauto|exact H].
Qed.

(** C50: definitions that are added to a complete set of definitions, and are not the root, not
    whitespace and not keywords, change neither the accepted inputs nor the trees.
    Missing: syntaxes with left recursion, and the errors of rejected inputs. *)
Theorem C50_unused_partial : forall calls extra s s' s1 s1', Defined calls s -> Defined (calls ++ extra) s' ->
  rootName (calls ++ extra) = rootName calls ->
  (forall d, In d extra -> hasFlag (callFlags d) CWhitespace = false /\ hasFlag (callFlags d) CKeyword = false) ->
  refersToDefs calls -> refersToDefs (calls ++ extra) -> literalKeywords calls -> nokwOnSequences (calls ++ extra) -> noLeftRecursion calls ->
  Inits s s1 None -> Inits s' s1' None ->
  forall input t toks, ~ In runeError input -> (Parses s input REof s1 (Tree t toks) <-> Parses s' input REof s1' (Tree t toks)).
Proof. exact more_definitions. Qed.
(** in general: only the definitions that can be reached from the root matter *)
Theorem C50_reachable_partial : forall calls calls' s s' s1 s1', Defined calls s -> Defined calls' s' ->
  refersToDefs calls -> literalKeywords calls -> nokwOnSequences calls -> noLeftRecursion calls ->
  refersToDefs calls' -> literalKeywords calls' -> nokwOnSequences calls' ->
  sameReachable calls calls' -> Inits s s1 None -> Inits s' s1' None ->
  forall input t toks, ~ In runeError input -> (Parses s input REof s1 (Tree t toks) <-> Parses s' input REof s1' (Tree t toks)).
Proof. exact same_trees. Qed.
(** [calc] and two definitions that refer to each other, left-recursively, and to [expr] *)
Definition loose : list defcall := [ DSequence "sum" CNone [mkItem "more" 1 1; mkItem "expr" 1 1]; DChoice "more" CNone ["sum"; "id"; "stmt"] ]%string.
Example calcMore_meets : Defined (calc ++ loose) (defined (calc ++ loose)) /\ rootName (calc ++ loose) = rootName calc /\
  (forall d, In d loose -> hasFlag (callFlags d) CWhitespace = false /\ hasFlag (callFlags d) CKeyword = false) /\
  refersToDefs (calc ++ loose) /\ nokwOnSequences (calc ++ loose) /\
  exists s1, Inits (defined (calc ++ loose)) s1 None /\ Parses (defined (calc ++ loose)) calcText REof s1 (Tree calcTree calcText).
Proof.
  split; [vm_compute; reflexivity|]. split; [vm_compute; reflexivity|]. split; [intros d [<-|[<-|[]]]; split; reflexivity|].
  split; [intros d Hd; repeat (destruct Hd as [<-|Hd]; [vm_compute; intuition (subst; simpl; tauto)|]); destruct Hd|].
  split; [intros n ct os Hd; repeat (destruct Hd as [Hd|Hd]; [inversion Hd; reflexivity|]); destruct Hd|].
  assert (H : exists s', Parses (defined (calc ++ loose)) calcText REof s' (Tree calcTree calcText)) by (apply run_parse; vm_compute; reflexivity).
  destruct H as [s1 H]. exists s1. split; [eapply Parses_Inits; eauto|exact H].
Qed.

(** ** no difference at all: errors, panics and left recursion included *)
(** C49: definitions in another order, with the same root and the same order of the whitespace
    definitions and of the keywords among themselves, give a syntax that answers alike: Init has the
    same error or none, and Parse has the same tree, the same error or panics, on every input.
    [regular]: with whitespace definitions, keywords are literals, choices or have no whitespace, see
    C49_refuted, and references are symbols. *)
Theorem C49_answers_alike_partial : forall calls calls' s s', Defined calls s -> Defined calls' s' -> Permutation calls calls' ->
  rootName calls' = rootName calls -> whitespaceNames calls' = whitespaceNames calls -> keywordNames calls' = keywordNames calls -> regular calls -> answersAlike s s'.
Proof. exact order_alike. Qed.
(** C50: definitions that are added, in any place, and that neither the root nor a keyword nor a
    whitespace definition needs, directly or through others, make no difference. *)
Theorem C50_answers_alike_partial : forall calls extra calls' s s', Defined calls s -> Defined calls' s' -> Permutation (calls ++ extra) calls' ->
  rootName calls' = rootName calls -> whitespaceNames calls' = whitespaceNames calls -> keywordNames calls' = keywordNames calls ->
  (forall d n, In d extra -> In n (callNames d) -> ~ needed calls n) -> regular calls -> regular calls' -> answersAlike s s'.
Proof. exact more_alike. Qed.
(** in general: only the definitions that are needed make a difference *)
Theorem C50_needed_partial : forall calls calls' s s', Defined calls s -> Defined calls' s' -> sameNeeded calls calls' -> regular calls -> regular calls' -> answersAlike s s'.
Proof. exact needed_alike. Qed.

(** left-recursive definitions with whitespace and a keyword, and the same ones in another order *)
Definition sums : list defcall :=
  [ DClass "ws" CWhitespace false [32%Z] []; DCharSequence "if" CKeyword (runesOf "if"); DClass "letter" CAlias false [] [(97, 122)%Z];
    DSequence "word" (N.lor CNoKeyword CNoWhitespace) [mkItem "letter" 1 (-1)]; DCharSequence "plus" CAlias (runesOf "+");
    DSequence "sum" CNone [one "expr"; one "plus"; one "word"]; DChoice "expr" CAlias ["sum"; "word"]; DSequence "doc" CRoot [one "expr"] ]%string.
Definition sumsBack : list defcall := rev sums.
Lemma plain_list calls : forallb (fun d => negb (hasFlag (callFlags d) CKeyword) || match d with DCharSequence _ _ _ | DChoice _ _ _ => true | _ => hasFlag (callFlags d) CNoWhitespace end) calls = true -> keywordsPlain calls.
Proof. intros H d Hd Hk. rewrite forallb_forall in H. specialize (H d Hd). simpl in H. rewrite Hk in H. destruct d; auto. Qed.
Ltac regular_by := intros _; split; [apply symbolRefs_list; repeat (constructor; [vm_compute; auto|]); constructor|apply plain_list; vm_compute; reflexivity].
Lemma run_fail s input r : match outcome s input r with Some (Failed _) => true | _ => false end = true -> exists s1 e, Parses s input r s1 (Failed e).
Proof. destruct (outcome s input r) as [[|e]|] eqn:E; try discriminate. intros _. apply run_parse in E. destruct E as [s1 H]. eauto. Qed.
Example sums_meets : Defined sums (defined sums) /\ Defined sumsBack (defined sumsBack) /\ Permutation sums sumsBack /\ rootName sumsBack = rootName sums /\
  whitespaceNames sumsBack = whitespaceNames sums /\ keywordNames sumsBack = keywordNames sums /\ hasWhitespaceDef sums /\ regular sums /\
  (exists s1, Parses (defined sumsBack) (runesOf "a + b + c") REof s1
     (Tree (Node "doc" 0 9 [Node "sum" 0 9 [Node "sum" 0 5 [Node "word" 0 1 []; Node "word" 4 5 []]; Node "word" 8 9 []]]) (runesOf "a + b + c"))) /\
  (exists s1 e, Parses (defined sumsBack) (runesOf "a + if") REof s1 (Failed e)).
Proof.
  split; [vm_compute; reflexivity|]. split; [vm_compute; reflexivity|]. split; [apply Permutation_rev|]. split; [vm_compute; reflexivity|]. split; [vm_compute; reflexivity|]. split; [vm_compute; reflexivity|].
  split; [eexists; split; [left; reflexivity|reflexivity]|]. split; [regular_by|]. split; [apply run_parse; vm_compute; reflexivity|].
  apply run_fail. vm_compute. reflexivity.
Qed.
(** two definitions that nothing refers to *)
Definition unused : list defcall := [ DSequence "loop" CNone [one "loop"; one "sum"]; lit "dot" "." ]%string.
Definition sumsMore : list defcall := unused ++ sums.
Definition needs (l : list string) (calls : list defcall) : bool :=
  forallb (fun x => existsb (String.eqb x) l) (match rootName calls with Some n => [n] | None => [] end ++ whitespaceNames calls ++ keywordNames calls) &&
  forallb (fun n => match grammarOf calls n with Some r => forallb (fun x => existsb (String.eqb x) l) (ruleRefs r) | None => true end) l.
Lemma needs_ok l calls : needs l calls = true -> forall n, needed calls n -> In n l.
Proof.
  unfold needs. intros H. apply andb_true_iff in H. destruct H as [H1 H2]. rewrite forallb_forall in H1, H2.
  assert (X : forall x, existsb (String.eqb x) l = true -> In x l) by (intros x Hx; apply existsb_exists in Hx; destruct Hx as (y & Hy & E); apply String.eqb_eq in E; subst; auto).
  induction 1 as [n Hn|d Hd Hf|d Hd Hf|n r x _ IH Hr Hx].
  - apply X, H1. rewrite Hn. left; auto.
  - apply X, H1. rewrite !in_app_iff. right; right. unfold keywordNames. apply in_map, filter_In. auto.
  - apply X, H1. rewrite !in_app_iff. right; left. unfold whitespaceNames. apply in_map, filter_In. auto.
  - specialize (H2 n IH). rewrite Hr, forallb_forall in H2. apply X, H2, Hx.
Qed.
Example sumsMore_meets : Defined sumsMore (defined sumsMore) /\ Permutation (sums ++ unused) sumsMore /\ rootName sumsMore = rootName sums /\
  whitespaceNames sumsMore = whitespaceNames sums /\ keywordNames sumsMore = keywordNames sums /\ (forall d n, In d unused -> In n (callNames d) -> ~ needed sums n) /\ regular sumsMore.
Proof.
  split; [vm_compute; reflexivity|]. split; [apply Permutation_app_comm|]. split; [vm_compute; reflexivity|]. split; [vm_compute; reflexivity|]. split; [vm_compute; reflexivity|]. split; [|regular_by].
  intros d n Hd Hn H. eapply (needs_ok (flat_map callNames sums)) in H; [|vm_compute; reflexivity].
  vm_compute in H. destruct Hd as [<-|[<-|[]]]; vm_compute in Hn; intuition (subst; discriminate).
Qed.

(** C49 and C50 fail in general.  With whitespace definitions, a keyword that is a sequence stays
    outside of the registry, under a number that can be that of another definition: whether the
    keyword is recognized depends on the order of the definitions, *)
Definition kwFirst : list defcall :=
  [ DClass "ws" CWhitespace false [32%Z] []; DCharSequence "iff" CAlias (runesOf "if"); DClass "letter" CAlias false [] [(97, 122)%Z]; DSequence "kw" CKeyword [one "iff"];
    DSequence "word" (N.lor CNoKeyword CNoWhitespace) [mkItem "letter" 1 (-1)]; DSequence "doc" CRoot [mkItem "word" 0 (-1)] ]%string.
Definition wordFirst : list defcall :=
  [ DClass "ws" CWhitespace false [32%Z] []; DCharSequence "iff" CAlias (runesOf "if"); DClass "letter" CAlias false [] [(97, 122)%Z];
    DSequence "word" (N.lor CNoKeyword CNoWhitespace) [mkItem "letter" 1 (-1)]; DSequence "kw" CKeyword [one "iff"]; DSequence "doc" CRoot [mkItem "word" 0 (-1)] ]%string.
Theorem C49_refuted : exists calls calls' s s' s1 s1' input t e, Defined calls s /\ Defined calls' s' /\ Permutation calls calls' /\
  rootName calls' = rootName calls /\ whitespaceNames calls' = whitespaceNames calls /\ keywordNames calls' = keywordNames calls /\
  Parses s input REof s1 (Tree t input) /\ Parses s' input REof s1' (Failed e).
Proof.
  assert (H : exists s1, Parses (defined kwFirst) (runesOf "if") REof s1 (Tree (Node "doc" 0 2 [Node "word" 0 2 []]) (runesOf "if"))) by (apply run_parse; vm_compute; reflexivity).
  assert (H' : exists s1 e, Parses (defined wordFirst) (runesOf "if") REof s1 (Failed e)) by (apply run_fail; vm_compute; reflexivity).
  destruct H as [s1 H], H' as (s1' & e & H'). exists kwFirst, wordFirst, (defined kwFirst), (defined wordFirst), s1, s1'. do 3 eexists.
  split; [vm_compute; reflexivity|]. split; [vm_compute; reflexivity|]. split; [do 3 apply perm_skip; apply perm_swap|]. split; [vm_compute; reflexivity|]. split; [vm_compute; reflexivity|]. split; [vm_compute; reflexivity|]. split; [exact H|exact H'].
Qed.
(** and on definitions that nothing refers to *)
Definition unused2 : list defcall := [ DSequence "dots" CNone [mkItem "dot" 0 (-1)]; DCharSequence "dot" CNone (runesOf ".") ]%string.
Theorem C50_refuted : exists calls extra s s' s1 s1' input t e, Defined calls s /\ Defined (extra ++ calls) s' /\
  rootName (extra ++ calls) = rootName calls /\ whitespaceNames (extra ++ calls) = whitespaceNames calls /\ keywordNames (extra ++ calls) = keywordNames calls /\
  (forall d n, In d extra -> In n (callNames d) -> ~ needed calls n) /\
  Parses s input REof s1 (Failed e) /\ Parses s' input REof s1' (Tree t input).
Proof.
  assert (H : exists s1 e, Parses (defined wordFirst) (runesOf "if") REof s1 (Failed e)) by (apply run_fail; vm_compute; reflexivity).
  assert (H' : exists s1, Parses (defined (unused2 ++ wordFirst)) (runesOf "if") REof s1 (Tree (Node "doc" 0 2 [Node "word" 0 2 []]) (runesOf "if"))) by (apply run_parse; vm_compute; reflexivity).
  destruct H as (s1 & e & H), H' as [s1' H']. exists wordFirst, unused2, (defined wordFirst), (defined (unused2 ++ wordFirst)), s1, s1'. do 3 eexists.
  split; [vm_compute; reflexivity|]. split; [vm_compute; reflexivity|]. split; [vm_compute; reflexivity|]. split; [vm_compute; reflexivity|]. split; [vm_compute; reflexivity|]. split; [|split; [exact H|exact H']].
  intros d n Hd Hn X. eapply (needs_ok (flat_map callNames wordFirst)) in X; [|vm_compute; reflexivity].
  vm_compute in X. destruct Hd as [<-|[<-|[]]]; vm_compute in Hn; intuition (subst; discriminate).
Qed.
(** the order of the whitespace definitions shows when they have nodes inside of them *)
Definition blanks (first second : defcall) : list defcall :=
  [ DCharSequence "c" CNone [32%Z]; DCharSequence "d" CNone [32%Z]; first; second; DCharSequence "a" CNone [97%Z]; DSequence "doc" CRoot [mkItem "a" 0 (-1)] ]%string.
Theorem C49_whitespace_order_refuted : exists calls calls' s s' s1 s1' input t t', Defined calls s /\ Defined calls' s' /\ Permutation calls calls' /\
  rootName calls' = rootName calls /\ Parses s input REof s1 (Tree t input) /\ Parses s' input REof s1' (Tree t' input) /\ t <> t'.
Proof.
  pose (w1 := DSequence "w1" CWhitespace [one "c"]%string). pose (w2 := DSequence "w2" CWhitespace [one "d"]%string).
  assert (H : exists s1, Parses (defined (blanks w1 w2)) (runesOf "a a") REof s1 (Tree (Node "doc" 0 3 [Node "a" 0 1 []; Node "c" 1 2 []; Node "a" 2 3 []]) (runesOf "a a"))) by (apply run_parse; vm_compute; reflexivity).
  assert (H' : exists s1, Parses (defined (blanks w2 w1)) (runesOf "a a") REof s1 (Tree (Node "doc" 0 3 [Node "a" 0 1 []; Node "d" 1 2 []; Node "a" 2 3 []]) (runesOf "a a"))) by (apply run_parse; vm_compute; reflexivity).
  destruct H as [s1 H], H' as [s1' H']. exists (blanks w1 w2), (blanks w2 w1), (defined (blanks w1 w2)), (defined (blanks w2 w1)), s1, s1'. do 3 eexists.
  split; [vm_compute; reflexivity|]. split; [vm_compute; reflexivity|]. split; [do 2 apply perm_skip; apply perm_swap|]. split; [vm_compute; reflexivity|]. split; [exact H|]. split; [exact H'|]. discriminate.
Qed.

Print Assumptions C49_any_order_partial.
Print Assumptions C50_unused_partial.
Print Assumptions C50_reachable_partial.
Print Assumptions C49_answers_alike_partial.
Print Assumptions C50_answers_alike_partial.
Print Assumptions C50_needed_partial.
Print Assumptions C49_refuted.
Print Assumptions C50_refuted.
Print Assumptions C49_whitespace_order_refuted.
