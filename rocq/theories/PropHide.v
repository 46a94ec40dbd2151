(** C58: the alias flag. *)
From Verif Require Import Base Utf8 Parser Build Syntax Grammar ApiSpec PropRef PropRefuted PropDefine PropOrder HideSpec HideApi.

(** C58: the alias flag on some of the definitions, the root not among them, removes their nodes
    from every tree, the children take the place of the node, and changes nothing else: Init has the
    same error or none, the same inputs are accepted, with the same tokens, rejected inputs have
    the same error. *)
Theorem C58_alias_hides_nodes : forall hidden calls s s', Defined calls s -> Defined (map (aliasIf hidden) calls) s' ->
  (forall n, hidden n = true -> In n (map callName calls) /\ rootName calls <> Some n) ->
  (forall err, (exists s1, Inits s s1 err) <-> (exists s1, Inits s' s1 err)) /\
  forall input e,
    (forall t' toks, (exists s1, Parses s' input e s1 (Tree t' toks)) <-> (exists s1 t, Parses s input e s1 (Tree t toks) /\ hide hidden t = [t'])) /\
    (forall err, (exists s1, Parses s input e s1 (Failed err)) <-> (exists s1, Parses s' input e s1 (Failed err))) /\
    (ParsePanics s input e <-> ParsePanics s' input e).
Proof.
  intros hidden calls s s' Hd Hd' Hh. split; [intros; eapply hides_init; eauto|]. intros input e.
  split; [intros; eapply hides_tree; eauto|]. split; [intros; eapply hides_error; eauto|eapply hides_panic; eauto].
Qed.
(** the definitions are accepted with the flag too, unless one of them has the root flag *)
Theorem C58_alias_accepted : forall hidden calls s, Defined calls s ->
  (forall d, In d calls -> hidden (callName d) = true -> hasFlag (callFlags d) CRoot = false) ->
  exists s', Defined (map (aliasIf hidden) calls) s'.
Proof. exact hides_defined. Qed.

(** the left-recursive sums, with whitespace and a keyword, with the sums as aliases *)
Definition noSum (n : string) : bool := String.eqb n "sum".
Definition sumText : list rune := runesOf "a + b + c".
Definition sumTree : node := Node "doc" 0 9 [Node "sum" 0 9 [Node "sum" 0 5 [Node "word" 0 1 []; Node "word" 4 5 []]; Node "word" 8 9 []]].
Definition flatTree : node := Node "doc" 0 9 [Node "word" 0 1 []; Node "word" 4 5 []; Node "word" 8 9 []].
Definition flatSums : list defcall := map (aliasIf noSum) sums.
Example C58_example : Defined sums (defined sums) /\ Defined flatSums (defined flatSums) /\
  (forall n, noSum n = true -> In n (map callName sums) /\ rootName sums <> Some n) /\
  (forall d, In d sums -> noSum (callName d) = true -> hasFlag (callFlags d) CRoot = false) /\
  (exists s1, Parses (defined sums) sumText REof s1 (Tree sumTree sumText)) /\
  (exists s1, Parses (defined flatSums) sumText REof s1 (Tree flatTree sumText)) /\ hide noSum sumTree = [flatTree].
Proof.
  split; [vm_compute; reflexivity|]. split; [vm_compute; reflexivity|].
  split; [intros n H; apply String.eqb_eq in H; subst; split; [simpl; tauto|discriminate]|].
  split; [intros d Hd; repeat (destruct Hd as [<-|Hd]; [vm_compute; congruence|]); destruct Hd|].
  split; [apply run_parse; vm_compute; reflexivity|]. split; [apply run_parse; vm_compute; reflexivity|]. reflexivity.
Qed.
(** without the condition on the root it is false: the root cannot be an alias *)
Theorem C58_root_needed : exists hidden calls s s', Defined calls s /\ Defined (map (aliasIf hidden) calls) s' /\
  (forall n, hidden n = true -> In n (map callName calls)) /\ (exists s1, Inits s s1 None) /\ ~ (exists s1, Inits s' s1 None).
Proof.
  set (cs := [lit "a" "a"; DSequence "doc" CNone [one "a"]]%string). set (hd := fun n => String.eqb n "doc").
  exists hd, cs, (defined cs), (defined (map (aliasIf hd) cs)). split; [vm_compute; reflexivity|]. split; [vm_compute; reflexivity|].
  split; [intros n H; apply String.eqb_eq in H; subst; simpl; tauto|].
  split.
  - eexists. exists 20. vm_compute. reflexivity.
  - intros (s1 & n & H). vm_compute in H. discriminate.
Qed.

Print Assumptions C58_alias_hides_nodes.
Print Assumptions C58_alias_accepted.
Print Assumptions C58_root_needed.
