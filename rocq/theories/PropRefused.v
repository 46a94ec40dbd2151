(** What holds of nokw choices and of refused definitions. *)
From Verif Require Import TextSpec Base Utf8 Parser Build Syntax Lang Sound Grammar WsLang ApiSpec DefSpec InitSpec Define RefusedSpec RefusedFacts PropRefuted.

(** C15, for choices whose options all refuse the keywords themselves.
    Missing: the nokw flag of the choice itself, which has no effect (C15_refuted). *)
Theorem C15_guarded_partial : forall calls s s' input e t toks n,
  Defined calls s -> wsReady calls -> sensibleRanges calls -> Parses s input e s' (Tree t toks) ->
  inTree n t -> guarded calls (nName n) -> ~ In (nodeRunes toks n) (keywordTexts calls).
Proof. exact guarded_nodes. Qed.
(** an identifier or a number in brackets; the keyword if is not an identifier *)
Definition guardedCalls : list defcall :=
  [ DCharSequence "if" CKeyword (runesOf "if"); DClass "az" CAlias false [] [(97, 122)%Z];
    DSequence "word" CNoKeyword [mkItem "az" 1 (-1)]; DSequence "pair" CNoKeyword [one "az"; one "az"; one "az"];
    DChoice "id" CNoKeyword ["word"; "pair"]; DSequence "r" CRoot [one "id"] ]%string.
Example guarded_id : guarded guardedCalls "id"%string.
Proof.
  assert (N : noWhitespaceDefs guardedCalls) by (intros d Hd; repeat (destruct Hd as [<-|Hd]; [reflexivity|]); destruct Hd).
  eapply guarded_choice; [do 4 right; left; reflexivity|right; exact N|].
  intros o [<-|[<-|[]]].
  - apply (guarded_nokw guardedCalls (DSequence "word" CNoKeyword [mkItem "az" 1 (-1)])%string); [do 2 right; left; reflexivity|reflexivity|reflexivity|right; exact N].
  - apply (guarded_nokw guardedCalls (DSequence "pair" CNoKeyword [one "az"; one "az"; one "az"])%string); [do 3 right; left; reflexivity|reflexivity|reflexivity|right; exact N].
Qed.
Example guarded_tree : exists s', Parses (defined guardedCalls) (runesOf "abc") REof s'
  (Tree (Node "r" 0 3 [Node "id" 0 3 [Node "word" 0 3 []]]) (runesOf "abc")) /\ Defined guardedCalls (defined guardedCalls).
Proof.
  assert (H : exists s', Parses (defined guardedCalls) (runesOf "abc") REof s' (Tree (Node "r" 0 3 [Node "id" 0 3 [Node "word" 0 3 []]]) (runesOf "abc"))) by (apply run_parse; vm_compute; reflexivity).
  destruct H as [s' H]. exists s'. split; [exact H|]. vm_compute. reflexivity.
Qed.
Example guarded_if : exists s', Parses (defined guardedCalls) (runesOf "if") REof s' (Failed (ErrParse 2 0 2 "az")).
Proof. apply run_parse. vm_compute. reflexivity. Qed.

(** C21, for definitions that are refused cleanly: every later call, on the syntax on which the
    refused call was made, is answered as on the syntax on which it was not made.
    Missing: refused duplicates (C21_refuted) and refused classes and literals (C21_class_refuted). *)
Theorem C21_unaffected_partial : forall fuel before s out d s1 err,
  play fuel before emptySyntax = Ok (s, out) -> defineCall s d = (s1, Some err) -> refusedCleanly s d err ->
  forall fuel' later, observed (play fuel' later s1) = observed (play fuel' later s).
Proof. exact refused_alike. Qed.
(** a second root, incompatible flags, and a duplicate when there is an explicit root *)
Definition rooted : list op :=
  map ODefine [ lit "x" "x"; DSequence "r" CRoot [mkItem "x" 1 (-1)]; DSequence "a" CNone [one "x"] ]%string.
Definition afterRooted : syntax := match play 300 rooted emptySyntax with Ok (s, _) => s | _ => emptySyntax end.
Definition laterOps : list op := [ ODefine (DSequence "a" CNone [one "x"]); ODefine (DSequence "q" CNone [one "x"]); OInit; OParse (runesOf "xx") REof; OParse (runesOf "xy") REof ]%string.
Example rooted_plays : exists out, play 300 rooted emptySyntax = Ok (afterRooted, out) /\ out = [SeenErr None; SeenErr None; SeenErr None].
Proof. eexists. split; [vm_compute; reflexivity|reflexivity]. Qed.
Example second_root : exists s1, defineCall afterRooted (DSequence "q" CRoot [one "x"; one "x"])%string = (s1, Some ErrMultipleRoots) /\
  refusedCleanly afterRooted (DSequence "q" CRoot [one "x"; one "x"])%string ErrMultipleRoots /\ s1 <> afterRooted /\
  observed (play 300 laterOps s1) = Ok [SeenErr (Some (ErrDuplicateDefinition "a")); SeenErr None; SeenErr None;
    SeenOut (Tree (Node "r" 0 2 []) (runesOf "xx")); SeenOut (Failed (ErrParse 1 0 1 "x"))]%string.
Proof.
  eexists. split; [vm_compute; reflexivity|]. split; [do 2 right; left; split; [reflexivity|left; discriminate]|]. split; [|vm_compute; reflexivity].
  intros H. apply (f_equal (fun s => List.length (sHeap s))) in H. vm_compute in H. discriminate.
Qed.
Example incompatible_flags : exists s1 err, defineCall afterRooted (DChoice "q" (N.lor CWhitespace CKeyword) ["x"])%string = (s1, Some err) /\
  refusedCleanly afterRooted (DChoice "q" (N.lor CWhitespace CKeyword) ["x"])%string err.
Proof. do 2 eexists. split; [vm_compute; reflexivity|]. do 2 right. left. split; [reflexivity|left; discriminate]. Qed.
Example rooted_duplicate : exists s1, defineCall afterRooted (DSequence "a" CNone [one "x"; one "x"])%string = (s1, Some (ErrDuplicateDefinition "a")) /\
  refusedCleanly afterRooted (DSequence "a" CNone [one "x"; one "x"])%string (ErrDuplicateDefinition "a").
Proof. eexists. split; [vm_compute; reflexivity|]. do 2 right. left. split; [reflexivity|right; split; vm_compute; reflexivity]. Qed.
Example rooted_literal : exists s1, defineCall afterRooted (lit "x" "yz") = (s1, Some (ErrDuplicateDefinition "x:0")) /\
  refusedCleanly afterRooted (lit "x" "yz") (ErrDuplicateDefinition "x:0").
Proof. eexists. split; [vm_compute; reflexivity|]. do 3 right. split; [reflexivity|split; vm_compute; reflexivity]. Qed.

(** a class that is refused for its flags keeps its name occupied: the corrected definition is
    refused as a duplicate *)
Theorem C21_class_refuted : exists d s1 err later fuel s2 out s3 out',
  defineCall emptySyntax d = (s1, Some err) /\ isPlain d = false /\ (forall n, err <> ErrDuplicateDefinition n) /\
  play fuel later emptySyntax = Ok (s2, out) /\ play fuel later s1 = Ok (s3, out') /\
  out = [SeenErr None; SeenOut (Tree (Node "digit" 0 1 []) (runesOf "7"))]%string /\
  exists e2 o2, out' = [SeenErr (Some (ErrDuplicateDefinition e2)); SeenOut (Failed o2)].
Proof.
  exists (DClass "digit" (N.lor CAlias CRoot) false [] [(48, 57)%Z])%string. eexists _, _.
  exists [ODefine (DClass "digit" CRoot false [] [(48, 57)%Z]); OParse (runesOf "7") REof]%string, 300. eexists _, _, _, _.
  split; [vm_compute; reflexivity|]. split; [reflexivity|]. split; [discriminate|]. split; [vm_compute; reflexivity|]. split; [vm_compute; reflexivity|].
  split; [reflexivity|]. do 2 eexists. reflexivity.
Qed.

Print Assumptions C15_guarded_partial.
Print Assumptions C21_unaffected_partial.
Print Assumptions C21_class_refuted.
