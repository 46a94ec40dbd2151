(** Calls of Parse of one syntax, in turn and at the same time: C31. *)
From Verif Require Import Base Utf8 Parser Build Syntax Grammar WsLang ApiSpec DefSpec InitSpec GenSpec DefineFacts PropRef Conc ConcSpec ConcApi.

(** C31, one call after the other: parsers and builders are made by the first call and kept; every
    call, the first and the later ones, returns, and what it returns is the result of Parse on the
    syntax.  (The memory after k calls is not the memory after Init.) *)
Theorem C31_in_turn : forall s k sh fuel input e, Ready s -> inTurn s k sh ->
  (exists sh', Lone s fuel sh input e sh' (outcome (Parse fuel s input e))) /\
  forall sh' out, Lone s fuel sh input e sh' out -> out = outcome (Parse fuel s input e).
Proof. exact parse_in_turn. Qed.
Print Assumptions C31_in_turn.

Definition calcReady : syntax := match Init 300 calcSyntax with Ok (s, None) => s | _ => calcSyntax end.
Example C31_ready : Ready calcReady.
Proof. exists calcSyntax. split; [eapply defineAll_steps; exact calc_defined|]. exists 300. vm_compute. reflexivity. Qed.
Example C31_turns : exists sh, inTurn calcReady 1 sh.
Proof.
  destruct (C31_in_turn calcReady 0 _ 300 calcText REof C31_ready (turn_none _)) as ((sh & L) & _).
  exists sh. eapply turn_one; [constructor|exact L].
Qed.

(** C31, calls at the same time, after at least one call has returned: whatever the interleaving
    of their steps, they do not change the shared memory, each call that has returned has returned
    the result of Parse on the syntax with its input, and the calls can go on until all have
    returned.  Missing: calls at the same time before the first call has returned; for these the
    property is false (below). *)
Theorem C31_after_first_partial : forall s k sh fuel inputs sh' ts, Ready s -> inTurn s (S k) sh ->
  Steps s fuel (sh, startAll s inputs) (sh', ts) ->
  sh' = sh /\
  (forall i t out, nth_error ts i = Some t -> returned t out ->
     exists input e, nth_error inputs i = Some (input, e) /\ out = outcome (Parse fuel s input e)) /\
  exists ts', Steps s fuel (sh', ts) (sh', ts') /\ List.length ts' = List.length inputs /\ forall t, In t ts' -> exists out, returned t out.
Proof. exact parse_concurrently. Qed.
Print Assumptions C31_after_first_partial.
Example C31_steps : exists sh, inTurn calcReady 1 sh /\ Steps calcReady 300 (sh, startAll calcReady [(calcText, REof); (runesOf "f(a", REof)]) (sh, startAll calcReady [(calcText, REof); (runesOf "f(a", REof)]).
Proof. destruct C31_turns as (sh & H). exists sh. split; auto. constructor. Qed.

(** C31 is false when the first calls run at the same time.  The first call has made the parser of
    the root, without options, when the second one asks for it: the second call rejects a text of
    the language. *)
Theorem C31_refuted : exists s sh ts t input sh1 tree, Ready s /\
  Steps s 300 (freshMemory (parsers s), startAll s [(input, REof); (input, REof)]) (sh, ts) /\
  nth_error ts 1 = Some t /\ returned t (Ok (Failed (ErrParse 0 0 0 "stmt"%string))) /\
  Lone s 300 (freshMemory (parsers s)) input REof sh1 (Ok (Tree tree input)).
Proof.
  destruct (steps_to calcReady 300 (repeat 0 3 ++ repeat 1 137) (freshMemory (parsers calcReady)) [(calcText, REof); (calcText, REof)] 1 (Ok (Failed (ErrParse 0 0 0 "stmt"%string)))) as (sh & ts & t & H1 & H2 & H3); [vm_compute; reflexivity|].
  destruct (C31_in_turn calcReady 0 _ 300 calcText REof C31_ready (turn_none _)) as ((sh1 & L) & _).
  assert (E : outcome (Parse 300 calcReady calcText REof) = Ok (Tree calcTree calcText)) by (vm_compute; reflexivity). rewrite E in L.
  exists calcReady, sh, ts, t, calcText, sh1, calcTree. exact (conj C31_ready (conj H1 (conj H2 (conj H3 L)))).
Qed.
Print Assumptions C31_refuted.

(** nor is it only about calls at the same time: two first calls have returned, both of them made
    the parser of the root and added its items to the one that was made last; now every lone call
    with the same input panics *)
Theorem C31_lasting_refuted : exists s sh t1 t2 input sh1 tree o1 o2, Ready s /\
  Steps s 300 (freshMemory (parsers s), startAll s [(input, REof); (input, REof)]) (sh, [t1; t2]) /\ returned t1 o1 /\ returned t2 o2 /\
  Lone s 300 (freshMemory (parsers s)) input REof sh1 (Ok (Tree tree input)) /\
  exists sh2, Lone s 300 sh input REof sh2 (Panic PanicIndex).
Proof.
  destruct (steps_then calcReady 300 ([0; 0; 1; 1; 0; 1] ++ repeat 0 239 ++ repeat 1 18) (repeat 0 10) (calcText, REof) (calcText, REof) calcText REof (Panic PanicIndex)) as (sh & t1 & t2 & o1 & o2 & sh2 & H1 & H2 & H3 & H4); [vm_compute; reflexivity|].
  destruct (C31_in_turn calcReady 0 _ 300 calcText REof C31_ready (turn_none _)) as ((sh1 & L) & _).
  assert (E : outcome (Parse 300 calcReady calcText REof) = Ok (Tree calcTree calcText)) by (vm_compute; reflexivity). rewrite E in L.
  exists calcReady, sh, t1, t2, calcText, sh1, calcTree, o1, o2. exact (conj C31_ready (conj H1 (conj H2 (conj H3 (conj L (ex_intro _ sh2 H4)))))).
Qed.
Print Assumptions C31_lasting_refuted.
