(** The number of nodes of a tree: C57. *)
From Verif Require Import Base Utf8 Parser Build Syntax Define Grammar ApiSpec ReadSpec SizeSpec TreeSize SizeExp
  Lang WsLang RefSpec TreeLinear TreeCount PropLeft PropGrow
  PropRefuted PropRead PropRef PropBuildCost.
Local Open Scope string_scope.
Local Open Scope list_scope.
Local Open Scope nat_scope.

(** C57, the full statement: for every syntax there is a polynomial p such that the tree of an accepted input of
    n characters has at most p(n) nodes.  It does not hold: with
      b:alias = b; a:root = y | x | b; x = a; y = x{2}
    the tree of n letters b has at least 2^n nodes.  A sequence copies the nodes of an item that did not
    advance as many times as its minimum, and here that happens once for every character. *)
Theorem C57_refuted : exists calls s s', Defined calls s /\ Inits s s' None /\
  forall n, 2 <= n -> exists tree, Parses s' (repeat 98%Z n) REof s' (Tree tree (repeat 98%Z n)) /\ 2 ^ n <= nodeCount tree.
Proof. destruct pair_exponential as (s & H). exists pair, s, pairSyntax. exact H. Qed.
Print Assumptions C57_refuted.

(** What holds: a tree has at most C * (n + 1)^3 different nodes, with C depending on the syntax only.  The
    other nodes are copies of these, in the Go program the same objects again.  Missing: a bound on the number of
    nodes that a traversal visits, see the refutation. *)
Theorem C57_partial : forall s s', Inits s s' None ->
  exists C, forall input e s2 tree toks, Parses s' input e s2 (Tree tree toks) ->
    exists L, (forall m, inTree m tree -> In m L) /\ List.length L <= C * S (List.length input) ^ 3.
Proof. exact tree_nodes. Qed.
Print Assumptions C57_partial.

(** Without left recursion every node is counted: the tree of n characters has at most C * (n + 1) nodes.
    Missing: the syntaxes with left recursion, whose trees the refutation is about. *)
Theorem C57_linear_partial : forall calls s name,
  Defined calls s -> refersToDefs calls -> literalKeywords calls -> nokwOnSequences calls -> noLeftRecursion calls ->
  rootName calls = Some name ->
  exists C, forall input s' tree toks, Parses s input REof s' (Tree tree toks) -> nodeCount tree <= C * S (List.length input).
Proof. exact tree_linear. Qed.
Print Assumptions C57_linear_partial.

(** With left recursion too, when no minimum is above one: at most C * (n + 1)^3 nodes.  The copies of the
    refutation come from a minimum of two. *)
Theorem C57_single_partial : forall calls s s',
  Defined calls s -> refersToDefs calls -> literalKeywords calls -> minimumsAtMostOne calls -> Inits s s' None ->
  exists C, forall input e s2 tree toks, Parses s' input e s2 (Tree tree toks) -> nodeCount tree <= C * S (List.length input) ^ 3.
Proof. exact tree_count. Qed.
Print Assumptions C57_single_partial.

(** the syntax of the refutation read from its text: three letters, 20 nodes; twelve letters, 12284 nodes *)
Definition pairOut (n : nat) : option parseOut :=
  match ReadSyntax 300 emptySyntax (runesOf "b:alias = ""b""; a:root = y | x | b; x = a; y = x{2}") REof with
  | Ok (s, None) => match Parse 400 s (repeat 98%Z n) REof with Ok (_, out) => Some out | _ => None end
  | _ => None
  end.
Example C57_text :
  pairOut 2 = Some (Tree (Node "a" 0 2 [Node "y" 0 2 [Node "x" 0 2 [Node "a" 0 1 [Node "x" 0 1 []]]; Node "x" 0 2 [Node "a" 0 1 [Node "x" 0 1 []]]]]) [98%Z; 98%Z]) /\
  option_map (fun o => match o with Tree t _ => nodeCount t | Failed _ => 0 end) (pairOut 3) = Some 20 /\
  option_map (fun o => match o with Tree t _ => N.of_nat (nodeCount t) | Failed _ => 0%N end) (pairOut 12) = Some 12284%N.
Proof. split; [|split]; vm_compute; reflexivity. Qed.
(** the calculator of PropRef.v meets the hypotheses of the other theorems *)
Example C57_linear_example : Defined calc calcSyntax /\ refersToDefs calc /\ literalKeywords calc /\ nokwOnSequences calc /\ noLeftRecursion calc /\
  rootName calc = Some "stmt" /\ exists s', Parses calcSyntax calcText REof s' (Tree calcTree calcText).
Proof. exact (conj calc_defined (conj calc_refs (conj calc_literal (conj calc_nokw (conj calc_free (conj calc_root C06_example)))))). Qed.
Example C57_example : Inits calcSyntax calcReady None /\ Parses calcReady calcText REof calcReady (Tree calcTree calcText) /\ nodeCount calcTree = 5.
Proof. split; [apply C56_example|]. split; [apply C56_example|]. vm_compute. reflexivity. Qed.
(** the left recursive syntax of PropLeft.v meets those of [C57_single_partial] *)
Example C57_single_example : Defined arith arithSyntax /\ refersToDefs arith /\ literalKeywords arith /\ minimumsAtMostOne arith /\
  (exists s', Inits arithSyntax s' None) /\ exists s', Parses arithSyntax arithText REof s' (Tree arithTree arithText).
Proof.
  refine (conj arith_defined (conj arith_refs (conj arith_literal (conj _ (conj arith_init C43_example))))).
  intros n ct items it Hd Hi. repeat (destruct Hd as [Hd|Hd]; [inversion Hd; subst; clear Hd; repeat (destruct Hi as [<-|Hi]; [simpl; lia|]); destruct Hi|]). destruct Hd.
Qed.
