(** The calls of the builders, and the depth of the tree: C56. *)
From Verif Require Import Base Utf8 Parser Build Syntax Define Grammar ApiSpec ReadSpec
  Cost CostBuild CostBuildSpec CostBuildApi TreeDepth PropRefuted PropRead PropRef.
Local Open Scope string_scope.
Local Open Scope list_scope.
Local Open Scope nat_scope.

(** C56: when an input is accepted, building the tree takes at most C * (n + 1)^3 calls of the builders for n
    characters of input, with C depending on the syntax only.  No condition on the syntax: also for those
    where the parsers take exponentially many calls (C54).  The number exists whenever Parse ends. *)
Theorem C56_calls : forall s s', Inits s s' None ->
  exists C, forall input e,
    (forall k, BuildCalls s' input e k -> k <= C * S (List.length input) ^ 3) /\
    (forall s2 out, Parses s' input e s2 out -> exists k, BuildCalls s' input e k).
Proof. exact build_calls_bound. Qed.
Print Assumptions C56_calls.

(** the calls of the builders are nested at most C * (n + 1)^2 deep *)
Theorem C56_depth : forall s s', Inits s s' None ->
  exists C, forall input e,
    (forall d, BuildDepth s' input e d -> d <= C * S (List.length input) ^ 2) /\
    (forall s2 out, Parses s' input e s2 out -> exists d, BuildDepth s' input e d).
Proof. exact build_depth_bound. Qed.
Print Assumptions C56_depth.

(** a tree that Parse returns is at most C * (n + 1)^2 deep, and not deeper than the calls *)
Theorem C56_tree : forall s s', Inits s s' None ->
  exists C, forall input e s2 n toks, Parses s' input e s2 (Tree n toks) ->
    depth n <= C * S (List.length input) ^ 2 /\ exists d, BuildDepth s' input e d /\ depth n <= d.
Proof. exact tree_depth. Qed.
Print Assumptions C56_tree.

(** the numbers are functions of the syntax and the input *)
Theorem C56_one : forall s input e k k', (BuildCalls s input e k -> BuildCalls s input e k' -> k = k') /\ (BuildDepth s input e k -> BuildDepth s input e k' -> k = k').
Proof. intros. split; [apply BuildCalls_unique|apply BuildDepth_unique]. Qed.
Print Assumptions C56_one.

(** the calculator of PropRef.v meets the hypothesis *)
Definition calcReady : syntax := match Init 60 calcSyntax with Ok (s', None) => s' | _ => emptySyntax end.
Example C56_example : Inits calcSyntax calcReady None /\ Parses calcReady calcText REof calcReady (Tree calcTree calcText).
Proof.
  split.
  - exists 60. unfold calcReady. destruct (Init 60 calcSyntax) as [[s' [g|]]|w|] eqn:E; [vm_compute in E; discriminate|reflexivity|vm_compute in E; discriminate|vm_compute in E; discriminate].
  - exists 400. vm_compute. reflexivity.
Qed.
(** for the text of the example: 29 calls, 7 deep; the tree has a depth of 3 *)
Example C56_number : (buildCalls 400 calcReady calcText REof, buildDepth 400 calcReady calcText REof, depth calcTree) = (Ok 29, Ok 7, 3).
Proof. vm_compute. reflexivity. Qed.
(** no calls when the input is rejected *)
Example C56_rejected : exists err, Parse 400 calcReady (runesOf "let") REof = Ok (calcReady, Failed err) /\ buildCalls 400 calcReady (runesOf "let") REof = Ok 0.
Proof. eexists. vm_compute. split; reflexivity. Qed.
