(** The depth of the calls of parser.parse: C55. *)
From Verif Require Import Base Utf8 Parser Build Syntax Define Grammar WsLang ApiSpec WsApi ApiFacts RefSpec RefApi RefCheck ReadFacts ReadSpec SelfGrammar SelfLang ReadLang ReadMeans
  Cost CostSpec DepthSpec DepthApi PropRefuted PropRead PropRef PropReadGrow.
Local Open Scope string_scope.
Local Open Scope list_scope.
Local Open Scope nat_scope.

(** C55: the calls of the parsers are nested at most C * (n + 1) deep for n characters of input, with C
    depending on the syntax only; left recursion, cycles without a choice and keywords that are not
    literals included.  The depth exists for every input without invalid characters. *)
Theorem C55_depth : forall calls s s',
  Defined calls s -> wsReady calls -> Inits s s' None ->
  exists C, forall input e,
    (forall d, CallDepth s' input e d -> d <= C * S (List.length input)) /\
    (~ In runeError input -> exists d, CallDepth s' input e d).
Proof. exact depth_bound. Qed.
Print Assumptions C55_depth.

(** the same for a syntax that is read from a text *)
Theorem C55_text_depth : forall text defs s s',
  spells text defs -> ReadLang.Reads emptySyntax text REof s None -> textReady defs -> Inits s s' None ->
  exists C, forall input e,
    (forall d, CallDepth s' input e d -> d <= C * S (List.length input)) /\
    (~ In runeError input -> exists d, CallDepth s' input e d).
Proof. exact text_depth_bound. Qed.
Print Assumptions C55_text_depth.

(** and for the parser of ReadSyntax *)
Theorem C55_builtin : exists C, forall input e,
    (forall d, CallDepth selfInit input e d -> d <= C * S (List.length input)) /\
    (~ In runeError input -> exists d, CallDepth selfInit input e d).
Proof. exact self_depth_bound. Qed.
Print Assumptions C55_builtin.

(** the depth is a function of the syntax and the input *)
Theorem C55_one : forall s input e d d', CallDepth s input e d -> CallDepth s input e d' -> d = d'.
Proof. exact CallDepth_unique. Qed.
Print Assumptions C55_one.

(** the order of the bound is right: n letters take a depth of at least n in a syntax of six definitions *)
Theorem C55_reached : exists calls s s',
  Defined calls s /\ refersToDefs calls /\ literalKeywords calls /\ Inits s s' None /\
  forall n, exists d, CallDepth s' (repeat 97%Z n) REof d /\ n <= d.
Proof. exact deep. Qed.
Print Assumptions C55_reached.

(** the calculator of PropRef.v meets the hypotheses *)
Example C55_example : Defined calc calcSyntax /\ wsReady calc /\
  exists s', Inits calcSyntax s' None /\ exists d, CallDepth s' calcText REof d.
Proof.
  pose proof (literal_ready _ calc_refs calc_literal) as Hw.
  split; [exact calc_defined|]. split; [exact Hw|]. destruct calc_init as (s' & HI). exists s'. split; auto.
  destruct (C55_depth calc calcSyntax s' calc_defined Hw HI) as (C & H). apply H. exact calc_valid.
Qed.
(** its depth for the text of the example *)
Example C55_number : parseDepth 400 (match Init 60 calcSyntax with Ok (s', None) => s' | _ => emptySyntax end) calcText REof = Ok 10.
Proof. vm_compute. reflexivity. Qed.
