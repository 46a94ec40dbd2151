(** Definitions that matter for parsing: those that can be reached from the root. *)
From Coq Require Import Permutation.
From Verif Require Import Base Parser Build Syntax Grammar WsLang ApiSpec DefSpec.

(** reached by references from the root or from a whitespace definition *)
Inductive reachable (calls : list defcall) : string -> Prop :=
| reach_root n : rootName calls = Some n -> reachable calls n
| reach_ws n : In n (whitespaceNames calls) -> reachable calls n
| reach_item n ct items it : reachable calls n -> grammarOf calls n = Some (RSeq ct items) -> In it items -> reachable calls (siName it)
| reach_option n ct options o : reachable calls n -> grammarOf calls n = Some (RChoice ct options) -> In o options -> reachable calls o.
(** the same root, whitespace and keywords, and the same definitions of everything that is reachable *)
Definition sameReachable (calls calls' : list defcall) : Prop :=
  rootName calls' = rootName calls /\ whitespaceNames calls' = whitespaceNames calls /\
  (forall w, In w (keywordTexts calls') <-> In w (keywordTexts calls)) /\
  forall n, reachable calls n -> grammarOf calls' n = grammarOf calls n.

(** the names of the keywords, in the order of their definition *)
Definition keywordNames (calls : list defcall) : list string := map callName (filter (fun d => hasFlag (callFlags d) CKeyword) calls).
(** the same root, whitespace and keywords, in the same order, and the same definitions of all the
    names that these need, directly or through others *)
Definition sameNeeded (calls calls' : list defcall) : Prop :=
  rootName calls' = rootName calls /\ whitespaceNames calls' = whitespaceNames calls /\ keywordNames calls' = keywordNames calls /\
  forall n, needed calls n -> grammarOf calls' n = grammarOf calls n.
(** with whitespace: references are symbols, and keywords are literals, choices or without whitespace *)
Definition regular (calls : list defcall) : Prop := hasWhitespaceDef calls -> symbolRefs calls /\ keywordsPlain calls.
(** no difference between two syntaxes can be seen: Init gives the same error or none, and Parse has
    the same result for every input and every end of it: tree, parse error, read error or panic *)
Definition answersAlike (s s' : syntax) : Prop :=
  (forall err, (exists s1, Inits s s1 err) <-> (exists s1, Inits s' s1 err)) /\
  (forall input e out, (exists s1, Parses s input e s1 out) <-> (exists s1, Parses s' input e s1 out)) /\
  (forall input e, ParsePanics s input e <-> ParsePanics s' input e).
