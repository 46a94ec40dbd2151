(** Specification: the language of definitions when some of them are whitespace definitions.

    The rules [R] are those of the definition calls, as in Grammar.v; nothing is rewritten. *)
From Verif Require Import Base Parser Syntax Lang Grammar.

Section GENW.
Variable R : string -> option rule.
Variable K : list (list rune).
Variable wsNames : list string.   (* the definitions flagged as whitespace *)
Variable root : string.

(** sequences between whose items no whitespace is accepted: flagged nows (literals are), or
    whitespace definitions themselves *)
Definition compact (ct : commitType) : bool := hasFlag ct CNoWhitespace || hasFlag ct CWhitespace.

(** [wgen n w]: [w] is a text of the definition [n].  The root accepts whitespace around it. *)
Inductive wgen : string -> list rune -> Prop :=
| wgen_root u v w : wspace u -> wbody root v -> wspace w -> wgen root (u ++ v ++ w)
| wgen_def n w : n <> root -> wbody n w -> wgen n w
with wbody : string -> list rune -> Prop :=
| wbody_char n cnot chars ranges r :
    R n = Some (RChar cnot chars ranges) -> inClass cnot chars ranges r -> wbody n [r]
| wbody_compact n ct items w :
    R n = Some (RSeq ct items) -> compact ct = true -> (hasFlag ct CNoKeyword = true -> ~ In w K) ->
    witems items w -> wbody n w
| wbody_spaced n ct items w :
    R n = Some (RSeq ct items) -> compact ct = false -> (hasFlag ct CNoKeyword = true -> ~ In w K) ->
    wspaced true items w -> wbody n w
| wbody_choice n ct options o w :
    R n = Some (RChoice ct options) -> In o options -> wgen o w -> wbody n w
(** items without whitespace between them *)
with witems : list seqItem -> list rune -> Prop :=
| witems_nil : witems [] []
| witems_cons it items k u v :
    quantity (siMin it) (siMax it) k -> wrep (siName it) k u -> witems items v -> witems (it :: items) (u ++ v)
with wrep : string -> nat -> list rune -> Prop :=
| wrep_0 n : wrep n 0 []
| wrep_S n k u v : wgen n u -> wrep n k v -> wrep n (S k) (u ++ v)
(** items with whitespace between them; [first] is true for the first item *)
with wspaced : bool -> list seqItem -> list rune -> Prop :=
| wspaced_nil first : wspaced first [] []
| wspaced_none first it items v :            (* the item does not occur *)
    quantity (siMin it) (siMax it) 0 -> wspaced false items v -> wspaced first (it :: items) v
| wspaced_gap it items u v :                 (* a missing optional single item may leave whitespace behind *)
    quantity (siMin it) (siMax it) 0 -> siMax it = 1%Z -> wspace u -> wspaced false items v ->
    wspaced false (it :: items) (u ++ v)
| wspaced_first it items k u v w :           (* the first item has no whitespace before it *)
    quantity (siMin it) (siMax it) (S k) -> wgen (siName it) u -> wmore (siName it) k v -> wspaced false items w ->
    wspaced true (it :: items) (u ++ v ++ w)
| wspaced_next it items k s u v w :
    quantity (siMin it) (siMax it) (S k) -> wspace s -> wgen (siName it) u -> wmore (siName it) k v ->
    wspaced false items w -> wspaced false (it :: items) (s ++ u ++ v ++ w)
(** [k] further occurrences, each with whitespace before it *)
with wmore : string -> nat -> list rune -> Prop :=
| wmore_0 n : wmore n 0 []
| wmore_S n k s u v : wspace s -> wgen n u -> wmore n k v -> wmore n (S k) (s ++ u ++ v)
(** any number of texts of whitespace definitions *)
with wspace : list rune -> Prop :=
| wspace_nil : wspace []
| wspace_cons n u v : In n wsNames -> wgen n u -> wspace v -> wspace (u ++ v).
End GENW.

Scheme wgen_ind' := Minimality for wgen Sort Prop
with wbody_ind' := Minimality for wbody Sort Prop
with witems_ind' := Minimality for witems Sort Prop
with wrep_ind' := Minimality for wrep Sort Prop
with wspaced_ind' := Minimality for wspaced Sort Prop
with wmore_ind' := Minimality for wmore Sort Prop
with wspace_ind' := Minimality for wspace Sort Prop.
Combined Scheme wgen_mutind from wgen_ind', wbody_ind', witems_ind', wrep_ind', wspaced_ind', wmore_ind', wspace_ind'.

(** the names of the whitespace definitions *)
Definition whitespaceNames (calls : list defcall) : list string :=
  map callName (filter (fun d => hasFlag (callFlags d) CWhitespace) calls).
(** every name that a call refers to is defined by a call *)
Definition allDefined (calls : list defcall) : Prop :=
  forall d, In d calls ->
  match d with
  | DSequence _ _ items => forall it, In it items -> grammarOf calls (siName it) <> None
  | DChoice _ _ options => forall o, In o options -> grammarOf calls o <> None
  | _ => True
  end.
