(** Definitions that cannot take the text of a keyword, and histories of calls. *)
From Verif Require Import Base Utf8 Parser Build Syntax Define Grammar WsLang ApiSpec DefSpec.

(** with whitespace definitions the root has whitespace around it *)
Definition apart (calls : list defcall) (n : string) : Prop := rootName calls <> Some n \/ noWhitespaceDefs calls.
Definition isChoice (d : defcall) : bool := match d with DChoice _ _ _ => true | _ => false end.
(** sequences, classes and literals with nokw, and choices between such definitions *)
Inductive guarded (calls : list defcall) : string -> Prop :=
| guarded_nokw d : In d calls -> isChoice d = false -> hasFlag (callFlags d) CNoKeyword = true -> apart calls (callName d) ->
    guarded calls (callName d)
| guarded_choice n ct options : In (DChoice n ct options) calls -> apart calls n -> (forall o, In o options -> guarded calls o) ->
    guarded calls n.

(** the calls that a user can make on a syntax, and what they see of them *)
Inductive op := ODefine (d : defcall) | ORead (text : list rune) (e : rend) | OInit | OParse (input : list rune) (e : rend).
Inductive seen := SeenErr (err : option gerr) | SeenOut (o : parseOut).
Definition step (fuel : nat) (o : op) (s : syntax) : res (syntax * seen) :=
  match o with
  | ODefine d => let (s, err) := defineCall s d in Ok (s, SeenErr err)
  | ORead text e => x <- ReadSyntax fuel s text e ;; Ok (fst x, SeenErr (snd x))
  | OInit => x <- Init fuel s ;; Ok (fst x, SeenErr (snd x))
  | OParse input e => x <- Parse fuel s input e ;; Ok (fst x, SeenOut (snd x))
  end.
Fixpoint play (fuel : nat) (ops : list op) (s : syntax) : res (syntax * list seen) :=
  match ops with
  | [] => Ok (s, [])
  | o :: ops => x <- step fuel o s ;; y <- play fuel ops (fst x) ;; Ok (fst y, snd x :: snd y)
  end.
Definition observed (r : res (syntax * list seen)) : res (list seen) := x <- r ;; Ok (snd x).
Definition isPlain (d : defcall) : bool := match d with DSequence _ _ _ | DChoice _ _ _ => true | _ => false end.
(** a definition refused for its name, after Init, or, for sequences and choices, for its flags or
    for a second root; a duplicate when the root is named explicitly and the refused definition is
    not a keyword, which for the other definitions has to show at their first character already *)
Definition refusedCleanly (s : syntax) (d : defcall) (err : gerr) : Prop :=
  err = ErrInvalidSymbolName \/ err = ErrSyntaxInitialized \/
  (isPlain d = true /\ ((forall n, err <> ErrDuplicateDefinition n) \/ (sExplicitRoot s = true /\ hasFlag (callFlags d) CKeyword = false))) \/
  (isPlain d = false /\ sExplicitRoot s = true /\ err = ErrDuplicateDefinition (childName (callName d) 0)).
