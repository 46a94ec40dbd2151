(** Common vocabulary of the model. *)
From Coq Require Export List Arith ZArith NArith Bool String Ascii Lia.
Export ListNotations.
Open Scope nat_scope.
Open Scope list_scope.

(** A Go rune (int32).  Unbounded integer here. *)
Definition rune := Z.

(** Identity (pointer) of a definition / parser / builder object: its index in a heap. *)
Definition addr := nat.

(** Outcome of Go code: a value, a run time panic, or (model only) exhausted fuel. *)
Inductive panic : Type :=
| PanicIndex       (* index out of range *)
| PanicSlice       (* slice bounds out of range *)
| PanicNil         (* nil pointer / nil interface call *)
| PanicDangling.   (* model only: an address that is not in the heap *)

(** result of a modelled call: it returns, panics (Go run-time panic), or the fuel of the model was not enough; model only *)
Inductive res (A : Type) : Type :=
| Ok (a : A)
| Panic (p : panic)
| NoFuel.
Arguments Ok {A} a.
Arguments Panic {A} p.
Arguments NoFuel {A}.

(** sequencing of statements: a panic ends the caller, too *)
Definition bind {A B} (m : res A) (f : A -> res B) : res B :=
  match m with
  | Ok a => f a
  | Panic p => Panic p
  | NoFuel => NoFuel
  end.
Notation "x <- m ;; f" := (bind m (fun x => f))
  (at level 61, m at next level, right associativity).

(** list update: [l[i] = f(l[i])], no effect when out of range *)
Fixpoint updNth {A} (i : nat) (f : A -> A) (l : list A) : list A :=
  match l, i with
  | [], _ => []
  | x :: l', O => f x :: l'
  | x :: l', S i' => x :: updNth i' f l'
  end.

(** CommitType, syntaxhead.go:10-23.  [Alias CommitType = 1 << iota] is on the second line of
    the const block, so iota is 1 there. *)
Definition commitType := N.
Definition CNone : commitType := 0%N.
Definition CAlias : commitType := 2%N.
Definition CWhitespace : commitType := 4%N.
Definition CNoWhitespace : commitType := 8%N.
Definition CKeyword : commitType := 16%N.
Definition CNoKeyword : commitType := 32%N.
Definition CFailPass : commitType := 64%N.
Definition CRoot : commitType := 128%N.
Definition CUserDefined : commitType := 256%N.

(** [ct & flag != 0] *)
Definition hasFlag (ct f : commitType) : bool := negb (N.eqb (N.land ct f) 0).

(** Go errors that the package can return. *)
Inductive gerr : Type :=
| ErrSyntaxInitialized
| ErrInitFailed
| ErrNoParsersDefined
| ErrInvalidEscapeCharacter
| ErrMultipleRoots
| ErrInvalidSymbolName
| ErrInvalidUnicodeCharacter
| ErrDuplicateDefinition (name : string)
| ErrParserNotFound (name : string)
| ErrIncompatible (name : string) (a b : commitType)
| ErrAtoi
| ErrReader (code : nat)
| ErrParse (offset line column : nat) (definition : string).

(** runes of an ASCII Coq string, for writing literals *)
Fixpoint runesOf (s : string) : list rune :=
  match s with
  | EmptyString => []
  | String a s' => Z.of_nat (nat_of_ascii a) :: runesOf s'
  end.
