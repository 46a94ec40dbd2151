(** Specification: the Go program that Generate is to write, and what running it does.

    The body of the generated function is a list of statements of two kinds,

      var p1 = sequenceParser{id: 1, ...};      a declaration
      p1.items = []parser{&p2,&p3,};            an assignment of a field

    followed by a call of parseInput.  A variable is p<id> or b<id>.  Declaring a variable twice,
    and using one before its declaration, are compile errors.  Every declaration takes a new cell
    of the memory; &p2 is the address of the cell of p2. *)
From Verif Require Import Base Parser Build Syntax.

Definition var := (bool * nat)%type.

(** the struct types of the head, and the fields of a composite literal *)
Inductive gotype := TCharParser | TSequenceParser | TChoiceParser | TCharBuilder | TSequenceBuilder | TChoiceBuilder.
Inductive field :=
| FName (name : string) | FId (id : nat) | FCommit (c : commitType) | FNot | FAllChars
| FChars (l : list rune) | FRuneRanges (l : list (rune * rune))
| FIntRanges (l : list (Z * Z)) | FGeneralizations (l : list nat).
Inductive stmt :=
| SVar (v : var) (t : gotype) (fields : list field)
| SLink (v : var) (items : bool) (builders : bool) (refs : list var).

(** the zero values.  Parsers and builders share the type of the model's heap. *)
Definition zero (t : gotype) : pobj :=
  match t with
  | TCharParser | TCharBuilder => PChar "" 0 false [] []
  | TSequenceParser | TSequenceBuilder => PSeq "" 0 0%N [] [] [] false
  | TChoiceParser | TChoiceBuilder => PChoice "" 0 0%N [] []
  end%string.
(** [None]: no such field *)
Definition setField (t : gotype) (o : pobj) (f : field) : option pobj :=
  match o, f with
  | PChar n i x cs rs, FName v => Some (PChar v i x cs rs)
  | PChar n i x cs rs, FId v => Some (PChar n v x cs rs)
  | PChar n i x cs rs, FNot => match t with TCharParser => Some (PChar n i true cs rs) | _ => None end
  | PChar n i x cs rs, FChars v => match t with TCharParser => Some (PChar n i x v rs) | _ => None end
  | PChar n i x cs rs, FRuneRanges v => match t with TCharParser => Some (PChar n i x cs v) | _ => None end
  | PSeq n i c it rs gs ac, FName v => Some (PSeq v i c it rs gs ac)
  | PSeq n i c it rs gs ac, FId v => Some (PSeq n v c it rs gs ac)
  | PSeq n i c it rs gs ac, FCommit v => Some (PSeq n i v it rs gs ac)
  | PSeq n i c it rs gs ac, FIntRanges v => Some (PSeq n i c it v gs ac)
  | PSeq n i c it rs gs ac, FGeneralizations v => Some (PSeq n i c it rs v ac)
  | PSeq n i c it rs gs ac, FAllChars => Some (PSeq n i c it rs gs true)
  | PChoice n i c os gs, FName v => Some (PChoice v i c os gs)
  | PChoice n i c os gs, FId v => Some (PChoice n v c os gs)
  | PChoice n i c os gs, FCommit v => Some (PChoice n i v os gs)
  | PChoice n i c os gs, FGeneralizations v => Some (PChoice n i c os v)
  | _, _ => None
  end.
Fixpoint setFields (t : gotype) (o : pobj) (l : list field) : option pobj :=
  match l with [] => Some o | f :: l' => match setField t o f with Some o' => setFields t o' l' | None => None end end.
(** a field may be given once *)
Definition fieldNo (f : field) : nat :=
  match f with
  | FName _ => 0 | FId _ => 1 | FCommit _ => 2 | FNot => 3 | FAllChars => 4 | FChars _ => 5
  | FRuneRanges _ => 6 | FIntRanges _ => 6 | FGeneralizations _ => 7
  end.
Fixpoint distinct (l : list nat) : bool :=
  match l with [] => true | x :: l' => negb (existsb (Nat.eqb x) l') && distinct l' end.
Definition value (t : gotype) (l : list field) : option pobj :=
  if distinct (map fieldNo l) then setFields t (zero t) l else None.

Definition varEqb (v w : var) : bool := (Bool.eqb (fst v) (fst w) && (snd v =? snd w))%bool.
(** the variables p<id> hold parsers, the variables b<id> hold builders *)
Definition isBuilder (t : gotype) : bool :=
  match t with TCharBuilder | TSequenceBuilder | TChoiceBuilder => true | _ => false end.
Definition wellTyped (st : stmt) : bool :=
  match st with
  | SVar v t _ => Bool.eqb (isBuilder t) (fst v)
  | SLink v _ builders refs => (Bool.eqb builders (fst v) && forallb (fun r => Bool.eqb (fst r) builders) refs)%bool
  end.
(** the cells of the declared variables, in the order of their declaration *)
Record memory := mkMemory { mVars : list var; mCells : pheap }.
Definition noMemory : memory := mkMemory [] [].

Fixpoint cellOf (vars : list var) (v : var) : option addr :=
  match vars with
  | [] => None
  | w :: vars' => if varEqb w v then Some 0 else option_map S (cellOf vars' v)
  end.
Fixpoint cellsOf (vars : list var) (l : list var) : option (list addr) :=
  match l with
  | [] => Some []
  | v :: l' =>
    match cellOf vars v, cellsOf vars l' with Some a, Some r => Some (a :: r) | _, _ => None end
  end.
(** only sequences have a field items, only choices have a field options *)
Definition assign (items : bool) (xs : list addr) (o : pobj) : option pobj :=
  match o, items with
  | PSeq n i c _ rs gs ac, true => Some (PSeq n i c xs rs gs ac)
  | PChoice n i c _ gs, false => Some (PChoice n i c xs gs)
  | _, _ => None
  end.
(** [None]: the program does not compile *)
Definition step (m : memory) (st : stmt) : option memory :=
  if negb (wellTyped st) then None else
  match st with
  | SVar v t fields =>
    match cellOf (mVars m) v, value t fields with
    | None, Some o => Some (mkMemory (mVars m ++ [v]) (mCells m ++ [o]))
    | _, _ => None
    end
  | SLink v items _ refs =>
    match cellOf (mVars m) v, cellsOf (mVars m) refs with
    | Some a, Some xs =>
      match nth_error (mCells m) a with
      | Some o => match assign items xs o with Some o' => Some (mkMemory (mVars m) (updNth a (fun _ => o') (mCells m))) | None => None end
      | None => None
      end
    | _, _ => None
    end
  end.
Fixpoint exec (m : memory) (l : list stmt) : option memory :=
  match l with [] => Some m | st :: l' => match step m st with Some m' => exec m' l' | None => None end end.

(** the function: its statements, the variables in keywords, the variables of the root *)
Record goFunc := mkGoFunc { fBody : list stmt; fKeywords : list var; fRoot : var; fRootBuilder : var }.

(** a variable that is declared and not used is a compile error *)
Definition refsOfStmt (st : stmt) : list var := match st with SVar _ _ _ => [] | SLink _ _ _ refs => refs end.
Definition used (f : goFunc) (v : var) : bool :=
  existsb (varEqb v) (fRoot f :: fRootBuilder f :: fKeywords f ++ flat_map refsOfStmt (fBody f)).
Definition allUsed (f : goFunc) : bool :=
  forallb (fun st => match st with SVar v _ _ => used f v | SLink _ _ _ _ => true end) (fBody f).

(** a call of the function, [None] when it does not compile *)
Definition call (f : goFunc) (fuel : nat) (input : list rune) (e : rend) : option (res parseOut) :=
  if negb (allUsed f) then None else
  match exec noMemory (fBody f) with
  | None => None
  | Some m =>
    match cellsOf (mVars m) (fKeywords f), cellOf (mVars m) (fRoot f), cellOf (mVars m) (fRootBuilder f) with
    | Some kws, Some r, Some rb =>
      if (existsb fst (fKeywords f) || fst (fRoot f) || negb (fst (fRootBuilder f)))%bool then None else Some (parseInputPB (mCells m) (mCells m) kws r rb fuel input e)
    | _, _, _ => None
    end
  end.

(** the same outcome, but that a parse error of the definition [name] may be one with an empty
    definition name *)
Definition sameButName (name : string) (a b : res parseOut) : Prop :=
  a = b \/ exists o l c, a = Ok (Failed (ErrParse o l c name)) /\ b = Ok (Failed (ErrParse o l c ""%string)).
