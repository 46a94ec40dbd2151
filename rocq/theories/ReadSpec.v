(** Specification of the syntax language: what a syntax text means, as a list of definition calls.

    A syntax text is a list of definitions, each of them a name, flags and an expression.  The
    expressions inside sequences and choices, unless they are symbols, stand for definitions of
    their own: aliases with the name of the definition around them, a colon and the position. *)
From Verif Require Import Base Utf8 Parser Build Syntax Grammar.
Local Open Scope string_scope.
Local Open Scope list_scope.

Inductive expr : Type :=
| EAny
| EClass (cnot : bool) (chars : list rune) (ranges : list (rune * rune))
| EText (chars : list rune)
| ESymbol (name : string)
| ESequence (items : list (expr * (Z * Z)))
| EChoice (options : list expr).
Record textDef := mkTextDef { tdName : string; tdFlags : commitType; tdExpr : expr }.

(** ** from definitions to calls *)

(** what an item or option refers to: a symbol is a reference, anything else a definition of its own *)
Definition refTo (name : string) (i : nat) (e : expr) : string :=
  match e with ESymbol n => n | _ => childName name i end.
(** the flags of a definition inside another one *)
Definition innerFlags (ct : commitType) : commitType := N.lor CAlias (N.land ct CNoWhitespace).

Fixpoint callsOf (name : string) (ct : commitType) (e : expr) {struct e} : list defcall :=
  match e with
  | EAny => [DAnyChar name ct]
  | EClass cnot chars ranges => [DClass name ct cnot chars ranges]
  | EText chars => [DCharSequence name ct chars]
  | ESymbol n => [DSequence name ct [mkItem n 0 0]]
  | ESequence items =>
    (fix inner (i : nat) (l : list (expr * (Z * Z))) : list defcall :=
       match l with
       | [] => []
       | (ESymbol _, _) :: l' => inner (S i) l'
       | (x, _) :: l' => callsOf (childName name i) (innerFlags ct) x ++ inner (S i) l'
       end) 0 items ++
    [DSequence name ct
       ((fix refs (i : nat) (l : list (expr * (Z * Z))) : list seqItem :=
           match l with
           | [] => []
           | (x, (mn, mx)) :: l' => mkItem (refTo name i x) mn mx :: refs (S i) l'
           end) 0 items)]
  | EChoice options =>
    (fix inner (i : nat) (l : list expr) : list defcall :=
       match l with
       | [] => []
       | ESymbol _ :: l' => inner (S i) l'
       | x :: l' => callsOf (childName name i) (innerFlags ct) x ++ inner (S i) l'
       end) 0 options ++
    [DChoice name ct
       ((fix refs (i : nat) (l : list expr) : list string :=
           match l with
           | [] => []
           | x :: l' => refTo name i x :: refs (S i) l'
           end) 0 options)]
  end.
Definition textCalls (d : textDef) : list defcall := callsOf (tdName d) (N.lor (tdFlags d) CUserDefined) (tdExpr d).

(** definitions with symbols only inside, which can be made with the methods of Syntax: AnyChar,
    Class, CharSequence, Sequence and Choice *)
Definition plainExpr (e : expr) : Prop :=
  match e with
  | ESequence items => forall x b, In (x, b) items -> exists n, x = ESymbol n
  | EChoice options => forall x, In x options -> exists n, x = ESymbol n
  | _ => True
  end.
Definition symbolOf (e : expr) : string := match e with ESymbol n => n | _ => "" end.
Definition methodCall (d : textDef) : defcall :=
  let n := tdName d in
  let ct := tdFlags d in
  match tdExpr d with
  | EAny => DAnyChar n ct
  | EClass cnot chars ranges => DClass n ct cnot chars ranges
  | EText chars => DCharSequence n ct chars
  | ESymbol m => DSequence n ct [mkItem m 0 0]
  | ESequence items => DSequence n ct (map (fun it => mkItem (symbolOf (fst it)) (fst (snd it)) (snd (snd it))) items)
  | EChoice options => DChoice n ct (map symbolOf options)
  end.

(** ** from the tree of a syntax text to definitions *)

(** children that are no comments *)
Definition parts (n : node) : list node := filter (fun x => negb (String.eqb (nName x) "comment")) (nNodes n).
Definition sequenceOpt {A} (l : list (option A)) : option (list A) :=
  fold_right (fun x r => match x, r with Some a, Some l => Some (a :: l) | _, _ => None end) (Some []) l.

Section TEXT.
Variable text : list rune.
Definition textOf (n : node) : list rune := firstn (nTo n - nFrom n) (skipn (nFrom n) text).

(** a character, or a backslash and a character *)
Definition escaped (c : rune) : rune :=
  match c with
  | 98 => 8 | 102 => 12 | 110 => 10 | 114 => 13 | 116 => 9 | 118 => 11   (* b f n r t v *)
  | _ => c
  end%Z.
Definition charOf (n : node) : option rune :=
  match textOf n with
  | [c] => if Z.eqb c 92 then None else Some c
  | [b; c] => if Z.eqb b 92 then Some (escaped c) else None
  | _ => None
  end.
Definition rangeOf (n : node) : option (rune * rune) :=
  match parts n with
  | [a; b] => match charOf a, charOf b with Some x, Some y => Some (x, y) | _, _ => None end
  | _ => None
  end.
Fixpoint classParts (l : list node) : option (list rune * list (rune * rune)) :=
  match l with
  | [] => Some ([], [])
  | n :: l' =>
    match classParts l' with
    | None => None
    | Some (chars, ranges) =>
      if String.eqb (nName n) "class-char" then option_map (fun c => (c :: chars, ranges)) (charOf n)
      else if String.eqb (nName n) "char-range" then option_map (fun r => (chars, r :: ranges)) (rangeOf n)
      else None
    end
  end.

(** a decimal number that fits in 63 bits *)
Definition isDigit (c : rune) : bool := (Z.leb 48 c && Z.leb c 57)%bool.
Definition numberOf (n : node) : option Z :=
  let w := textOf n in
  let v := fold_left (fun acc c => acc * 10 + (c - 48))%Z w 0%Z in
  if negb (Nat.eqb (List.length w) 0) && forallb isDigit w && Z.ltb v (2 ^ 63) then Some v else None.
(** the bounds of a quantifier: {n}, {n,m} with either missing, +, *, ? *)
Definition boundsOf (q : node) : option (Z * Z) :=
  if String.eqb (nName q) "count-quantifier" then
    match parts q with [n] => option_map (fun v => (v, v)) (numberOf n) | _ => None end
  else if String.eqb (nName q) "range-quantifier" then
    match parts q with
    | [] => Some (0, -1)%Z
    | [a] =>
      if String.eqb (nName a) "range-from" then option_map (fun v => (v, (-1))%Z) (numberOf a)
      else if String.eqb (nName a) "range-to" then option_map (fun v => (0%Z, v)) (numberOf a) else None
    | [a; b] => match numberOf a, numberOf b with Some v, Some w => Some (v, w) | _, _ => None end
    | _ => None
    end
  else if String.eqb (nName q) "one-or-more" then Some (1, -1)%Z
  else if String.eqb (nName q) "zero-or-more" then Some (0, -1)%Z
  else if String.eqb (nName q) "zero-or-one" then Some (0, 1)%Z
  else None.

(** the expression that a node stands for; the depth of the node bounds [k] *)
Fixpoint exprOf (k : nat) (n : node) : option expr :=
  match k with
  | O => None
  | S k' =>
    if String.eqb (nName n) "any-char" then Some EAny
    else if String.eqb (nName n) "char-class" then
      match parts n with
      | c :: l =>
        if String.eqb (nName c) "class-not" then option_map (fun p => EClass true (fst p) (snd p)) (classParts l)
        else option_map (fun p => EClass false (fst p) (snd p)) (classParts (c :: l))
      | [] => Some (EClass false [] [])
      end
    else if String.eqb (nName n) "char-sequence" then option_map EText (sequenceOpt (map charOf (parts n)))
    else if String.eqb (nName n) "symbol" then Some (ESymbol (runesString (textOf n)))
    else if String.eqb (nName n) "sequence" then
      option_map ESequence (sequenceOpt (map (fun it =>
        match parts it with
        | [x] => option_map (fun e => (e, (0, 0)%Z)) (exprOf k' x)
        | [x; q] => match exprOf k' x, boundsOf q with Some e, Some b => Some (e, b) | _, _ => None end
        | _ => None
        end) (parts n)))
    else if String.eqb (nName n) "choice" then option_map EChoice (sequenceOpt (map (exprOf k') (parts n)))
    else None
  end.

(** the names of the flags *)
Definition flagBit (name : string) : option commitType :=
  if String.eqb name "alias" then Some CAlias
  else if String.eqb name "ws" then Some CWhitespace
  else if String.eqb name "nows" then Some CNoWhitespace
  else if String.eqb name "kw" then Some CKeyword
  else if String.eqb name "nokw" then Some CNoKeyword
  else if String.eqb name "failpass" then Some CFailPass
  else if String.eqb name "root" then Some CRoot
  else None.
Fixpoint depth (n : node) : nat :=
  match n with Node _ _ _ nodes => S (fold_right (fun x d => Nat.max (depth x) d) 0 nodes) end.
(** a definition: its name, its flags, its expression *)
Definition defOf (n : node) : option textDef :=
  match parts n with
  | name :: rest =>
    match rev rest with
    | x :: flags =>
      match exprOf (depth x) x, sequenceOpt (map (fun f => flagBit (nName f)) flags) with
      | Some e, Some fs => Some (mkTextDef (runesString (textOf name)) (fold_right N.lor 0%N fs) e)
      | _, _ => None
      end
    | [] => None
    end
  | [] => None
  end.
Definition defsOf (tree : node) : option (list textDef) := sequenceOpt (map defOf (parts tree)).
End TEXT.
