(** Model of define.go and Syntax.ReadSyntax: from the tree of a syntax description to
    definition calls. *)
From Verif Require Import Base Utf8 Escape IdSet Results Parser Build Syntax SelfData.
Local Open Scope string_scope.
Local Open Scope list_scope.

(** define.go:5-11 dropComments, with node.go:5-23 mapNodes and filterNodes *)
Fixpoint dropComments (n : node) : node :=
  match n with
  | Node name from to nodes =>
    Node name from to
         ((fix go (l : list node) : list node :=
             match l with
             | [] => []
             | x :: l' => if String.eqb (nName x) "comment" then go l' else dropComments x :: go l'
             end) nodes)
  end.

(** define.go:15-32, one flag *)
Definition flagOf (name : string) : commitType :=
  if String.eqb name "alias" then CAlias
  else if String.eqb name "ws" then CWhitespace
  else if String.eqb name "nows" then CNoWhitespace
  else if String.eqb name "kw" then CKeyword
  else if String.eqb name "nokw" then CNoKeyword
  else if String.eqb name "failpass" then CFailPass
  else if String.eqb name "root" then CRoot
  else 0%N.
(** define.go:13-35 flagsToCommitType *)
Definition flagsToCommitType (n : list node) : commitType :=
  fold_left (fun ct ni => N.lor ct (flagOf (nName ni))) n 0%N.

(** define.go:37-48 toRune, nodeChar.  The tokens of a successful parse are valid runes other than
    U+FFFD, for which the []rune(string(...)) conversions are the identity (Utf8Facts.v). *)
Definition nodeChar (tokens : list rune) (n : node) : res rune :=
  match nodeRunes tokens n with
  | [] => Panic PanicIndex
  | c :: rest =>
    if Z.eqb c 92 then match rest with [] => Panic PanicIndex | d :: _ => Ok (unescapeChar d) end
    else Ok c
  end.

(** strconv.Atoi on 64 bit: optional sign, decimal digits, range check *)
Fixpoint atoiDigits (acc : Z) (l : list rune) : option Z :=
  match l with
  | [] => Some acc
  | c :: l' => if Z.leb 48 c && Z.leb c 57 then atoiDigits (acc * 10 + (c - 48))%Z l' else None
  end.
(** strconv.Atoi (define.go:94, 106, 111): the largest int on 64 bit; the limit and the sign *)
Definition maxInt : Z := 9223372036854775807.
Definition atoi (l : list rune) : option Z :=
  let (neg, ds) := match l with
                   | c :: l' => if Z.eqb c 45 then (true, l') else if Z.eqb c 43 then (false, l') else (false, l)
                   | [] => (false, l)
                   end in
  match ds with
  | [] => None
  | _ =>
    match atoiDigits 0 ds with
    | None => None
    | Some v => if neg then if Z.leb v (maxInt + 1) then Some (- v)%Z else None
                else if Z.leb v maxInt then Some v else None
    end
  end.

(** define.go:70-77, the loop of defineClass *)
Fixpoint classItems (tokens : list rune) (n : list node) : res (list rune * list (rune * rune)) :=
  match n with
  | [] => Ok ([], [])
  | c :: n' =>
    if String.eqb (nName c) "class-char" then
      ch <- nodeChar tokens c ;;
      x <- classItems tokens n' ;;
      Ok (ch :: fst x, snd x)
    else if String.eqb (nName c) "char-range" then
      match nNodes c with
      | a :: b :: _ =>
        ca <- nodeChar tokens a ;;
        cb <- nodeChar tokens b ;;
        x <- classItems tokens n' ;;
        Ok (fst x, (ca, cb) :: snd x)
      | _ => Panic PanicIndex
      end
    else classItems tokens n'
  end.

(** define.go:59-80 defineClass *)
Definition defineClass (tokens : list rune) (s : syntax) (name : string) (ct : commitType) (n : list node)
  : res (syntax * option gerr) :=
  let (cnot, n) := match n with
                   | c :: n' => if String.eqb (nName c) "class-not" then (true, n') else (false, n)
                   | [] => (false, n)
                   end in
  x <- classItems tokens n ;;
  Ok (class s name ct cnot (fst x) (snd x)).

(** define.go:82-89, the loop of defineCharSequence *)
Fixpoint nodeChars (tokens : list rune) (n : list node) : res (list rune) :=
  match n with
  | [] => Ok []
  | c :: n' => ch <- nodeChar tokens c ;; rest <- nodeChars tokens n' ;; Ok (ch :: rest)
  end.
(** define.go:82-89 defineCharSequence *)
Definition defineCharSequence (tokens : list rune) (s : syntax) (name : string) (ct : commitType)
           (n : list node) : res (syntax * option gerr) :=
  chars <- nodeChars tokens n ;;
  Ok (charSequence s name ct chars).

(** define.go:103-116, the loop over the members of a range-quantifier *)
Fixpoint rangeQuantity (tokens : list rune) (n : list node) (mn mx : Z) : option (Z * Z) :=
  match n with
  | [] => Some (mn, mx)
  | rq :: n' =>
    if String.eqb (nName rq) "range-from" then
      match atoi (nodeRunes tokens rq) with Some v => rangeQuantity tokens n' v mx | None => None end
    else if String.eqb (nName rq) "range-to" then
      match atoi (nodeRunes tokens rq) with Some v => rangeQuantity tokens n' mn v | None => None end
    else rangeQuantity tokens n' mn mx
  end.
(** define.go:91-126 getQuantity; [Ok None] is an Atoi error *)
Definition getQuantity (tokens : list rune) (n : node) : res (option (Z * Z)) :=
  if String.eqb (nName n) "count-quantifier" then
    match nNodes n with
    | [] => Panic PanicIndex
    | x :: _ => match atoi (nodeRunes tokens x) with Some v => Ok (Some (v, v)) | None => Ok None end
    end
  else if String.eqb (nName n) "range-quantifier" then Ok (rangeQuantity tokens (nNodes n) 0 (-1))
  else if String.eqb (nName n) "one-or-more" then Ok (Some (1, -1)%Z)
  else if String.eqb (nName n) "zero-or-more" then Ok (Some (0, -1)%Z)
  else if String.eqb (nName n) "zero-or-one" then Ok (Some (0, 1)%Z)
  else Ok (Some (0, 0)%Z).

(** define.go:147-152 *)
Definition itemQuantity (tokens : list rune) (nodes : list node) : res (option (Z * Z)) :=
  match nodes with
  | [_; q] => getQuantity tokens q
  | _ => Ok (Some (0, 0)%Z)
  end.

(** define.go:176-194 defineExpression, with defineMember (50-57), defineSymbol (128-130),
    defineSequence (132-158) and defineChoice (160-174) inside; an expression of any other name
    is silently ignored *)
Fixpoint defineExpression (tokens : list rune) (s : syntax) (name : string) (ct : commitType) (e : node)
  {struct e} : res (syntax * option gerr) :=
  match e with
  | Node ename from to nodes =>
    if String.eqb ename "any-char" then Ok (anyChar s name ct)
    else if String.eqb ename "char-class" then defineClass tokens s name ct nodes
    else if String.eqb ename "char-sequence" then defineCharSequence tokens s name ct nodes
    else if String.eqb ename "symbol" then Ok (sequence s name ct [mkItem (nodeText tokens e) 0 0])
    else if String.eqb ename "sequence" then
      (fix go (s : syntax) (i : nat) (items : list seqItem) (l : list node) : res (syntax * option gerr) :=
         match l with
         | [] => Ok (sequence s name ct items)
         | Node _ _ _ ns :: l' =>
           match ns with
           | [] => Panic PanicIndex
           | m :: _ =>
             let defaultName := childName name i in
             x <- (if String.eqb (nName m) "symbol" then Ok (nodeText tokens m, (s, None))
                   else se <- defineExpression tokens s defaultName (N.lor CAlias (N.land ct CNoWhitespace)) m ;;
                        Ok (defaultName, se)) ;;
             match x with
             | (_, (s, Some err)) => Ok (s, Some err)
             | (ref, (s, None)) =>
               q <- itemQuantity tokens ns ;;
               match q with
               | None => Ok (s, Some ErrAtoi)
               | Some (mn, mx) => go s (S i) (items ++ [mkItem ref mn mx]) l'
               end
             end
           end
         end) s 0 [] nodes
    else if String.eqb ename "choice" then
      (fix go (s : syntax) (i : nat) (refs : list string) (l : list node) : res (syntax * option gerr) :=
         match l with
         | [] => Ok (choice s name ct refs)
         | m :: l' =>
           let defaultName := childName name i in
           x <- (if String.eqb (nName m) "symbol" then Ok (nodeText tokens m, (s, None))
                 else se <- defineExpression tokens s defaultName (N.lor (N.land ct CNoWhitespace) CAlias) m ;;
                      Ok (defaultName, se)) ;;
           match x with
           | (_, (s, Some err)) => Ok (s, Some err)
           | (ref, (s, None)) => go s (S i) (refs ++ [ref]) l'
           end
         end) s 0 [] nodes
    else Ok (s, None)
  end.

(** define.go:196-203 addDefinition: [n.Nodes[0]], [n.Nodes[1:len-1]], [n.Nodes[len-1]] *)
Definition addDefinition (tokens : list rune) (s : syntax) (n : node) : res (syntax * option gerr) :=
  match nNodes n with
  | [] => Panic PanicIndex
  | [x] => Panic PanicSlice     (* n.Nodes[1:0] *)
  | x :: rest =>
    defineExpression tokens s (nodeText tokens x)
                     (N.lor (flagsToCommitType (removelast rest)) CUserDefined) (last rest x)
  end.

(** define.go:205-215, the loop of define *)
Fixpoint addDefinitions (tokens : list rune) (s : syntax) (l : list node) : res (syntax * option gerr) :=
  match l with
  | [] => Ok (s, None)
  | n :: l' =>
    se <- addDefinition tokens s n ;;
    match se with
    | (s, Some e) => Ok (s, Some e)
    | (s, None) => addDefinitions tokens s l'
    end
  end.

(** define.go:205-215 define *)
Definition define (tokens : list rune) (s : syntax) (syntaxTree : node) : res (syntax * option gerr) :=
  addDefinitions tokens s (nNodes (dropComments syntaxTree)).

(** self.Parse, self/self.go:812-1433 *)
Definition selfParse (fuel : nat) (input : list rune) (e : rend) : res parseOut :=
  parseInputPB selfParsers selfBuilders [] selfRoot selfBuilderRoot fuel input e.

(** syntax.go:285-297 ReadSyntax (mapSelfNode, node.go:25-38, copies the tree) *)
Definition ReadSyntax (fuel : nat) (s : syntax) (input : list rune) (e : rend) : res (syntax * option gerr) :=
  if sInitialized s then Ok (s, Some ErrSyntaxInitialized)
  else
    o <- selfParse fuel input e ;;
    match o with
    | Failed err => Ok (s, Some err)
    | Tree n tokens => define tokens s n
    end.
