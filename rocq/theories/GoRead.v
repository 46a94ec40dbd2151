(** Specification: reading the body of the generated function as Go source text.

    The tokens of the Go language that occur in it: words (identifiers, keywords and decimal
    numbers), interpreted string literals without escapes, and single characters.  A line break
    after a word, a string literal or a closing bracket ends a statement (Go specification,
    Semicolons).  The reader takes the statements of GoSpec and nothing else; every other text,
    also other valid Go, is refused. *)
From Coq Require Import DecimalString.
From Verif Require Import Base Utf8 IdSet Results Parser Build Syntax GoSpec.
Local Open Scope string_scope.
Local Open Scope list_scope.
Local Infix "+++" := String.append (at level 60, right associativity).

Inductive token := TWord (w : string) | TStr (s : string) | TSym (c : ascii).

Definition chQuote : ascii := Ascii.ascii_of_nat 34.
Definition chBackslash : ascii := Ascii.ascii_of_nat 92.
Definition chNewline : ascii := Ascii.ascii_of_nat 10.
Definition chTab : ascii := Ascii.ascii_of_nat 9.
Definition between (lo hi c : ascii) : bool := (Ascii.leb lo c && Ascii.leb c hi)%bool.
Definition wordChar (c : ascii) : bool :=
  (between "a" "z" c || between "A" "Z" c || between "0" "9" c || Ascii.eqb c "_")%bool%char.
Definition closing (c : ascii) : bool := existsb (Ascii.eqb c) [")"; "]"; "}"]%char.

(** the source text in a string literal: valid UTF-8, without the null character and the byte order mark *)
Definition sourceText (s : string) : bool :=
  ((if list_eq_dec Z.eq_dec (encodeUtf8 (stringRunes s)) (bytesOf s) then true else false) &&
   forallb (fun r => negb ((r =? 0) || (r =? 65279))%Z) (stringRunes s))%bool.

(** outside of a token, in a word, in a string literal *)
Inductive lstate := LIdle | LWord (w : string) | LStr (s : string).
(** [semi]: a line break now ends a statement *)
Fixpoint lex (st : lstate) (semi : bool) (s : string) : option (list token) :=
  match s with
  | "" =>
    match st with LIdle => Some [] | LWord w => Some [TWord w] | LStr _ => None end
  | String c s' =>
    let idle (semi : bool) :=
      if wordChar c then lex (LWord (String c "")) true s'
      else if Ascii.eqb c chQuote then lex (LStr "") semi s'
      else if Ascii.eqb c chNewline then if semi then option_map (cons (TSym ";")) (lex LIdle false s') else lex LIdle false s'
      else if (Ascii.eqb c " " || Ascii.eqb c chTab)%bool then lex LIdle semi s'
      else option_map (cons (TSym c)) (lex LIdle (closing c) s') in
    match st with
    | LIdle => idle semi
    | LWord w => if wordChar c then lex (LWord (w +++ String c "")) true s' else option_map (cons (TWord w)) (idle true)
    | LStr w =>
      if Ascii.eqb c chQuote then if sourceText w then option_map (cons (TStr w)) (lex LIdle true s') else None
      else if (Ascii.eqb c chBackslash || Ascii.eqb c chNewline)%bool then None
      else lex (LStr (w +++ String c "")) semi s'
    end
  end.

Definition tokenEqb (a b : token) : bool :=
  match a, b with
  | TWord x, TWord y => String.eqb x y
  | TStr x, TStr y => String.eqb x y
  | TSym x, TSym y => Ascii.eqb x y
  | _, _ => false
  end.
(** the tokens after [expected] *)
Fixpoint expect (expected toks : list token) : option (list token) :=
  match expected, toks with
  | [], _ => Some toks
  | e :: expected', t :: toks' => if tokenEqb e t then expect expected' toks' else None
  | _, [] => None
  end.

(** decimal numbers, without leading zeros *)
Definition readZ (neg : bool) (w : string) : option Z :=
  match NilZero.int_of_string w with
  | Some d =>
    let z := Z.of_int d in
    if String.eqb (itoa z) w then Some (if neg then Z.opp z else z) else None
  | None => None
  end.
Definition readInt (toks : list token) : option (Z * list token) :=
  match toks with
  | TSym "-" :: TWord w :: toks' => option_map (fun z => (z, toks')) (readZ true w)
  | TWord w :: toks' => option_map (fun z => (z, toks')) (readZ false w)
  | _ => None
  end.
(** 1,2,3,} *)
Fixpoint readInts (n : nat) (toks : list token) : option (list Z * list token) :=
  match n with
  | O => None
  | S n' =>
    match toks with
    | TSym "}" :: toks' => Some ([], toks')
    | _ =>
      match readInt toks with
      | Some (z, TSym "," :: toks') => option_map (fun r => (z :: fst r, snd r)) (readInts n' toks')
      | _ => None
      end
    end
  end.
(** {1, 2},{3, 4},} *)
Fixpoint readPairs (n : nat) (toks : list token) : option (list (Z * Z) * list token) :=
  match n with
  | O => None
  | S n' =>
    match toks with
    | TSym "}" :: toks' => Some ([], toks')
    | TSym "{" :: toks1 =>
      match readInt toks1 with
      | Some (x, TSym "," :: toks2) =>
        match readInt toks2 with
        | Some (y, TSym "}" :: TSym "," :: toks3) => option_map (fun r => ((x, y) :: fst r, snd r)) (readPairs n' toks3)
        | _ => None
        end
      | _ => None
      end
    | _ => None
    end
  end.
(** the fields id, generalizations and commit are not negative *)
Definition toNat (z : Z) : option nat := if (0 <=? z)%Z then Some (Z.to_nat z) else None.
Fixpoint toNats (l : list Z) : option (list nat) :=
  match l with
  | [] => Some []
  | z :: l' => match toNat z, toNats l' with Some k, Some r => Some (k :: r) | _, _ => None end
  end.

(** one field of a composite literal, with its comma *)
Definition readField (n : nat) (toks : list token) : option (field * list token) :=
  match toks with
  | TWord w :: TSym ":" :: toks' =>
    let comma (f : field) (r : list token) := option_map (fun r' => (f, r')) (expect [TSym ","] r) in
    if String.eqb w "name" then match toks' with TStr s :: r => comma (FName s) r | _ => None end
    else if String.eqb w "id" then
      match readInt toks' with Some (z, r) => match toNat z with Some k => comma (FId k) r | None => None end | None => None end
    else if String.eqb w "commit" then
      match readInt toks' with Some (z, r) => match toNat z with Some _ => comma (FCommit (Z.to_N z)) r | None => None end | None => None end
    else if String.eqb w "not" then match expect [TWord "true"] toks' with Some r => comma FNot r | None => None end
    else if String.eqb w "allChars" then match expect [TWord "true"] toks' with Some r => comma FAllChars r | None => None end
    else if String.eqb w "chars" then
      match expect [TSym "["; TSym "]"; TWord "rune"; TSym "{"] toks' with
      | Some r => match readInts n r with Some (l, r') => comma (FChars l) r' | None => None end
      | None => None
      end
    else if String.eqb w "generalizations" then
      match expect [TSym "["; TSym "]"; TWord "int"; TSym "{"] toks' with
      | Some r =>
        match readInts n r with
        | Some (l, r') => match toNats l with Some l' => comma (FGeneralizations l') r' | None => None end
        | None => None
        end
      | None => None
      end
    else if String.eqb w "ranges" then
      match expect [TSym "["; TSym "]"; TSym "["; TSym "]"; TWord "rune"; TSym "{"] toks' with
      | Some r => match readPairs n r with Some (l, r') => comma (FRuneRanges l) r' | None => None end
      | None =>
        match expect [TSym "["; TSym "]"; TSym "["; TSym "]"; TWord "int"; TSym "{"] toks' with
        | Some r => match readPairs n r with Some (l, r') => comma (FIntRanges l) r' | None => None end
        | None => None
        end
      end
    else None
  | _ => None
  end%char.
(** the fields up to the closing bracket *)
Fixpoint readFields (n : nat) (toks : list token) : option (list field * list token) :=
  match n with
  | O => None
  | S n' =>
    match toks with
    | TSym "}" :: toks' => Some ([], toks')
    | _ =>
      match readField n' toks with
      | Some (f, toks') => option_map (fun r => (f :: fst r, snd r)) (readFields n' toks')
      | None => None
      end
    end
  end.

(** p<id> and b<id> *)
Definition readVar (w : string) : option var :=
  match w with
  | String c w' =>
    match readZ false w' with
    | Some z =>
      if (z <? 0)%Z then None
      else if Ascii.eqb c "p" then Some (false, Z.to_nat z)
      else if Ascii.eqb c "b" then Some (true, Z.to_nat z)
      else None
    | None => None
    end
  | _ => None
  end.
(** &p1,&p2,} *)
Fixpoint readRefs (n : nat) (toks : list token) : option (list var * list token) :=
  match n with
  | O => None
  | S n' =>
    match toks with
    | TSym "}" :: toks' => Some ([], toks')
    | TSym "&" :: TWord w :: TSym "," :: toks' =>
      match readVar w with
      | Some v => option_map (fun r => (v :: fst r, snd r)) (readRefs n' toks')
      | None => None
      end
    | _ => None
    end
  end.
Definition typeNames : list (string * gotype) :=
  [("charParser", TCharParser); ("sequenceParser", TSequenceParser); ("choiceParser", TChoiceParser);
   ("charBuilder", TCharBuilder); ("sequenceBuilder", TSequenceBuilder); ("choiceBuilder", TChoiceBuilder)].
Definition readType (w : string) : option gotype :=
  match List.find (fun x => String.eqb (fst x) w) typeNames with Some x => Some (snd x) | None => None end.

(** one statement, with its semicolon *)
Definition readStmt (n : nat) (toks : list token) : option (stmt * list token) :=
  let semicolon (s : stmt) (r : list token) := option_map (fun r' => (s, r')) (expect [TSym ";"] r) in
  match toks with
  | TWord k :: TWord w :: TSym "=" :: TWord t :: TSym "{" :: toks' =>
    match readVar w, readType t with
    | Some v, Some ty =>
      if negb (String.eqb k "var") then None else
      match readFields n toks' with Some (fs, r) => semicolon (SVar v ty fs) r | None => None end
    | _, _ => None
    end
  | TWord w :: TSym "." :: TWord f :: TSym "=" :: TSym "[" :: TSym "]" :: TWord t :: TSym "{" :: toks' =>
    match readVar w, readRefs n toks' with
    | Some v, Some (refs, r) =>
      if ((String.eqb f "items" || String.eqb f "options") && (String.eqb t "parser" || String.eqb t "builder"))%bool then
        semicolon (SLink v (String.eqb f "items") (String.eqb t "builder") refs) r
      else None
    | _, _ => None
    end
  | _ => None
  end%char.
(** var keywords = []parser{&p1, &p2, }; return parseInput(r, &p3, &b3, keywords); }; *)
Definition readTail (n : nat) (toks : list token) : option (list var * var * var) :=
  match expect [TWord "var"; TWord "keywords"; TSym "="; TSym "["; TSym "]"; TWord "parser"; TSym "{"] toks with
  | Some r =>
    match readRefs n r with
    | Some (kws, r) =>
      match expect [TSym ";"; TWord "return"; TWord "parseInput"; TSym "("; TWord "r"; TSym ","; TSym "&"] r with
      | Some (TWord w :: TSym "," :: TSym "&" :: TWord w' :: r) =>
        match readVar w, readVar w', expect [TSym ","; TWord "keywords"; TSym ")"; TSym ";"; TSym "}"; TSym ";"] r with
        | Some v, Some v', Some [] => Some (kws, v, v')
        | _, _, _ => None
        end
      | _ => None
      end
    | None => None
    end
  | None => None
  end%char.
Fixpoint readBody (n : nat) (toks : list token) : option goFunc :=
  match n with
  | O => None
  | S n' =>
    match readTail n' toks with
    | Some (kws, v, v') => Some (mkGoFunc [] kws v v')
    | None =>
      match readStmt n' toks with
      | Some (st, toks') =>
        match readBody n' toks' with
        | Some f => Some (mkGoFunc (st :: fBody f) (fKeywords f) (fRoot f) (fRootBuilder f))
        | None => None
        end
      | None => None
      end
    end
  end.
(** the function whose body, with the closing bracket, is the text *)
Definition readFunc (text : string) : option goFunc :=
  match lex LIdle false text with Some toks => readBody (S (List.length toks)) toks | None => None end.
