(** Specification: reading JSON texts (RFC 8259), and the nodes in them. *)
From Coq Require Import DecimalString.
From Verif Require Import Base Utf8 Parser Build TextSpec.
Local Open Scope string_scope.
Local Open Scope list_scope.
Local Open Scope Z_scope.

(** JSON values, without true, false, null, signs and fractions, which are not read; strings are in
    UTF-8 *)
Inductive json := JString (s : string) | JNumber (z : Z) | JArray (l : list json) | JObject (l : list (string * json)).

Definition isSpace (c : Z) : bool := (c =? 32) || (c =? 9) || (c =? 10) || (c =? 13).
Fixpoint skipSpace (l : list Z) : list Z :=
  match l with
  | c :: l' => if isSpace c then skipSpace l' else l
  | [] => []
  end.
Definition hexValue (c : Z) : option Z :=
  if (48 <=? c) && (c <=? 57) then Some (c - 48)
  else if (97 <=? c) && (c <=? 102) then Some (c - 87)
  else if (65 <=? c) && (c <=? 70) then Some (c - 55)
  else None.
(** the characters after a backslash *)
Definition escapeValue (c : Z) : option Z :=
  if (c =? 34) || (c =? 92) || (c =? 47) then Some c
  else if c =? 98 then Some 8
  else if c =? 102 then Some 12
  else if c =? 110 then Some 10
  else if c =? 114 then Some 13
  else if c =? 116 then Some 9
  else None.
(** the rest of a string after its opening quote: its bytes, and what follows the closing quote *)
Fixpoint readString (l : list Z) : option (list Z * list Z) :=
  match l with
  | [] => None
  | c :: r =>
    if c =? 34 then Some ([], r)
    else if c =? 92 then
      match r with
      | [] => None
      | e :: r1 =>
        if e =? 117 then
          match r1 with
          | a :: b :: d :: f :: r2 =>
            match hexValue a, hexValue b, hexValue d, hexValue f, readString r2 with
            | Some a, Some b, Some d, Some f, Some (s, rest) => Some (encodeRune (4096 * a + 256 * b + 16 * d + f) ++ s, rest)
            | _, _, _, _, _ => None
            end
          | _ => None
          end
        else
          match escapeValue e, readString r1 with
          | Some v, Some (s, rest) => Some (v :: s, rest)
          | _, _ => None
          end
      end
    else if c <? 32 then None
    else match readString r with Some (s, rest) => Some (c :: s, rest) | None => None end
  end.
Definition isDigit (c : Z) : bool := (48 <=? c) && (c <=? 57).
Fixpoint takeDigits (l : list Z) : list Z * list Z :=
  match l with
  | c :: r => if isDigit c then (c :: fst (takeDigits r), snd (takeDigits r)) else ([], l)
  | [] => ([], [])
  end.

(** after [ or , : the elements up to ] *)
Fixpoint readElements (value : list Z -> option (json * list Z)) (n : nat) (l : list Z) : option (list json * list Z) :=
  match n with
  | O => None
  | S n' =>
    match value l with
    | None => None
    | Some (v, r) =>
      match skipSpace r with
      | c :: r' =>
        if c =? 93 then Some ([v], r')
        else if c =? 44 then
          match readElements value n' r' with Some (vs, r'') => Some (v :: vs, r'') | None => None end
        else None
      | [] => None
      end
    end
  end.
(** after { or , : the members up to } *)
Fixpoint readMembers (value : list Z -> option (json * list Z)) (n : nat) (l : list Z) : option (list (string * json) * list Z) :=
  match n with
  | O => None
  | S n' =>
    match skipSpace l with
    | 34 :: r =>
      match readString r with
      | None => None
      | Some (k, r1) =>
        match skipSpace r1 with
        | 58 :: r2 =>
          match value r2 with
          | None => None
          | Some (v, r3) =>
            match skipSpace r3 with
            | c :: r4 =>
              if c =? 125 then Some ([(stringOfBytes k, v)], r4)
              else if c =? 44 then
                match readMembers value n' r4 with Some (ms, r5) => Some ((stringOfBytes k, v) :: ms, r5) | None => None end
              else None
            | [] => None
            end
          end
        | _ => None
        end
      end
    | _ => None
    end
  end.
(** a value, and what follows it *)
Fixpoint readValue (n : nat) (l : list Z) : option (json * list Z) :=
  match n with
  | O => None
  | S n' =>
    match skipSpace l with
    | [] => None
    | c :: r =>
      if c =? 34 then match readString r with Some (s, r') => Some (JString (stringOfBytes s), r') | None => None end
      else if c =? 91 then
        match skipSpace r with
        | 93 :: r' => Some (JArray [], r')
        | _ => match readElements (readValue n') n' r with Some (vs, r') => Some (JArray vs, r') | None => None end
        end
      else if c =? 123 then
        match skipSpace r with
        | 125 :: r' => Some (JObject [], r')
        | _ => match readMembers (readValue n') n' r with Some (ms, r') => Some (JObject ms, r') | None => None end
        end
      else
        match number (stringOfBytes (fst (takeDigits (c :: r)))) with
        | Some z => Some (JNumber z, snd (takeDigits (c :: r)))
        | None => None
        end
    end
  end.
(** a whole text *)
Definition readJson (l : list Z) : option json :=
  match readValue (S (List.length l)) l with
  | Some (v, r) => match skipSpace r with [] => Some v | _ => None end
  | None => None
  end.

(** the members of an object *)
Definition member (name : string) (v : json) : option json :=
  match v with
  | JObject l => option_map snd (find (fun m => String.eqb (fst m) name) l)
  | _ => None
  end.
(** the value is the description of a node: the name, the span and, when they are there, the text and
    the child nodes *)
Inductive jnode := JNode (name : string) (from to : Z) (text : option string) (nodes : option (list jnode)).
Definition header (v : json) (name : string) (from to : Z) (text : option string) : Prop :=
  member "name" v = Some (JString name) /\ member "from" v = Some (JNumber from) /\ member "to" v = Some (JNumber to) /\
  member "text" v = option_map JString text.
Inductive describes : json -> jnode -> Prop :=
| describes_leaf v name from to text :
    header v name from to text -> member "nodes" v = None -> describes v (JNode name from to text None)
| describes_node v name from to text vs nodes :
    header v name from to text -> member "nodes" v = Some (JArray vs) -> Forall2 describes vs nodes ->
    describes v (JNode name from to text (Some nodes)).

(** a string as UTF-8: bytes that do not belong to an encoded character are replaced with U+FFFD *)
Definition inUtf8 (s : string) : string := runesString (stringRunes s).
(** the description of a node of the tree: leaves have their text, if it is not empty *)
Inductive described (tokens : list rune) : node -> jnode -> Prop :=
| described_leaf n :
    nNodes n = [] -> nodeRunes tokens n <> [] ->
    described tokens n (JNode (inUtf8 (nName n)) (Z.of_nat (nFrom n)) (Z.of_nat (nTo n)) (Some (nodeText tokens n)) None)
| described_empty n :
    nNodes n = [] -> nodeRunes tokens n = [] ->
    described tokens n (JNode (inUtf8 (nName n)) (Z.of_nat (nFrom n)) (Z.of_nat (nTo n)) None None)
| described_node n l :
    nNodes n <> [] -> Forall2 (described tokens) (nNodes n) l ->
    described tokens n (JNode (inUtf8 (nName n)) (Z.of_nat (nFrom n)) (Z.of_nat (nTo n)) None (Some l)).
(** white space only *)
Definition blank (s : string) : Prop := forallb isSpace (bytesOf s) = true.
