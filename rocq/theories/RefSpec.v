(** Specification: the reference semantics of a syntax, a recursive descent without a memo table,
    without pending marks and without repeated passes.

    A sequence takes its items in order, each one as often as it matches, within its bounds, and
    never gives a match back.  A choice takes the longest of its options, the first one of equally
    long ones.  The bound on the depth only makes the definition total: a result other than
    [Unfinished] does not depend on it ([eval_mono] in RefFuel.v). *)
From Verif Require Import Base Parser Build Syntax Grammar WsLang.

(** a graph of definitions with keys of type [A]; [None] as a label stands for an alias *)
Inductive gobj (A : Type) : Type :=
| GChar (cnot : bool) (chars : list rune) (ranges : list (rune * rune))
| GSeq (label : option string) (nokw : bool) (items : list (A * (nat * option nat)))
| GChoice (label : option string) (options : list A).
Arguments GChar {A}.
Arguments GSeq {A}.
Arguments GChoice {A}.

(** what a definition does at an offset: a match up to an offset with nodes, or none *)
Inductive outcome := Unfinished | NoMatch | Match (to : nat) (nodes : list node).

(** membership in a class *)
Definition classHas (cnot : bool) (chars : list rune) (ranges : list (rune * rune)) (r : rune) : bool :=
  xorb cnot (existsb (Z.eqb r) chars || existsb (fun lh => Z.leb (fst lh) r && Z.leb r (snd lh)) ranges).
(** the text between two offsets *)
Definition between (input : list rune) (o t : nat) : list rune := firstn (t - o) (skipn o input).
Definition isOneOf (w : list rune) (K : list (list rune)) : bool :=
  existsb (fun k => if list_eq_dec Z.eq_dec w k then true else false) K.

(** the nodes before those of a later match *)
Definition after (nodes : list node) (r : outcome) : outcome :=
  match r with Match t ns => Match t (nodes ++ ns) | _ => r end.
(** an alias contributes the nodes below it, everything else a node of its own *)
Definition labelled (label : option string) (o : nat) (r : outcome) : outcome :=
  match r with
  | Match t ns => Match t (match label with Some n => [Node n o t ns] | None => ns end)
  | _ => r
  end.
(** the longer outcome, the first one when they are equally long *)
Definition longer (best r : outcome) : outcome :=
  match best, r with
  | Match t _, Match t' _ => if t <? t' then r else best
  | Match _ _, _ => best
  | _, _ => r
  end.

Section EVAL.
Context {A : Type}.
Variable G : A -> option (gobj A).
Variable K : list (list rune).
Variable input : list rune.

Section STEP.
Variable rec : A -> nat -> outcome.

(** items of a sequence, from offset [o]; the first one has matched [count] times already.  An
    item that matches the empty text counts as often as necessary and is not repeated. *)
Fixpoint evalItems (k : nat) (items : list (A * (nat * option nat))) (count o : nat) : outcome :=
  match k with
  | O => Unfinished
  | S k' =>
    match items with
    | [] => Match o []
    | (x, (mn, mx)) :: items' =>
      match rec x o with
      | Unfinished => Unfinished
      | NoMatch => if mn <=? count then evalItems k' items' 0 o else NoMatch
      | Match t ns =>
        if o <? t then
          if match mx with Some m => S count =? m | None => false end
          then after ns (evalItems k' items' 0 t)
          else after ns (evalItems k' items (S count) t)
        else after (List.concat (repeat ns (mn - count))) (evalItems k' items' 0 t)
      end
    end
  end.

Fixpoint evalOptions (options : list A) (o : nat) (best : outcome) : outcome :=
  match options with
  | [] => best
  | x :: options' =>
    match rec x o with
    | Unfinished => Unfinished
    | r => evalOptions options' o (longer best r)
    end
  end.
End STEP.

Fixpoint eval (n : nat) (a : A) (o : nat) : outcome :=
  match n with
  | O => Unfinished
  | S n' =>
    match G a with
    | None => Unfinished
    | Some (GChar cnot chars ranges) =>
      match nth_error input o with
      | Some r => if classHas cnot chars ranges r then Match (S o) [] else NoMatch
      | None => NoMatch
      end
    | Some (GSeq label nokw items) =>
      match evalItems (eval n') n' items 0 o with
      | Match t ns =>
        if nokw && isOneOf (between input o t) K then NoMatch else labelled label o (Match t ns)
      | r => r
      end
    | Some (GChoice label options) => labelled label o (evalOptions (eval n') options o NoMatch)
    end
  end.

(** the outcome of the definition [a] at offset [o] *)
Definition Gives (a : A) (o : nat) (r : outcome) : Prop := r <> Unfinished /\ exists n, eval n a o = r.

(** ** definitions without left recursion *)

(** a set of keys that contains every one that may match the empty text *)
Definition mayBeEmpty (E : A -> bool) : Prop :=
  forall a, match G a with
  | Some (GSeq _ _ items) => (forall x mn mx, In (x, (mn, mx)) items -> mn = 0 \/ E x = true) -> E a = true
  | Some (GChoice _ options) => forall x, In x options -> E x = true -> E a = true
  | _ => True
  end.
(** [a] tries [x] at the offset where it starts itself: the items before may all be missing or empty *)
Inductive startsWith (E : A -> bool) (a x : A) : Prop :=
| sw_item label nokw before b behind : G a = Some (GSeq label nokw (before ++ (x, b) :: behind)) ->
    (forall y mn mx, In (y, (mn, mx)) before -> mn = 0 \/ E y = true) -> startsWith E a x
| sw_option label options : G a = Some (GChoice label options) -> In x options -> startsWith E a x.
(** the keys can be ranked such that everything tried at the same offset has a smaller rank *)
Definition rankable : Prop :=
  exists (E : A -> bool) (rank : A -> nat), mayBeEmpty E /\ forall a x, startsWith E a x -> rank x < rank a.
End EVAL.

(** ** the graph of a list of definition calls

    [KDef n] is what a reference to the name [n] means.  The other keys only occur with
    whitespace definitions: [KBody] is the root definition without the whitespace around it,
    [KWs] any of the whitespace definitions, [KRest n i] a repetition of the item [i] of [n] with
    whitespace before it, and [KOpt n i] the optional group of the item [i] of [n]. *)
Inductive key := KDef (n : string) | KBody (n : string) | KWs | KRest (n : string) (i : nat) | KOpt (n : string) (i : nat).

(** the bounds of an item: neither given means once, a missing minimum is 0 *)
Definition bounds (it : seqItem) : nat * option nat :=
  if (Z.eqb (siMin it) 0 && Z.eqb (siMax it) 0)%bool then (1, Some 1)
  else (Z.to_nat (siMin it), if Z.ltb 0 (siMax it) then Some (Z.to_nat (siMax it)) else None).

Definition plainItem (it : seqItem) : key * (nat * option nat) := (KDef (siName it), bounds it).
Definition spaces : key * (nat * option nat) := (KWs, (0, None)).
Definition single (k : key) : key * (nat * option nat) := (k, (1, Some 1)).

(** repetitions after the first one *)
Definition lessOne (b : nat * option nat) : nat * option nat := (fst b - 1, option_map (fun m => m - 1) (snd b)).

(** the items of the sequence [n] with whitespace between them; [i] is the index of the first *)
Fixpoint spacedItems (n : string) (i : nat) (items : list seqItem) : list (key * (nat * option nat)) :=
  match items with
  | [] => []
  | it :: items' =>
    (match bounds it with
     | (_, Some 1) => (if i =? 0 then [] else [spaces]) ++ [plainItem it]
     | (S _, _) => (if i =? 0 then [] else [spaces]) ++ [single (KDef (siName it)); (KRest n i, lessOne (bounds it))]
     | (O, _) => [(KOpt n i, (0, Some 1))]
     end) ++ spacedItems n (S i) items'
  end.

Section CALLS.
Variable calls : list defcall.

Definition spacing : bool := existsb (fun d => hasFlag (callFlags d) CWhitespace) calls.
Definition isRootName (n : string) : bool :=
  match rootName calls with Some r => String.eqb r n | None => false end.
Definition labelOf (n : string) (ct : commitType) : option string :=
  if hasFlag ct CAlias || existsb (String.eqb n) (whitespaceNames calls) || (spacing && isRootName n) then None else Some n.

Definition bodyOf (n : string) : option (gobj key) :=
  match grammarOf calls n with
  | None => None
  | Some (RChar cnot chars ranges) => Some (GChar cnot chars ranges)
  | Some (RSeq ct items) =>
    Some (GSeq (labelOf n ct) (hasFlag ct CNoKeyword)
               (if spacing && negb (compact ct) then spacedItems n 0 items else map plainItem items))
  | Some (RChoice ct options) => Some (GChoice (labelOf n ct) (map KDef options))
  end.
Definition itemOf (n : string) (i : nat) : option seqItem :=
  match grammarOf calls n with Some (RSeq _ items) => nth_error items i | _ => None end.

Definition graphOf (k : key) : option (gobj key) :=
  match k with
  | KDef n =>
    if spacing && isRootName n then Some (GSeq (Some n) false [spaces; single (KBody n); spaces])
    else bodyOf n
  | KBody n => bodyOf n
  | KWs => Some (GChoice None (map KDef (whitespaceNames calls)))
  | KRest n i =>
    option_map (fun it => GSeq None false [spaces; single (KDef (siName it))]) (itemOf n i)
  | KOpt n i =>
    option_map (fun it => GSeq None false
      ((if i =? 0 then [] else [spaces]) ++ [single (KDef (siName it)); (KRest n i, lessOne (bounds it))])) (itemOf n i)
  end.

(** what the definition [n] matches at offset [o] of a text *)
Definition Means (input : list rune) (n : string) (o : nat) (r : outcome) : Prop :=
  Gives graphOf (keywordTexts calls) input (KDef n) o r.

(** no definition comes back to itself before it has consumed a rune *)
Definition noLeftRecursion : Prop := rankable graphOf.

(** only definitions are referred to, not the single characters of a class or literal *)
Definition refersToDefs : Prop :=
  forall d, In d calls ->
  match d with
  | DSequence _ _ items => forall it, In it items -> In (siName it) (map callName calls)
  | DChoice _ _ options => forall o, In o options -> In o (map callName calls)
  | _ => True
  end.
(** nokw is used on sequences, classes and literals only *)
Definition nokwOnSequences : Prop :=
  forall n ct options, In (DChoice n ct options) calls -> hasFlag ct CNoKeyword = false.
End CALLS.
