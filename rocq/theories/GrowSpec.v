(** Specification: the reference semantics of RefSpec.v, with definitions that start with themselves.

    An extension of a choice [e] is an option of it that is a sequence whose first item is [e], once.
    The other options are its bases.  A choice with extensions begins with the longest base, the first one
    of equally long ones.  Then the extensions are tried, one after the other in the order of the
    definition, again and again, and each of them extends what has been matched so far if the rest
    of its items matches behind it.  It ends where none of them can continue.  The nodes nest to the left.

    Everything else is as in RefSpec.v: the bases and the items behind may refer to the choice again, to
    other choices of this kind, and so on.  There is no outcome, [Unfinished], for an extension used
    elsewhere than as an option of its choice, for extensions and bases in mixed order, for bases and
    continuations that match the empty text, and for any other way of starting with oneself. *)
From Verif Require Import Base Parser Build Syntax Grammar WsLang RefSpec LeftSpec.

(** no [true] before a [false] *)
Fixpoint ascending (l : list bool) : bool :=
  match l with
  | [] => true
  | true :: l' => forallb (fun b => b) l'
  | false :: l' => ascending l'
  end.

Section GROW.
Context {A : Type}.
Variable eqA : A -> A -> bool.
Variable G : A -> option (gobj A).
Variable K : list (list rune).
Variable input : list rune.

(** the sequence [x] starts with [e], once *)
Definition isExtension (e x : A) : bool :=
  match G x with
  | Some (GSeq _ false ((y, (1, Some 1)) :: _)) => eqA e y
  | _ => false
  end.
(** [x] is an extension of some choice *)
Definition extending (x : A) : bool :=
  match G x with
  | Some (GSeq _ false ((e, (1, Some 1)) :: _)) =>
    match G e with Some (GChoice _ options) => existsb (eqA x) options | _ => false end
  | _ => false
  end.
Definition extensionsOf (e : A) (options : list A) : list A := filter (isExtension e) options.
Definition basesOf (e : A) (options : list A) : list A := filter (fun x => negb (isExtension e x)) options.
(** the extensions come before the bases, or behind them *)
Definition inBlocks (e : A) (options : list A) : bool :=
  ascending (map (isExtension e) options) || ascending (map (fun x => negb (isExtension e x)) options).

Section STEP.
Variable rec : A -> nat -> outcome.
Variable k : nat.
Variable label : option string.
Variable from : nat.

(** every one of the extensions is tried once behind the match up to [t] with the nodes [ns] *)
Fixpoint evalRound (extensions : list A) (t : nat) (ns : list node) : outcome :=
  match extensions with
  | [] => Match t ns
  | x :: extensions' =>
    match G x with
    | Some (GSeq l _ (_ :: rest)) =>
      match evalItems rec k rest 0 t with
      | Unfinished => Unfinished
      | NoMatch => evalRound extensions' t ns
      | Match t' ns' =>
        if t <? t' then evalRound extensions' t' (named label from t' (named l from t' (ns ++ ns')))
        else Unfinished
      end
    | _ => Unfinished
    end
  end.
(** rounds, until none of the extensions can continue *)
Fixpoint evalGrow (j : nat) (extensions : list A) (t : nat) (ns : list node) : outcome :=
  match j with
  | O => Unfinished
  | S j' =>
    match evalRound extensions t ns with
    | Match t' ns' => if t <? t' then evalGrow j' extensions t' ns' else Match t ns
    | r => r
    end
  end.
End STEP.

Fixpoint evalL (n : nat) (a : A) (o : nat) : outcome :=
  match n with
  | O => Unfinished
  | S n' =>
    match G a with
    | None => Unfinished
    | Some (GChar cnot chars ranges) =>
      match nth_error input o with
      | Some r => if classHas cnot chars ranges r then Match (S o) [] else NoMatch
      | None => NoMatch
      end
    | Some (GSeq label nokw items) =>
      if extending a then Unfinished else
      match evalItems (evalL n') n' items 0 o with
      | Match t ns =>
        if nokw && isOneOf (between input o t) K then NoMatch else labelled label o (Match t ns)
      | r => r
      end
    | Some (GChoice label options) =>
      match extensionsOf a options with
      | [] => labelled label o (evalOptions (evalL n') options o NoMatch)
      | extensions =>
        if inBlocks a options then
          match evalOptions (evalL n') (basesOf a options) o NoMatch with
          | Match t ns =>
            if o <? t then evalGrow (evalL n') n' label o n' extensions t (named label o t ns) else Unfinished
          | r => r
          end
        else Unfinished
      end
    end
  end.

(** the outcome of the definition [a] at offset [o] *)
Definition GivesL (a : A) (o : nat) (r : outcome) : Prop := r <> Unfinished /\ exists n, evalL n a o = r.

(** ** the same, step by step *)
(** the longest of the bases *)
Definition BeginsL (bases : list A) (o : nat) (r : outcome) : Prop :=
  r <> Unfinished /\ exists n, evalOptions (evalL n) bases o NoMatch = r.
(** what comes behind the first item of the sequence [x] with the label [l] *)
Definition ContinuesL (x : A) (l : option string) (o : nat) (r : outcome) : Prop :=
  r <> Unfinished /\ exists first rest n, G x = Some (GSeq l false (first :: rest)) /\ evalItems (evalL n) n rest 0 o = r.
(** a match up to an offset, with its nodes: a base, and any number of extensions *)
Inductive grownL (label : option string) (extensions bases : list A) (from : nat) : nat -> list node -> Prop :=
| gl_base t ns : BeginsL bases from (Match t ns) -> grownL label extensions bases from t (named label from t ns)
| gl_more t ns x l t' ns' : grownL label extensions bases from t ns -> In x extensions -> ContinuesL x l t (Match t' ns') ->
    grownL label extensions bases from t' (named label from t' (named l from t' (ns ++ ns'))).
(** nothing continues behind the offset [t] *)
Definition noMoreL (extensions : list A) (t : nat) : Prop := forall x, In x extensions -> exists l, ContinuesL x l t NoMatch.

(** ** definitions for which there is always an outcome

    Everything that is referred to, starting from [start], exists.  Apart from extensions, everything
    tried at the same offset has a smaller rank; extensions are only options of their choice; bases of
    choices with extensions and what comes behind the first item of extensions cannot be empty. *)
Inductive refersTo (a x : A) : Prop :=
| rt_item label nokw items b : G a = Some (GSeq label nokw items) -> In (x, b) items -> refersTo a x
| rt_option label options : G a = Some (GChoice label options) -> In x options -> refersTo a x.
Inductive reaches (start : A) : A -> Prop :=
| re_start : reaches start start
| re_next a x : reaches start a -> refersTo a x -> reaches start x.
Definition groundedAt (E : A -> bool) (rank : A -> nat) (a : A) : Prop :=
  (forall x, startsWith G E a x -> extending a = false -> extending x = false -> rank x < rank a) /\
  match G a with
  | None => False
  | Some (GChar _ _ _) => True
  | Some (GSeq _ _ items) =>
    (forall x b, In (x, b) items -> extending x = false) /\
    (extending a = true -> exists y mn mx, In (y, (mn, mx)) (tl items) /\ 0 < mn /\ E y = false)
  | Some (GChoice _ options) =>
    (forall x, In x options -> extending x = isExtension a x) /\
    (extensionsOf a options <> [] -> inBlocks a options = true /\ forall b, In b (basesOf a options) -> E b = false)
  end.
Definition groundedGrowth (start : A) : Prop :=
  extending start = false /\
  exists (E : A -> bool) (rank : A -> nat), mayBeEmpty G E /\ forall a, reaches start a -> groundedAt E rank a.
End GROW.

Definition keyEqb (a b : key) : bool :=
  match a, b with
  | KDef n, KDef m => String.eqb n m
  | KBody n, KBody m => String.eqb n m
  | KWs, KWs => true
  | KRest n i, KRest m j => String.eqb n m && (i =? j)
  | KOpt n i, KOpt m j => String.eqb n m && (i =? j)
  | _, _ => false
  end.

(** what the definition [n] matches at offset [o] of a text *)
Definition MeansL (calls : list defcall) (input : list rune) (n : string) (o : nat) (r : outcome) : Prop :=
  GivesL keyEqb (graphOf calls) (keywordTexts calls) input (KDef n) o r.
Definition growthGrounded (calls : list defcall) (n : string) : Prop := groundedGrowth keyEqb (graphOf calls) (KDef n).
