(** Specification: definitions whose texts can be recognized by looking one character ahead. *)
From Verif Require Import Base Parser Syntax Grammar WsLang RefSpec.

Section PREDICT.
Context {A : Type}.
Variable G : A -> option (gobj A).
Notation item := (A * (nat * option nat))%type.

(** the definitions that the root refers to, directly or not, and the root *)
Variable root : A.
Inductive reached : A -> Prop :=
| reached_root : reached root
| reached_item a lb nokw items x b : reached a -> G a = Some (GSeq lb nokw items) -> In (x, b) items -> reached x
| reached_option a lb options x : reached a -> G a = Some (GChoice lb options) -> In x options -> reached x.

Section TABLES.
Variable E : A -> bool.            (* may be empty *)
Variable F : A -> rune -> Prop.    (* may begin with *)
Variable N : A -> rune -> Prop.    (* may be followed by *)

(** the item does not have to take any text *)
Definition mayMiss (i : item) : Prop := fst (snd i) = 0 \/ E (fst i) = true.
(** the text of the items may begin with the character *)
Inductive itemsBegin : list item -> rune -> Prop :=
| ib_here x b l r : F x r -> itemsBegin ((x, b) :: l) r
| ib_miss i l r : mayMiss i -> itemsBegin l r -> itemsBegin (i :: l) r.
(** the character may come when these items of [a] are still to come *)
Definition ahead (a : A) (l : list item) (r : rune) : Prop := itemsBegin l r \/ ((forall i, In i l -> mayMiss i) /\ N a r).

(** [F] contains what a definition may begin with *)
Definition begins : Prop := forall a r,
  match G a with
  | Some (GChar cnot chars ranges) => classHas cnot chars ranges r = true -> F a r
  | Some (GSeq _ _ items) => itemsBegin items r -> F a r
  | Some (GChoice _ options) => forall x, In x options -> F x r -> F a r
  | None => True
  end.
(** [N] contains what a definition may be followed by *)
Definition follows : Prop := forall a r, reached a ->
  match G a with
  | Some (GSeq _ _ items) => forall before x mn mx behind, items = before ++ (x, (mn, mx)) :: behind ->
      ahead a behind r \/ (mx <> Some 1 /\ F x r) -> N x r
  | Some (GChoice _ options) => forall x, In x options -> N a r -> N x r
  | _ => True
  end.
(** the next character decides whether an item occurs once more, and which option is the one *)
Definition decided : Prop := forall a, reached a ->
  match G a with
  | Some (GSeq _ _ items) => forall before x mn mx behind, items = before ++ (x, (mn, mx)) :: behind ->
      ((mn, mx) = (1, Some 1) \/ E x = false) /\
      (mx = Some mn \/ forall r, F x r -> ~ ahead a behind r)
  | Some (GChoice _ options) =>
      (forall x y r, In x options -> In y options -> F x r -> F y r -> x = y) /\
      (forall x y r, In x options -> In y options -> E x = true -> F y r -> ~ N a r)
  | _ => True
  end.
End TABLES.

(** there are such tables *)
Definition predictiveGraph : Prop := exists E F N, mayBeEmpty G E /\ begins E F /\ follows E F N /\ decided E F N.
End PREDICT.

Definition predictive (calls : list defcall) (root : string) : Prop := predictiveGraph (graphOf calls) (KDef root).

(** ** with whitespace

    The text is looked at in two levels.  Some of the definitions are words: whitespace in them, if
    any, is a part of them, and within a word the next character decides.  Between the words, the
    next character that is not whitespace decides. *)
Section SPACED.
Context {A : Type}.
Variable G : A -> option (gobj A).
Variable root ws : A.              (* [ws] stands for one piece of whitespace *)
Variable W : rune -> bool.         (* the whitespace characters *)
Variable word : A -> bool.

(** a piece of whitespace is a single character *)
Definition wsCharacters : Prop :=
  exists lb options, G ws = Some (GChoice lb options) /\
  (forall x, In x options -> exists lb' c cnot chars ranges, G x = Some (GSeq lb' false [(c, (1, Some 1))]) /\ G c = Some (GChar cnot chars ranges) /\
    forall r, classHas cnot chars ranges r = true -> W r = true) /\
  (forall r, W r = true -> exists x lb' c cnot chars ranges, In x options /\ G x = Some (GSeq lb' false [(c, (1, Some 1))]) /\ G c = Some (GChar cnot chars ranges) /\
    classHas cnot chars ranges r = true).

(** the definitions between the words that the root refers to, directly or not, and the words *)
Inductive visited : A -> Prop :=
| visited_root : visited root
| visited_item a lb nokw items x b : visited a -> word a = false -> G a = Some (GSeq lb nokw items) -> In (x, b) items -> x <> ws -> visited x
| visited_option a lb options x : visited a -> word a = false -> G a = Some (GChoice lb options) -> In x options -> visited x.

(** within the words, see above; a word is not empty, does not begin with whitespace and may be followed
    by whitespace *)
Definition wordsDecided (F' N' : A -> rune -> Prop) : Prop :=
  exists E F N, mayBeEmpty G E /\ begins G E F /\
  forall a, visited a -> word a = true -> follows G a E F N /\ decided G a E F N /\
    E a = false /\ (forall r, F a r -> W r = false /\ F' a r) /\ (forall r, W r = true \/ N' a r -> N a r).
(** between the words: [E] may consist of whitespace, [F] may begin with, after whitespace, and [N]
    may be followed by, after whitespace *)
Definition spacedDecided (E : A -> bool) (F N : A -> rune -> Prop) : Prop :=
  forall a, visited a -> word a = false ->
  match G a with
  | Some (GSeq _ nokw items) => nokw = false /\
      ((forall x mn mx, In (x, (mn, mx)) items -> mn = 0 \/ E x = true) -> E a = true) /\
      (forall r, itemsBegin E F items r -> F a r) /\
      forall before x mn mx behind, items = before ++ (x, (mn, mx)) :: behind ->
        (x = ws /\ (mn, mx) = (0, None)) \/
        (x <> ws /\ ((mn, mx) = (1, Some 1) \/ E x = false) /\ mx <> Some 0 /\
         (mx = Some mn \/ forall r, F x r -> ~ ahead E F N a behind r) /\
         forall r, ahead E F N a behind r \/ (mx <> Some 1 /\ F x r) -> N x r)
  | Some (GChoice _ options) =>
      (forall x, In x options -> x <> ws) /\
      (forall x, In x options -> E x = true -> E a = true) /\ (forall x r, In x options -> F x r -> F a r) /\
      (forall x r, In x options -> N a r -> N x r) /\
      (forall x y r, In x options -> In y options -> F x r -> F y r -> x = y) /\
      (forall x y r, In x options -> In y options -> E x = true -> F y r -> ~ N a r)
  | _ => False
  end.
Definition spacedGraph : Prop := wsCharacters /\ root <> ws /\ exists E F N, wordsDecided F N /\ spacedDecided E F N.
End SPACED.

(** for some whitespace characters and some definitions as the words *)
Definition predictiveSpaced (calls : list defcall) (root : string) : Prop :=
  exists W words, spacedGraph (graphOf calls) (KDef root) KWs W (fun k => match k with KDef n => existsb (String.eqb n) words | _ => false end).
