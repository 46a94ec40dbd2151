(** Definitions with groups and choices inside whose textual form denotes them. *)
From Verif Require Import Base Utf8 Parser Build Syntax ReadSpec FormatSpec.
Local Open Scope string_scope.
Local Open Scope list_scope.

(** the equivalent expression with a unique text, at every depth: a group of one item is that item, an
    item alone that is taken exactly once is its expression, and a choice among the options of another one
    stands for its options *)
Definition joinItem (x : expr) (b : Z * Z) : expr * (Z * Z) :=
  match x, b with ESequence [it], (0, 0)%Z => it | _, _ => (x, b) end.
Definition joinItems (items : list (expr * (Z * Z))) : expr :=
  match items with [(x, (0, 0)%Z)] => x | _ => ESequence items end.
Definition optionsOf (x : expr) : list expr := match x with EChoice options => options | _ => [x] end.
Fixpoint normalAll (x : expr) : expr :=
  match x with
  | ESequence items => joinItems (map (fun xb => joinItem (normalAll (fst xb)) (normalBounds (snd xb))) items)
  | EChoice options => EChoice (flat_map (fun o => match o with EChoice _ => optionsOf (normalAll o) | _ => [normalAll o] end) options)
  | _ => normal x
  end.

(** the expressions whose textual form can be read: choices have two options at least, and what has a
    quantifier is not a single item with a quantifier of its own.  [names] are the definitions that
    symbols can refer to *)
Inductive printable (names : list string) : expr -> Prop :=
| printable_flat x : readable x -> (forall m, x = ESymbol m -> In m names) -> printable names x
| printable_sequence items :
    items <> [] ->
    (forall x b, In (x, b) items -> printable names x) ->
    (forall x b, In (x, b) items -> intRange (mkItem "" (fst b) (snd b))) ->
    (forall x b it, In (x, b) items -> normalAll x = ESequence [it] -> normalBounds b = (0, 0)%Z) ->
    printable names (ESequence items)
| printable_choice options :
    2 <= List.length options ->
    (forall x, In x options -> printable names x) ->
    printable names (EChoice options).
