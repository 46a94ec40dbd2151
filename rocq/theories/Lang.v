(** Specification: the context free language of a graph of parser objects, independent of how
    the parser works.  [K] lists the keyword texts that definitions with nokw exclude. *)
From Verif Require Import Base Parser.

(** a rune is in a class *)
Definition inClass (cnot : bool) (chars : list rune) (ranges : list (rune * rune)) (r : rune) : Prop :=
  let listed := In r chars \/ exists lo hi, In (lo, hi) ranges /\ (lo <= r <= hi)%Z in
  if cnot then ~ listed else listed.

Section LANG.
Variable P : pheap.
Variable K : list (list rune).

Inductive lang : addr -> list rune -> Prop :=
| lang_char a name id cnot chars ranges r :
    nth_error P a = Some (PChar name id cnot chars ranges) ->
    inClass cnot chars ranges r -> lang a [r]
| lang_seq a name id commit items ranges gs ac w :
    nth_error P a = Some (PSeq name id commit items ranges gs ac) ->
    (hasFlag commit CNoKeyword = true -> ~ In w K) ->
    langItems items ranges w -> lang a w
| lang_choice a name id commit options gs op w :
    nth_error P a = Some (PChoice name id commit options gs) ->
    In op options -> lang op w -> lang a w
(** one item after the other, each repeated [k] times with min <= k and k <= max when there is
    a maximum *)
with langItems : list addr -> list (Z * Z) -> list rune -> Prop :=
| langItems_nil ranges : langItems [] ranges []
| langItems_cons item items mn mx ranges k u v :
    (mn <= Z.of_nat k)%Z -> ((0 < mx)%Z -> (Z.of_nat k <= mx)%Z) ->
    langRep item k u -> langItems items ranges v ->
    langItems (item :: items) ((mn, mx) :: ranges) (u ++ v)
with langRep : addr -> nat -> list rune -> Prop :=
| langRep_0 item : langRep item 0 []
| langRep_S item k u v : lang item u -> langRep item k v -> langRep item (S k) (u ++ v).
End LANG.

Scheme lang_ind' := Minimality for lang Sort Prop
with langItems_ind' := Minimality for langItems Sort Prop
with langRep_ind' := Minimality for langRep Sort Prop.
Combined Scheme lang_mutind from lang_ind', langItems_ind', langRep_ind'.
