(** Specification: definitions that start with themselves.

    A choice [e] is built from options that do not refer to it, the bases, and from sequences that
    start with [e] itself and continue with something that does not refer to it, the extensions.
    It begins with the longest base, the first one of equally long ones.  Then the extensions are tried,
    one after the other in the order of the definition, again and again, and each of them extends what
    has been matched so far if it can continue behind it.  It ends where none of them can continue.
    The nodes nest to the left. *)
From Verif Require Import Base Parser Build Syntax Grammar WsLang RefSpec.

Section LEFT.
Context {A : Type}.
Variable G : A -> option (gobj A).
Variable K : list (list rune).
Variable input : list rune.

(** [a] refers to [b], directly or not, or is [b] *)
Inductive reaches (b : A) : A -> Prop :=
| re_self : reaches b b
| re_item a label nokw items x bd : G a = Some (GSeq label nokw items) -> In (x, bd) items -> reaches b x -> reaches b a
| re_option a label options x : G a = Some (GChoice label options) -> In x options -> reaches b x -> reaches b a.

Record leftRecursive (e : A) (label : option string) (extensions bases : list A) : Prop := mkLeft {
  lr_some : extensions <> [];
  lr_choice : exists options, G e = Some (GChoice label options) /\ (options = extensions ++ bases \/ options = bases ++ extensions);
  lr_bases : forall b, In b bases -> ~ reaches e b;
  lr_extensions : forall x, In x extensions -> exists l rest, G x = Some (GSeq l false ((e, (1, Some 1)) :: rest)) /\
    forall y bd, In (y, bd) rest -> ~ reaches e y }.

(** what the bases and the continuations refer to has no left recursion, and none of them may be empty *)
Definition groundedLeft (e : A) (extensions bases : list A) : Prop :=
  exists (E : A -> bool) (rank : A -> nat), mayBeEmpty G E /\
    (forall a x, ~ reaches e a -> startsWith G E a x -> rank x < rank a) /\
    (forall b, In b bases -> E b = false) /\
    (forall x l first rest, In x extensions -> G x = Some (GSeq l false (first :: rest)) ->
      exists y mn mx, In (y, (mn, mx)) rest /\ 0 < mn /\ E y = false).

(** the longest of the bases *)
Definition Begins (bases : list A) (o : nat) (r : outcome) : Prop :=
  r <> Unfinished /\ exists n, evalOptions (eval G K input n) bases o NoMatch = r.
(** what comes behind the first item of the sequence [x] with the label [l] *)
Definition Continues (x : A) (l : option string) (o : nat) (r : outcome) : Prop :=
  r <> Unfinished /\ exists first rest n, G x = Some (GSeq l false (first :: rest)) /\ evalItems (eval G K input n) n rest 0 o = r.

Definition named (label : option string) (from to : nat) (ns : list node) : list node :=
  match label with Some n => [Node n from to ns] | None => ns end.

Variables (label : option string) (extensions bases : list A) (from : nat).
(** a match up to an offset, with its nodes *)
Inductive grown : nat -> list node -> Prop :=
| gr_base t ns : Begins bases from (Match t ns) -> grown t (named label from t ns)
| gr_more t ns x l t' ns' : grown t ns -> In x extensions -> Continues x l t (Match t' ns') ->
    grown t' (named label from t' (named l from t' (ns ++ ns'))).
(** nothing continues behind the offset [t] *)
Definition noMore (t : nat) : Prop := forall x, In x extensions -> exists l, Continues x l t NoMatch.

(** every one of the extensions [xs] is tried once *)
Inductive round : list A -> nat -> list node -> nat -> list node -> Prop :=
| rd_end t ns : round [] t ns t ns
| rd_skip x l xs t ns t2 ns2 : Continues x l t NoMatch -> round xs t ns t2 ns2 -> round (x :: xs) t ns t2 ns2
| rd_more x l xs t ns t' ns' t2 ns2 : Continues x l t (Match t' ns') ->
    round xs t' (named label from t' (named l from t' (ns ++ ns'))) t2 ns2 -> round (x :: xs) t ns t2 ns2.
Inductive rounds : nat -> list node -> nat -> list node -> Prop :=
| rs_last t ns : noMore t -> rounds t ns t ns
| rs_next t ns t1 ns1 t2 ns2 : round extensions t ns t1 ns1 -> rounds t1 ns1 t2 ns2 -> rounds t ns t2 ns2.

(** the outcome of the choice *)
Definition leftGives (r : outcome) : Prop :=
  match r with
  | Match t ns => exists t0 ns0, Begins bases from (Match t0 ns0) /\ rounds t0 (named label from t0 ns0) t ns
  | NoMatch => Begins bases from NoMatch
  | Unfinished => False
  end.

(** bases and continuations have outcomes and never match the empty text *)
Record growing : Prop := mkGrowing {
  gw_begins : exists r, Begins bases from r;
  gw_continues : forall t ns x, grown t ns -> In x extensions -> exists l r, Continues x l t r;
  gw_base : forall t ns, Begins bases from (Match t ns) -> from < t;
  gw_more : forall t ns x l t' ns', grown t ns -> In x extensions -> Continues x l t (Match t' ns') -> t < t' }.
End LEFT.
