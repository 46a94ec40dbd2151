(** Specification: the texts that an expression of the syntax language stands for, given the texts of the
    definitions it refers to.  A character, a class and a literal stand for themselves, a symbol for the
    texts of the definition, a sequence for texts of its items one after the other, each of them as often
    as its quantifier allows, and a choice for the texts of any of its options. *)
From Verif Require Import Base Parser Syntax Lang Grammar ReadSpec.

(** one text of each set, in order *)
Inductive inTurn : list (list rune -> Prop) -> list rune -> Prop :=
| inTurn_nil : inTurn [] []
| inTurn_cons (L : list rune -> Prop) Ls u v : L u -> inTurn Ls v -> inTurn (L :: Ls) (u ++ v).
Definition repeated (mn mx : Z) (L : list rune -> Prop) (w : list rune) : Prop :=
  exists k, quantity mn mx k /\ inTurn (repeat L k) w.

Fixpoint denotes (env : string -> list rune -> Prop) (x : expr) (w : list rune) : Prop :=
  match x with
  | EAny => exists r, w = [r]
  | EClass cnot chars ranges => exists r, w = [r] /\ inClass cnot chars ranges r
  | EText chars => w = chars
  | ESymbol name => env name w
  | ESequence items => inTurn (map (fun xb => repeated (fst (snd xb)) (snd (snd xb)) (denotes env (fst xb))) items) w
  | EChoice options => Exists (fun L => L w) (map (denotes env) options)
  end.

(** ** with whitespace

    [space] are the texts accepted between the items of a sequence.  [tight]: no whitespace is accepted
    between the items of the expression itself, because its definition is flagged nows or ws; [nows]: nor
    in the groups inside it. *)
Section SPACED.
Variable space : list rune -> Prop.
(** a text with whitespace before it *)
Definition after (L : list rune -> Prop) (w : list rune) : Prop := exists s u, w = s ++ u /\ space s /\ L u.
(** items in order, each with its bounds; [first]: the beginning of the sequence, which has no whitespace
    before it.  A missing optional item, with bounds up to one, may leave whitespace behind. *)
Inductive spaced : bool -> list (Z * Z * (list rune -> Prop)) -> list rune -> Prop :=
| spaced_nil first : spaced first [] []
| spaced_none first mn mx L items v : quantity mn mx 0 -> spaced false items v -> spaced first ((mn, mx, L) :: items) v
| spaced_gap mn L items u v : quantity mn 1 0 -> space u -> spaced false items v -> spaced false ((mn, 1%Z, L) :: items) (u ++ v)
| spaced_first mn mx (L : list rune -> Prop) items k u v w :
    quantity mn mx (S k) -> L u -> inTurn (repeat (after L) k) v -> spaced false items w ->
    spaced true ((mn, mx, L) :: items) (u ++ v ++ w)
| spaced_next mn mx L items k v w :
    quantity mn mx (S k) -> inTurn (repeat (after L) (S k)) v -> spaced false items w ->
    spaced false ((mn, mx, L) :: items) (v ++ w).

Fixpoint denotesSpaced (env : string -> list rune -> Prop) (tight nows : bool) (x : expr) (w : list rune) : Prop :=
  match x with
  | EAny => exists r, w = [r]
  | EClass cnot chars ranges => exists r, w = [r] /\ inClass cnot chars ranges r
  | EText chars => w = chars
  | ESymbol name => env name w
  | ESequence items =>
    if tight then inTurn (map (fun xb => repeated (fst (snd xb)) (snd (snd xb)) (denotesSpaced env nows nows (fst xb))) items) w
    else spaced true (map (fun xb => (fst (snd xb), snd (snd xb), denotesSpaced env nows nows (fst xb))) items) w
  | EChoice options => Exists (fun L => L w) (map (denotesSpaced env nows nows) options)
  end.
End SPACED.

(** any number of texts of whitespace definitions *)
Definition spaces (names : list string) (env : string -> list rune -> Prop) (w : list rune) : Prop :=
  exists k, inTurn (repeat (fun u => exists n, In n names /\ env n u) k) w.
(** the texts of a definition but for the whitespace around the root: nokw takes the keywords away from all
    but choices *)
Definition ownTexts (names : list string) (keywords : list (list rune)) (env : string -> list rune -> Prop) (flags : commitType) (x : expr) (w : list rune) : Prop :=
  denotesSpaced (spaces names env) env (hasFlag flags CNoWhitespace || hasFlag flags CWhitespace) (hasFlag flags CNoWhitespace) x w /\
  (hasFlag flags CNoKeyword = true -> (exists options, x = EChoice options) \/ ~ In w keywords).
