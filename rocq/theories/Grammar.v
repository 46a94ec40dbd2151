(** Specification: what a list of definition calls means as a grammar, without any parser.

    Every definition is a rule.  A class or AnyChar is a sequence of one character rule, a
    literal is a sequence of character rules (their names are the name of the definition, a
    colon and the position, syntax.go:210-212; other definitions can refer to them). *)
From Verif Require Import Base Parser Syntax Lang.

Inductive rule : Type :=
| RChar (cnot : bool) (chars : list rune) (ranges : list (rune * rune))
| RSeq (ct : commitType) (items : list seqItem)
| RChoice (ct : commitType) (options : list string).

(** how often an item may occur: [0,0] stands for exactly once; otherwise at least [mn] times
    and, if [mx] is positive, at most [mx] times *)
Definition quantity (mn mx : Z) (k : nat) : Prop :=
  (mn = 0 /\ mx = 0 /\ k = 1%nat)%Z \/
  (~ (mn = 0 /\ mx = 0) /\ mn <= Z.of_nat k /\ (0 < mx -> Z.of_nat k <= mx))%Z.

(** ** the language of a set of rules; [K] are the keyword texts that nokw definitions exclude *)
Section GEN.
Variable R : string -> option rule.
Variable K : list (list rune).

Inductive gen : string -> list rune -> Prop :=
| gen_char n cnot chars ranges r :
    R n = Some (RChar cnot chars ranges) -> inClass cnot chars ranges r -> gen n [r]
| gen_seq n ct items w :
    R n = Some (RSeq ct items) -> (hasFlag ct CNoKeyword = true -> ~ In w K) -> genItems items w -> gen n w
| gen_choice n ct options o w :
    R n = Some (RChoice ct options) -> In o options -> gen o w -> gen n w
with genItems : list seqItem -> list rune -> Prop :=
| genItems_nil : genItems [] []
| genItems_cons it items k u v :
    quantity (siMin it) (siMax it) k -> genRep (siName it) k u -> genItems items v ->
    genItems (it :: items) (u ++ v)
with genRep : string -> nat -> list rune -> Prop :=
| genRep_0 n : genRep n 0 []
| genRep_S n k u v : gen n u -> genRep n k v -> genRep n (S k) (u ++ v).
End GEN.

Scheme gen_ind' := Minimality for gen Sort Prop
with genItems_ind' := Minimality for genItems Sort Prop
with genRep_ind' := Minimality for genRep Sort Prop.
Combined Scheme gen_mutind from gen_ind', genItems_ind', genRep_ind'.

(** ** the rules of the definition calls *)
Fixpoint charRules (name : string) (i : nat) (chars : list rune) : list (string * rule) :=
  match chars with
  | [] => []
  | c :: chars' => (childName name i, RChar false [c] []) :: charRules name (S i) chars'
  end.
Definition once (name : string) : seqItem := mkItem name 1 1.
Definition callRules (d : defcall) : list (string * rule) :=
  (* a literal never has whitespace between its characters, so it counts as nows *)
  match d with
  | DAnyChar n ct => [(childName n 0, RChar true [] []); (n, RSeq ct [once (childName n 0)])]
  | DClass n ct cnot chars ranges => [(childName n 0, RChar cnot chars ranges); (n, RSeq ct [once (childName n 0)])]
  | DCharSequence n ct chars =>
    charRules n 0 chars ++ [(n, RSeq (N.lor ct CNoWhitespace) (map (fun i => once (childName n i)) (seq 0 (List.length chars))))]
  | DSequence n ct items => [(n, RSeq ct items)]
  | DChoice n ct options => [(n, RChoice ct options)]
  end.
Fixpoint ruleIn (l : list (string * rule)) (n : string) : option rule :=
  match l with
  | [] => None
  | (k, r) :: l' => if String.eqb k n then Some r else ruleIn l' n
  end.
Definition grammarOf (calls : list defcall) : string -> option rule := ruleIn (flat_map callRules calls).

Definition callFlags (d : defcall) : commitType :=
  match d with
  | DAnyChar _ ct => ct | DClass _ ct _ _ _ => ct | DCharSequence _ ct _ => ct
  | DSequence _ ct _ => ct | DChoice _ ct _ => ct
  end.
Definition isRoot (d : defcall) : bool := hasFlag (callFlags d) CRoot.
(** the root: the definition with the Root flag, or else the last one *)
Definition rootName (calls : list defcall) : option string :=
  match find isRoot calls with
  | Some d => Some (callName d)
  | None => last (map (fun d => Some (callName d)) calls) None
  end.

(** every definition call in turn, up to the first error *)
Fixpoint defineAll (s : syntax) (calls : list defcall) : syntax * option gerr :=
  match calls with
  | [] => (s, None)
  | d :: calls' =>
    match defineCall s d with
    | (s, Some e) => (s, Some e)
    | (s, None) => defineAll s calls'
    end
  end.

Definition noWhitespaceDefs (calls : list defcall) : Prop :=
  forall d, In d calls -> hasFlag (callFlags d) CWhitespace = false.
(** quantifiers that can be met: no {5,3} *)
Definition sensibleRanges (calls : list defcall) : Prop :=
  forall n ct items it, In (DSequence n ct items) calls -> In it items -> (0 < siMax it)%Z -> (siMin it <= siMax it)%Z.

(** the names that can show up in a tree: of definitions without the alias and whitespace flags *)
Definition visible (calls : list defcall) (n : string) : Prop :=
  exists d, In d calls /\ callName d = n /\ hasFlag (callFlags d) CAlias = false /\ hasFlag (callFlags d) CWhitespace = false.
(** keywords that are plain literals *)
Definition literalKeywords (calls : list defcall) : Prop :=
  forall d, In d calls -> hasFlag (callFlags d) CKeyword = true -> exists n ct chars, d = DCharSequence n ct chars.
(** the texts of the literal keywords *)
Definition keywordTexts (calls : list defcall) : list (list rune) :=
  flat_map (fun d => match d with DCharSequence n ct chars => if hasFlag ct CKeyword then [chars] else [] | _ => [] end) calls.
