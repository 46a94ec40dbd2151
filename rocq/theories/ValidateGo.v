(** Generate on the model, for the syntax of syntax.treerack: its text is the function Parse of
    self/self.go, up to white space, semicolons and trailing commas, which gofmt has changed. *)
From Coq Require Import Ascii.
From Verif Require Import Base Utf8 Results Parser Build Syntax SelfData SelfText Define SelfTree Generate SelfGo.
Local Open Scope string_scope.

Fixpoint chars (s : string) (k : list ascii) : list ascii :=
  match s with EmptyString => k | String c s' => c :: chars s' k end.
Definition charsOf (l : list string) : list ascii := fold_right chars [] l.
(** without white space and semicolons *)
Definition visible (c : ascii) : bool :=
  negb (existsb (Ascii.eqb c) [ascii_of_nat 32; ascii_of_nat 9; ascii_of_nat 10; ascii_of_nat 59]).
Fixpoint noTrailing (l : list ascii) : list ascii :=
  match l with
  | c :: ((d :: _) as l') => if (Ascii.eqb c (ascii_of_nat 44) && Ascii.eqb d (ascii_of_nat 125))%bool then noTrailing l' else c :: noTrailing l'
  | _ => l
  end.
Definition goText (l : list string) : list ascii := noTrailing (filter visible (charsOf l)).
Fixpoint asciisEqb (a b : list ascii) : bool :=
  match a, b with [], [] => true | x :: a', y :: b' => if Ascii.eqb x y then asciisEqb a' b' else false | _, _ => false end.

Definition generatedSelf (fuel : nat) : option (list string) :=
  match ReadSyntax fuel emptySyntax (stringRunes selfText) REof with
  | Ok (s, None) =>
    match Generate "" "" (mkGenOptions "self" true) (fun _ => None) fuel s with
    | Ok (_, o, None) => Some (skipn 9 (oTexts o))
    | _ => None
    end
  | _ => None
  end.
Example self_go : option_map (fun l => asciisEqb (goText l) (goText selfGo)) (generatedSelf 3000) = Some true.
Proof. unfold generatedSelf. rewrite self_read. vm_compute. reflexivity. Qed.
