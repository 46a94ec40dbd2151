(** Helpers of GoTests.v: how run_test.go, check_test.go and errors_test.go compare results. *)
From Verif Require Import Base Utf8 Results Parser Build Syntax SelfData Define.
Local Open Scope string_scope.

Inductive expectation :=
| ExpectFail
| ExpectNode (ignorePosition : bool) (n : node)
| ExpectNodes (ignorePosition : bool) (n : list node)
| ExpectErr (offset line column : nat) (definition : string).

(** check_test.go:22-72 checkNode *)
Fixpoint checkNode (ignorePosition : bool) (l r : node) : bool :=
  match l, r with
  | Node a f t ns, Node a' f' t' ns' =>
    String.eqb a a' && (ignorePosition || (Nat.eqb f f' && Nat.eqb t t')) &&
    (fix go (x y : list node) : bool :=
       match x, y with
       | [], [] => true
       | n :: x', m :: y' => checkNode ignorePosition n m && go x' y'
       | _, _ => false
       end) ns ns'
  end.
Definition checkNodes (ignorePosition : bool) (l r : list node) : bool :=
  checkNode true (Node "" 0 0 l) (Node "" 0 0 r) &&
  forallb (fun p => checkNode ignorePosition (fst p) (snd p)) (combine l r).

(** run_test.go:19-55, errors_test.go:16-37 *)
Definition check (t : string * string * expectation) : bool :=
  let '(syn, text, e) := t in
  let fuel := 1000 in
  match ReadSyntax fuel emptySyntax (stringRunes syn) REof with
  | Ok (s, None) =>
    match Parse fuel s (stringRunes text) REof, e with
    | Ok (_, Failed _), ExpectFail => true
    | Ok (_, Failed (ErrParse o l c d)), ExpectErr o' l' c' d' =>
      Nat.eqb o o' && Nat.eqb l l' && Nat.eqb c c' && String.eqb d d'
    | Ok (_, Tree n _), ExpectNode ig m => checkNode ig n m
    | Ok (_, Tree n _), ExpectNodes ig ms => checkNodes ig (nNodes n) ms
    | _, _ => false
    end
  | _ => false
  end.
