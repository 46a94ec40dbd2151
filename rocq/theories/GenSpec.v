(** Specification vocabulary for Generate. *)
From Verif Require Import Base Utf8 Parser Build Syntax Lang Grammar Generate GoSpec GoRead.
Local Open Scope string_scope.
Local Infix "+++" := String.append (at level 60, right associativity).

(** Syntax.Generate returns; [W] says which calls of Write fail *)
Definition Generates (gendoc headCode : string) (opts : genOptions) (W : writer) (s s' : syntax) (o : output) (err : option (gerr + nat)) : Prop :=
  exists fuel, Generate gendoc headCode opts W fuel s = Ok (s', o, err).
Definition neverFails : writer := fun _ => None.
(** everything that was written *)
Definition content (o : output) : string := fold_right String.append "" (oTexts o).
(** the text before the body of the function *)
Definition preamble (gendoc headCode : string) (opts : genOptions) : string :=
  gendoc +++ newline +++ newline +++
  "package " +++ (if String.eqb (gPackage opts) "" then "main" else gPackage opts) +++ newline +++ newline +++
  headCode +++ newline +++ newline +++
  "func " +++ (if gExport opts then "Parse" else "parse") +++ "(r io.Reader) (*Node, error) {" +++ newline.
(** what Parse returns *)
Definition outcome (r : res (syntax * parseOut)) : res parseOut :=
  match r with Ok (_, out) => Ok out | Panic w => Panic w | NoFuel => NoFuel end.
(** every definition has a name that can stand in a source text *)
Definition sourceNames (calls : list defcall) : Prop := forall d, In d calls -> sourceText (callName d) = true.
Definition rootDefinition (calls : list defcall) : string := match rootName calls with Some n => n | None => "" end.
(** [p] is the beginning of [l] *)
Definition beginning {A} (p l : list A) : Prop := exists r, l = (p ++ r)%list.
