(** The text of examples/json.treerack and the definitions that it spells. *)
From Verif Require Import Base Utf8 Parser Build Syntax Grammar ReadSpec.

(** examples/json.treerack *)
Definition jsonSyntax : list rune := runesOf "// JSON (http://www.json.org)
whitespace:ws    = [ \b\f\n\r\t];
true             = ""true"";
false            = ""false"";
null             = ""null"";
string:nows      = ""\"""" ([^\\""\b\f\n\r\t] | ""\\"" ([""\\/bfnrt] | ""u"" [0-9a-f]{4}))* ""\"""";
number:nows      = ""-""? (""0"" | [1-9][0-9]*) (""."" [0-9]+)? ([eE] [+\-]? [0-9]+)?;
entry            = string "":"" expression;
object           = ""{"" (entry ("","" entry)*)? ""}"";
array            = ""["" (expression ("","" expression)*)? ""]"";
expression:alias = true | false | null | string | number | object | array;
json:root        = expression;
".

Definition one (e : expr) : expr * (Z * Z) := (e, (0, 0)%Z).
Definition opt (e : expr) : expr * (Z * Z) := (e, (0, 1)%Z).
Definition star (e : expr) : expr * (Z * Z) := (e, (0, -1)%Z).
Definition plus (e : expr) : expr * (Z * Z) := (e, (1, -1)%Z).
Definition text (t : string) : expr := EText (runesOf t).
Definition digits09 : expr := EClass false [] [(48, 57)%Z].
Local Open Scope string_scope.
Definition jsonDefs : list textDef := [
  mkTextDef "whitespace" CWhitespace (EClass false [32; 8; 12; 10; 13; 9]%Z []);
  mkTextDef "true" CNone (text "true");
  mkTextDef "false" CNone (text "false");
  mkTextDef "null" CNone (text "null");
  mkTextDef "string" CNoWhitespace (ESequence [
    one (text """");
    star (EChoice [
      EClass true [92; 34; 8; 12; 10; 13; 9]%Z [];
      ESequence [one (text "\"); one (EChoice [
        EClass false (runesOf """\/bfnrt") [];
        ESequence [one (text "u"); (EClass false [] [(48, 57); (97, 102)]%Z, (4, 4)%Z)]])]]);
    one (text """")]);
  mkTextDef "number" CNoWhitespace (ESequence [
    opt (text "-");
    one (EChoice [text "0"; ESequence [one (EClass false [] [(49, 57)%Z]); star digits09]]);
    opt (ESequence [one (text "."); plus digits09]);
    opt (ESequence [one (EClass false (runesOf "eE") []); opt (EClass false (runesOf "+-") []); plus digits09])]);
  mkTextDef "entry" CNone (ESequence [one (ESymbol "string"); one (text ":"); one (ESymbol "expression")]);
  mkTextDef "object" CNone (ESequence [
    one (text "{");
    opt (ESequence [one (ESymbol "entry"); star (ESequence [one (text ","); one (ESymbol "entry")])]);
    one (text "}")]);
  mkTextDef "array" CNone (ESequence [
    one (text "[");
    opt (ESequence [one (ESymbol "expression"); star (ESequence [one (text ","); one (ESymbol "expression")])]);
    one (text "]")]);
  mkTextDef "expression" CAlias (EChoice [ESymbol "true"; ESymbol "false"; ESymbol "null"; ESymbol "string"; ESymbol "number"; ESymbol "object"; ESymbol "array"]);
  mkTextDef "json" CRoot (ESymbol "expression")].
Definition jsonCalls : list defcall := flat_map textCalls jsonDefs.
