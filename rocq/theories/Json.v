(** Model of the text that the show command prints: cmd/treerack/show.go:85-104, with the encoder of
    encoding/json (Marshal, MarshalIndent) for the node structure of show.go:17-23.  Texts are lists
    of bytes. *)
From Verif Require Import Base Utf8 Parser Build Syntax Define Cli.
Local Open Scope string_scope.
Local Open Scope list_scope.
Local Open Scope Z_scope.

(** encode.go: the constant hex, the hexadecimal digits *)
Definition hexDigit (n : Z) : Z := if n <? 10 then 48 + n else 87 + n.
(** encode.go, encodeState.string with escapeHTML on, for a character below utf8.RuneSelf.
    [modern]: from Go 1.22 on, backspace and form feed have short forms. *)
Definition jsonAscii (modern : bool) (b : Z) : list Z :=
  if (b =? 34) || (b =? 92) then [92; b]
  else if b =? 10 then [92; 110]
  else if b =? 13 then [92; 114]
  else if b =? 9 then [92; 116]
  else if modern && (b =? 8) then [92; 98]
  else if modern && (b =? 12) then [92; 102]
  else if (b <? 32) || (b =? 60) || (b =? 62) || (b =? 38) then [92; 117; 48; 48; hexDigit (b / 16); hexDigit (b mod 16)]
  else [b].
(** and for the others: invalid UTF-8 is written as the escape of U+FFFD, the line and paragraph
    separators as escapes, everything else as it is.  Fuel: the length of the text. *)
Fixpoint jsonChars (modern : bool) (n : nat) (bs : list Z) : list Z :=
  match n with
  | O => []
  | S n' =>
    match decodeRune bs with
    | None => []
    | Some (r, k) =>
      (if r <? 128 then jsonAscii modern r
       else if (r =? runeError) && Nat.eqb k 1 then 92 :: bytesOf "ufffd"
       else if r =? 8232 then 92 :: bytesOf "u2028"
       else if r =? 8233 then 92 :: bytesOf "u2029"
       else firstn k bs) ++ jsonChars modern n' (skipn k bs)
    end
  end.
(** encode.go, encodeState.string: the text in quotation marks *)
Definition jsonString (modern : bool) (s : string) : list Z :=
  34 :: jsonChars modern (String.length s) (bytesOf s) ++ [34].

(** encode.go, structEncoder and arrayEncoder for show.go:17-23: the members in the order of the
    fields; empty text and nodes are left out *)
Fixpoint joinComma (l : list (list Z)) : list Z :=
  match l with
  | [] => []
  | [x] => x
  | x :: l' => x ++ 44 :: joinComma l'
  end.
(** encode.go, structEncoder for show.go:17-23 *)
Fixpoint jsonNode (modern : bool) (n : shown) : list Z :=
  match n with
  | Shown name from to text nodes =>
    123 :: bytesOf """name"":" ++ jsonString modern name ++
    bytesOf ",""from"":" ++ bytesOf (itoaNat from) ++
    bytesOf ",""to"":" ++ bytesOf (itoaNat to) ++
    match text with Some t => bytesOf ",""text"":" ++ jsonString modern t | None => [] end ++
    match nodes with
    | Some l => bytesOf ",""nodes"":[" ++ joinComma (map (jsonNode modern) l) ++ [93]
    | None => []
    end ++ [125]
  end.

(** indent.go, newline, with an empty prefix *)
Definition newline (indent : list Z) (depth : nat) : list Z := 10 :: List.concat (repeat indent depth).
(** indent.go, Indent, for a text without white space outside of the strings, as Marshal writes it.
    [place]: 0 outside of a string, 1 inside, 2 after a backslash; the scanner returns scanContinue
    for the characters inside and for the closing quote. *)
Fixpoint indentJson (indent : list Z) (needIndent : bool) (depth : nat) (place : nat) (src : list Z) : list Z :=
  match src with
  | [] => []
  | c :: src' =>
    match place with
    | O =>
      let closing := (c =? 125) || (c =? 93) in
      let depth1 := if needIndent && negb closing then S depth else depth in
      let pre := if needIndent && negb closing then newline indent depth1 else [] in
      let need1 := needIndent && closing in
      pre ++
      (if (c =? 123) || (c =? 91) then c :: indentJson indent true depth1 0 src'
       else if c =? 44 then c :: newline indent depth1 ++ indentJson indent need1 depth1 0 src'
       else if c =? 58 then c :: 32 :: indentJson indent need1 depth1 0 src'
       else if closing then
         if need1 then c :: indentJson indent false depth1 0 src'
         else newline indent (pred depth1) ++ c :: indentJson indent false (pred depth1) 0 src'
       else if c =? 34 then c :: indentJson indent need1 depth1 1 src'
       else c :: indentJson indent need1 depth1 0 src')
    | S O => c :: indentJson indent needIndent depth (if c =? 34 then 0%nat else if c =? 92 then 2%nat else 1%nat) src'
    | _ => c :: indentJson indent needIndent depth 1 src'
    end
  end.

(** show.go:87-97: what marshal returns; the indentation is four spaces when only -pretty is given *)
Definition marshal (modern pretty : bool) (indent : string) (n : shown) : list Z :=
  if pretty || negb (String.eqb indent "") then
    indentJson (bytesOf (if String.eqb indent "" then "    " else indent)) false 0 0 (jsonNode modern n)
  else jsonNode modern n.
(** show.go:43-105: the exit code and the text printed; io.go:24-26: Fprintln ends it with a newline *)
Definition showText (modern : bool) (fuel : nat) (w : world) (args : list string) : res (Z * option (list Z)) :=
  x <- show fuel w args ;;
  match x, parseFlags showFlags args [] with
  | (code, Some n), Some (v, _) =>
    let pretty := match parseBool (flagValue "pretty" v) with Some b => b | None => false end in
    Ok (code, Some (marshal modern pretty (flagValue "indent" v) n ++ [10]))
  | (code, _), _ => Ok (code, None)
  end.
