(** Model of escape.go. *)
From Verif Require Import Base.
Local Open Scope Z_scope.

(** escape.go:3-11 runesContain *)
Fixpoint runesContain (rs : list rune) (r : rune) : bool :=
  match rs with
  | [] => false
  | ri :: rs' => if ri =? r then true else runesContain rs' r
  end.

(** escape.go:13-30 escapeChar: \b=8 \f=12 \n=10 \r=13 \t=9 \v=11; b=98 f=102 n=110 r=114 t=116 v=118 *)
Definition escapeChar (esc c : rune) : list rune :=
  if c =? 8 then [esc; 98]
  else if c =? 12 then [esc; 102]
  else if c =? 10 then [esc; 110]
  else if c =? 13 then [esc; 114]
  else if c =? 9 then [esc; 116]
  else if c =? 11 then [esc; 118]
  else [esc; c].

(** escape.go:32-44 escape *)
Fixpoint escape (esc : rune) (banned chars : list rune) : list rune :=
  match chars with
  | [] => []
  | c :: chars' =>
    if runesContain banned c then escapeChar esc c ++ escape esc banned chars'
    else c :: escape esc banned chars'
  end.

(** escape.go:46-63 unescapeChar *)
Definition unescapeChar (c : rune) : rune :=
  if c =? 98 then 8
  else if c =? 102 then 12
  else if c =? 110 then 10
  else if c =? 114 then 13
  else if c =? 116 then 9
  else if c =? 118 then 11
  else c.

(** escape.go:71-92 the loop of unescape; [escaped] is the loop variable, the accumulated result
    is returned on the way back; [None] is ErrInvalidEscapeCharacter *)
Fixpoint unescapeLoop (esc : rune) (banned : list rune) (escaped : bool) (chars : list rune)
  : option (list rune) :=
  match chars with
  | [] => if escaped then None else Some []
  | c :: chars' =>
    if escaped then option_map (cons (unescapeChar c)) (unescapeLoop esc banned false chars')
    else if c =? esc then unescapeLoop esc banned true chars'
    else if runesContain banned c then None
    else option_map (cons c) (unescapeLoop esc banned false chars')
  end.

(** escape.go:65-93 unescape *)
Definition unescape (esc : rune) (banned chars : list rune) : option (list rune) :=
  unescapeLoop esc banned false chars.
