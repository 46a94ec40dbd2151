(** What it means that the textual form of a definition denotes the definition. *)
From Verif Require Import Base Utf8 Utf8Facts Parser Build Syntax RefSpec DefSpec ApiSpec ReadSpec SelfLang ReadLang ReadMeans Format.
Local Open Scope string_scope.
Local Open Scope list_scope.

(** characters that a text can hold: scalar values, and not the replacement character, which the
    parser refuses *)
Definition fair (r : rune) : Prop := scalar r /\ r <> runeError.
(** names that a text can hold *)
Definition plainName (n : string) : Prop := n <> "" /\ isValidSymbol n = true /\ exists w, Forall fair w /\ n = runesString w.
(** quantities that fit an int *)
Definition intRange (it : seqItem) : Prop := (siMin it < 2 ^ 63 /\ siMax it < 2 ^ 63)%Z.

(** the text [name=t], when read as a syntax, has the effect of the definition call [d] *)
Definition rereads (name t : string) (d : defcall) : Prop :=
  forall s s' err, sInitialized s = false ->
    (Reads s (stringRunes (name ++ "=" ++ t)) REof s' err <-> defineCall s d = (s', err)).

(** ** definitions read from a text *)
(** characters, classes, literals and symbols that can be printed: literals of a single character are
    printed as classes, others cannot hold quotes *)
Definition readable (x : expr) : Prop :=
  match x with
  | EAny => True
  | EClass _ chars ranges => Forall fair chars /\ Forall (fun r => fair (fst r) /\ fair (snd r)) ranges
  | EText chars => Forall fair chars /\ (List.length chars = 1 \/ ~ In 34%Z chars)
  | ESymbol m => plainName m
  | _ => False
  end.
(** equivalent expressions with a unique text *)
Definition normal (x : expr) : expr :=
  match x with
  | EClass true [] [] => EAny
  | EText [c] => EClass false [c] []
  | _ => x
  end.
Definition normalBounds (b : Z * Z) : Z * Z :=
  let it := normalizeItemRange (mkItem "" (fst b) (snd b)) in
  if Z.eqb (siMin it) 1 && Z.eqb (siMax it) 1 then (0, 0)%Z else (siMin it, siMax it).
Definition normalSeq (items : list (expr * (Z * Z))) : expr :=
  let items := map (fun xb => (normal (fst xb), normalBounds (snd xb))) items in
  match items with
  | [(x, (0, 0))] => x
  | _ => ESequence items
  end%Z.
