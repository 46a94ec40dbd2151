(** Specification: histories of a syntax and of the memory of its caller. *)
From Verif Require Import Base Utf8 Parser Build Syntax Alias.

(** a new syntax, the memory of the caller, and any calls and changes of the memory *)
Inductive history : shared -> Prop :=
| hi_new m : history (mkShared emptySyntax [] m)
| hi_define st c st' e : history st -> sliceDefine st c = (st', e) -> history st'
| hi_init st fuel st' e : history st -> sliceInit fuel st = Ok (st', e) -> history st'
| hi_parse st fuel input e st' o : history st -> sliceParse fuel st input e = Ok (st', o) -> history st'
| hi_caller st m : history st -> history (withMemory st m).

(** a new syntax and definition calls with slices, each with its error *)
Fixpoint sliceDefines (st : shared) (calls : list slicecall) : shared * list (option gerr) :=
  match calls with
  | [] => (st, [])
  | c :: calls' => let (st, e) := sliceDefine st c in let (st, es) := sliceDefines st calls' in (st, e :: es)
  end.
(** the same with values: Syntax.v *)
Fixpoint valueDefines (s : syntax) (calls : list defcall) : syntax * list (option gerr) :=
  match calls with
  | [] => (s, [])
  | c :: calls' => let (s, e) := defineCall s c in let (s, es) := valueDefines s calls' in (s, e :: es)
  end.

(** the second memory is the first with some sequence items in their normal form *)
Definition normalizedArray (x y : array) : Prop :=
  match x, y with
  | AItems l, AItems l' => Forall2 (fun a b => b = a \/ b = normalizeItemRange a) l l'
  | _, _ => y = x
  end.
Definition normalizedSome (m m' : memory) : Prop := Forall2 normalizedArray m m'.
(** the characters and character ranges are those of [m] *)
Definition sameChars (m m' : memory) : Prop :=
  forall i, match nth_error m i, nth_error m' i with
            | Some (ARunes l), Some y => y = ARunes l
            | Some (ARanges l), Some y => y = ARanges l
            | Some (ARunes _), None | Some (ARanges _), None => False
            | _, Some (ARunes _) | _, Some (ARanges _) => False
            | _, _ => True
            end.

(** the result of a Parse *)
Definition parseOf {A} (x : res (A * parseOut)) : res parseOut := y <- x ;; Ok (snd y).
Definition errorOf {A} (x : res (A * option gerr)) : res (option gerr) := y <- x ;; Ok (snd y).
