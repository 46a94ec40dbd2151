(** UTF-8 as done by the Go runtime: decoding (bufio.Reader.ReadRune over a byte stream, and
    []rune(string)), encoding (string([]rune)).  Library behaviour, used by context.go:40
    (ReadRune), nodehead.go:20-22 (Text), syntax.go:96-106 ([]rune(n)). *)
From Verif Require Import Base.
Local Open Scope Z_scope.

(** unicode.ReplacementChar, compared in context.go:55 *)
Definition runeError : rune := 65533.

(** unicode/utf8: locb and hicb, the range of continuation bytes *)
Definition isCont (b : Z) : bool := (128 <=? b) && (b <=? 191).

(** utf8.DecodeRune: the rune and the number of bytes it takes; invalid encodings give
    (RuneError, 1).  Accept ranges of the second byte as in the unicode/utf8 tables. *)
Definition decodeRune (bs : list Z) : option (rune * nat) :=
  match bs with
  | [] => None
  | b0 :: r =>
    if b0 <? 128 then Some (b0, 1%nat)
    else if (194 <=? b0) && (b0 <=? 223) then
      match r with
      | b1 :: _ => if isCont b1 then Some ((b0 - 192) * 64 + (b1 - 128), 2%nat)
                   else Some (runeError, 1%nat)
      | _ => Some (runeError, 1%nat)
      end
    else if (224 <=? b0) && (b0 <=? 239) then
      match r with
      | b1 :: b2 :: _ =>
        let lo := if b0 =? 224 then 160 else 128 in
        let hi := if b0 =? 237 then 159 else 191 in
        if (lo <=? b1) && (b1 <=? hi) && isCont b2
        then Some ((b0 - 224) * 4096 + (b1 - 128) * 64 + (b2 - 128), 3%nat)
        else Some (runeError, 1%nat)
      | _ => Some (runeError, 1%nat)
      end
    else if (240 <=? b0) && (b0 <=? 244) then
      match r with
      | b1 :: b2 :: b3 :: _ =>
        let lo := if b0 =? 240 then 144 else 128 in
        let hi := if b0 =? 244 then 143 else 191 in
        if (lo <=? b1) && (b1 <=? hi) && isCont b2 && isCont b3
        then Some ((b0 - 240) * 262144 + (b1 - 128) * 4096 + (b2 - 128) * 64 + (b3 - 128), 4%nat)
        else Some (runeError, 1%nat)
      | _ => Some (runeError, 1%nat)
      end
    else Some (runeError, 1%nat)
  end.

(** all runes of a byte string, in order; fuel: one per byte suffices *)
Fixpoint decodeFuel (n : nat) (bs : list Z) : list rune :=
  match n with
  | O => []
  | S n' =>
    match decodeRune bs with
    | None => []
    | Some (r, k) => r :: decodeFuel n' (skipn k bs)
    end
  end.
(** all runes that ReadRune delivers (context.go:40), []rune(s) (syntax.go:97) *)
Definition decodeUtf8 (bs : list Z) : list rune := decodeFuel (List.length bs) bs.

(** utf8.EncodeRune; surrogates and out of range values are encoded as RuneError *)
Definition encodeRune (r : rune) : list Z :=
  let r := if (r <? 0) || (1114111 <? r) || ((55296 <=? r) && (r <=? 57343)) then runeError else r in
  if r <? 128 then [r]
  else if r <? 2048 then [192 + r / 64; 128 + r mod 64]
  else if r <? 65536 then [224 + r / 4096; 128 + (r / 64) mod 64; 128 + r mod 64]
  else [240 + r / 262144; 128 + (r / 4096) mod 64; 128 + (r / 64) mod 64; 128 + r mod 64].

(** string(runes), nodehead.go:20-22 and define.go *)
Definition encodeUtf8 (rs : list rune) : list Z := List.concat (List.map encodeRune rs).

(** Go strings are byte strings: Coq [string] is used for them. *)
Fixpoint bytesOf (s : string) : list Z :=
  match s with
  | EmptyString => []
  | String a s' => Z.of_N (N_of_ascii a) :: bytesOf s'
  end.
(** the Go string with these bytes *)
Fixpoint stringOfBytes (bs : list Z) : string :=
  match bs with
  | [] => EmptyString
  | b :: bs' => String (ascii_of_N (Z.to_N b)) (stringOfBytes bs')
  end.

(** []rune(s) *)
Definition stringRunes (s : string) : list rune := decodeUtf8 (bytesOf s).
(** string(rs) *)
Definition runesString (rs : list rune) : string := stringOfBytes (encodeUtf8 rs).
