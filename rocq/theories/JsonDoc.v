(** Specification: JSON texts, after RFC 8259.

    [blank] are the whitespace characters, [plain] the characters that stand for themselves in a
    string, [hex] the digits after backslash and u. *)
From Verif Require Import Base Utf8 Parser.

Section JSON.
Variables blank plain hex : rune -> Prop.

Definition gap (w : list rune) : Prop := Forall blank w.
(** strings *)
Inductive piece : list rune -> Prop :=
| piece_plain r : plain r -> piece [r]
| piece_escape r : In r (runesOf """\/bfnrt") -> piece [92%Z; r]
| piece_hex a b c d : hex a -> hex b -> hex c -> hex d -> piece [92%Z; 117%Z; a; b; c; d].
Inductive pieces : list rune -> Prop :=
| pieces_nil : pieces []
| pieces_cons u v : piece u -> pieces v -> pieces (u ++ v).
Inductive jstring : list rune -> Prop :=
| jstring_quoted u : pieces u -> jstring (34%Z :: u ++ [34%Z]).
(** numbers *)
Definition digit (r : rune) : Prop := (48 <= r <= 57)%Z.
Inductive integer : list rune -> Prop :=
| integer_zero : integer [48%Z]
| integer_digits d u : (49 <= d <= 57)%Z -> Forall digit u -> integer (d :: u).
Inductive fraction : list rune -> Prop :=
| fraction_none : fraction []
| fraction_some d u : digit d -> Forall digit u -> fraction (46%Z :: d :: u).
Inductive exponent : list rune -> Prop :=
| exponent_none : exponent []
| exponent_some e sign d u : (e = 101 \/ e = 69)%Z -> sign = [] \/ sign = [43%Z] \/ sign = [45%Z] -> digit d -> Forall digit u -> exponent (e :: sign ++ d :: u).
Inductive jnumber : list rune -> Prop :=
| jnumber_parts sign i f e : sign = [] \/ sign = [45%Z] -> integer i -> fraction f -> exponent e -> jnumber (sign ++ i ++ f ++ e).
(** values *)
Inductive value : list rune -> Prop :=
| value_true : value (runesOf "true")
| value_false : value (runesOf "false")
| value_null : value (runesOf "null")
| value_string w : jstring w -> value w
| value_number w : jnumber w -> value w
| value_object_empty g : gap g -> value (123%Z :: g ++ [125%Z])
| value_object g u g' : gap g -> members u -> gap g' -> value (123%Z :: g ++ u ++ g' ++ [125%Z])
| value_array_empty g : gap g -> value (91%Z :: g ++ [93%Z])
| value_array g u g' : gap g -> elements u -> gap g' -> value (91%Z :: g ++ u ++ g' ++ [93%Z])
with elements : list rune -> Prop :=
| elements_one u : value u -> elements u
| elements_more u g g' v : value u -> gap g -> gap g' -> elements v -> elements (u ++ g ++ 44%Z :: g' ++ v)
with members : list rune -> Prop :=
| members_one u : member u -> members u
| members_more u g g' v : member u -> gap g -> gap g' -> members v -> members (u ++ g ++ 44%Z :: g' ++ v)
with member : list rune -> Prop :=
| member_pair u g g' v : jstring u -> gap g -> gap g' -> value v -> member (u ++ g ++ 58%Z :: g' ++ v).
Inductive document : list rune -> Prop :=
| document_value g u g' : gap g -> value u -> gap g' -> document (g ++ u ++ g').
End JSON.

Scheme value_ind' := Minimality for value Sort Prop
with elements_ind' := Minimality for elements Sort Prop
with members_ind' := Minimality for members Sort Prop
with member_ind' := Minimality for member Sort Prop.
Combined Scheme value_mutind from value_ind', elements_ind', members_ind', member_ind'.

(** RFC 8259 *)
Definition rfcBlank (r : rune) : Prop := In r [32%Z; 9%Z; 10%Z; 13%Z].
Definition rfcPlain (r : rune) : Prop := (32 <= r <= 33 \/ 35 <= r <= 91 \/ 93 <= r <= 1114111)%Z.
Definition rfcHex (r : rune) : Prop := (48 <= r <= 57 \/ 97 <= r <= 102 \/ 65 <= r <= 70)%Z.
(** examples/json.treerack *)
Definition exampleBlank (r : rune) : Prop := In r [32%Z; 8%Z; 12%Z; 10%Z; 13%Z; 9%Z].
Definition examplePlain (r : rune) : Prop := ~ In r [92%Z; 34%Z; 8%Z; 12%Z; 10%Z; 13%Z; 9%Z].
Definition exampleHex (r : rune) : Prop := (48 <= r <= 57 \/ 97 <= r <= 102)%Z.
