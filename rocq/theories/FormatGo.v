(** Test of the model of the format methods on the cases of /repo/format_test.go; not a proof of a property. *)
From Verif Require Import Base Utf8 Parser Build Syntax Format Define SelfText.

Definition formatted (text : list rune) : option (list rune) :=
  match ReadSyntax 1000 emptySyntax text REof with
  | Ok (s, None) => match formatOf 10 s "def" with Ok t => Some (stringRunes t) | _ => None end
  | _ => None
  end.
Definition formatCases : list (list rune * list rune) := [
  (* empty *) ([100; 101; 102; 32; 61; 32; 91; 93]%Z, [91; 93]%Z);
  (* one char *) ([100; 101; 102; 32; 61; 32; 91; 97; 93]%Z, [91; 97; 93]%Z);
  (* escaped char *) ([100; 101; 102; 32; 61; 32; 91; 92; 97; 93]%Z, [91; 97; 93]%Z);
  (* escaped control char *) ([100; 101; 102; 32; 61; 32; 91; 92; 94; 93]%Z, [91; 92; 94; 93]%Z);
  (* escaped whitespace char *) ([100; 101; 102; 32; 61; 32; 91; 92; 110; 93]%Z, [91; 92; 110; 93]%Z);
  (* escaped verbatim whitespace char *) ([100; 101; 102; 32; 61; 32; 91; 10; 93]%Z, [91; 92; 110; 93]%Z);
  (* escaped range *) ([100; 101; 102; 32; 61; 32; 91; 92; 98; 45; 92; 118; 93]%Z, [91; 92; 98; 45; 92; 118; 93]%Z);
  (* anything *) ([100; 101; 102; 32; 61; 32; 46]%Z, [46]%Z);
  (* not something *) ([100; 101; 102; 32; 61; 32; 91; 94; 97; 98; 99; 93]%Z, [91; 94; 97; 98; 99; 93]%Z);
  (* range *) ([100; 101; 102; 32; 61; 32; 91; 97; 45; 122; 93]%Z, [91; 97; 45; 122; 93]%Z);
  (* range and char mixed *) ([100; 101; 102; 32; 61; 32; 91; 97; 45; 122; 95; 92; 45; 65; 45; 90; 93]%Z, [91; 95; 92; 45; 97; 45; 122; 65; 45; 90; 93]%Z);
  (* empty char sequence *) ([100; 101; 102; 32; 61; 32; 34; 34]%Z, [34; 34]%Z);
  (* char sequence *) ([100; 101; 102; 32; 61; 32; 34; 97; 98; 99; 34]%Z, [34; 97; 98; 99; 34]%Z);
  (* char sequence, escaped *) ([100; 101; 102; 32; 61; 32; 34; 92; 92; 110; 34]%Z, [34; 92; 92; 110; 34]%Z);
  (* chars *) ([100; 101; 102; 32; 61; 32; 34; 97; 98; 99; 34; 32; 91; 97; 45; 122; 93]%Z, [34; 97; 98; 99; 34; 32; 91; 97; 45; 122; 93]%Z);
  (* quantifiers, 0-or-more, single char *) ([100; 101; 102; 32; 61; 32; 34; 97; 34; 42]%Z, [91; 97; 93; 42]%Z);
  (* quantifiers, 0-or-more *) ([100; 101; 102; 32; 61; 32; 34; 97; 98; 99; 34; 42]%Z, [34; 97; 98; 99; 34; 42]%Z);
  (* quantifiers, 1-or-more, single char *) ([100; 101; 102; 32; 61; 32; 34; 97; 34; 43]%Z, [91; 97; 93; 43]%Z);
  (* quantifiers, 1-or-more *) ([100; 101; 102; 32; 61; 32; 34; 97; 98; 99; 34; 43]%Z, [34; 97; 98; 99; 34; 43]%Z);
  (* quantifiers, 0-or-one, single char *) ([100; 101; 102; 32; 61; 32; 34; 97; 34; 63]%Z, [91; 97; 93; 63]%Z);
  (* quantifiers, 0-or-one *) ([100; 101; 102; 32; 61; 32; 34; 97; 98; 99; 34; 63]%Z, [34; 97; 98; 99; 34; 63]%Z);
  (* quantifiers, exact number, single char *) ([100; 101; 102; 32; 61; 32; 34; 97; 34; 123; 51; 125]%Z, [91; 97; 93; 123; 51; 125]%Z);
  (* quantifiers, exact number *) ([100; 101; 102; 32; 61; 32; 34; 97; 98; 99; 34; 123; 51; 125]%Z, [34; 97; 98; 99; 34; 123; 51; 125]%Z);
  (* quantifiers, max, single char *) ([100; 101; 102; 32; 61; 32; 34; 97; 34; 123; 48; 44; 32; 51; 125]%Z, [91; 97; 93; 123; 44; 51; 125]%Z);
  (* quantifiers, max *) ([100; 101; 102; 32; 61; 32; 34; 97; 98; 99; 34; 123; 48; 44; 32; 51; 125]%Z, [34; 97; 98; 99; 34; 123; 44; 51; 125]%Z);
  (* quantifiers, min, single char *) ([100; 101; 102; 32; 61; 32; 34; 97; 34; 123; 51; 44; 125]%Z, [91; 97; 93; 123; 51; 44; 125]%Z);
  (* quantifiers, min *) ([100; 101; 102; 32; 61; 32; 34; 97; 98; 99; 34; 123; 51; 44; 125]%Z, [34; 97; 98; 99; 34; 123; 51; 44; 125]%Z);
  (* quantifiers, range, single char *) ([100; 101; 102; 32; 61; 32; 34; 97; 34; 123; 51; 44; 32; 57; 125]%Z, [91; 97; 93; 123; 51; 44; 57; 125]%Z);
  (* quantifiers, range *) ([100; 101; 102; 32; 61; 32; 34; 97; 98; 99; 34; 123; 51; 44; 32; 57; 125]%Z, [34; 97; 98; 99; 34; 123; 51; 44; 57; 125]%Z);
  (* symbols *) ([97; 32; 61; 32; 34; 97; 34; 59; 32; 98; 32; 61; 32; 34; 98; 34; 59; 32; 99; 32; 61; 32; 34; 99; 34; 59; 32; 100; 101; 102; 32; 61; 32; 97; 32; 98; 32; 99]%Z, [97; 32; 98; 32; 99]%Z);
  (* choice in sequence, single char *) ([100; 101; 102; 32; 61; 32; 34; 97; 34; 32; 40; 34; 98; 34; 32; 124; 32; 34; 99; 34; 41]%Z, [91; 97; 93; 32; 40; 91; 98; 93; 32; 124; 32; 91; 99; 93; 41]%Z);
  (* choice in sequence *) ([100; 101; 102; 32; 61; 32; 34; 97; 98; 99; 34; 32; 40; 34; 100; 101; 102; 34; 32; 124; 32; 34; 103; 104; 105; 34; 41]%Z, [34; 97; 98; 99; 34; 32; 40; 34; 100; 101; 102; 34; 32; 124; 32; 34; 103; 104; 105; 34; 41]%Z);
  (* grouped quantifier, single char *) ([100; 101; 102; 32; 61; 32; 40; 34; 97; 34; 32; 34; 98; 34; 41; 123; 51; 125]%Z, [40; 91; 97; 93; 32; 91; 98; 93; 41; 123; 51; 125]%Z);
  (* grouped quantifier *) ([100; 101; 102; 32; 61; 32; 40; 34; 97; 98; 99; 34; 32; 34; 100; 101; 102; 34; 41; 123; 51; 125]%Z, [40; 34; 97; 98; 99; 34; 32; 34; 100; 101; 102; 34; 41; 123; 51; 125]%Z);
  (* choice of char sequences, single char *) ([100; 101; 102; 32; 61; 32; 34; 97; 34; 32; 124; 32; 34; 98; 34; 32; 124; 32; 34; 99; 34]%Z, [91; 97; 93; 32; 124; 32; 91; 98; 93; 32; 124; 32; 91; 99; 93]%Z);
  (* choice of char sequences *) ([100; 101; 102; 32; 61; 32; 34; 97; 98; 99; 34; 32; 124; 32; 34; 100; 101; 102; 34; 32; 124; 32; 34; 103; 104; 105; 34]%Z, [34; 97; 98; 99; 34; 32; 124; 32; 34; 100; 101; 102; 34; 32; 124; 32; 34; 103; 104; 105; 34]%Z);
  (* choice of inline sequences, single char *) ([100; 101; 102; 32; 61; 32; 34; 97; 34; 32; 34; 98; 34; 32; 124; 32; 34; 99; 34; 32; 34; 100; 34; 32; 124; 32; 34; 101; 34; 32; 34; 102; 34]%Z, [91; 97; 93; 32; 91; 98; 93; 32; 124; 32; 91; 99; 93; 32; 91; 100; 93; 32; 124; 32; 91; 101; 93; 32; 91; 102; 93]%Z);
  (* choice of inline sequences *) ([100; 101; 102; 32; 61; 32; 34; 97; 98; 99; 34; 32; 34; 100; 101; 102; 34; 32; 124; 32; 34; 103; 104; 105; 34; 32; 34; 106; 107; 108; 34; 32; 124; 32; 34; 109; 110; 111; 34; 32; 34; 112; 113; 114; 34]%Z, [34; 97; 98; 99; 34; 32; 34; 100; 101; 102; 34; 32; 124; 32; 34; 103; 104; 105; 34; 32; 34; 106; 107; 108; 34; 32; 124; 32; 34; 109; 110; 111; 34; 32; 34; 112; 113; 114; 34]%Z);
  (* choice of symbol *) ([97; 32; 61; 32; 34; 97; 34; 59; 32; 98; 32; 61; 32; 34; 98; 34; 59; 32; 99; 32; 61; 32; 34; 99; 34; 59; 32; 100; 101; 102; 32; 61; 32; 97; 32; 124; 32; 98; 32; 124; 32; 99]%Z, [97; 32; 124; 32; 98; 32; 124; 32; 99]%Z)].
Example format_go : forallb (fun p => match formatted (fst p) with Some t => if list_eq_dec Z.eq_dec t (snd p) then true else false | None => false end) formatCases = true.
Proof. vm_compute. reflexivity. Qed.
