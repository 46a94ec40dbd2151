(** The tree of syntax.treerack: the result of parsing its text with the tables of self/self.go. *)
From Verif Require Import Base Utf8 Results Parser Build Syntax SelfData SelfText Define.

Definition selfRunes : list rune := Eval vm_compute in stringRunes selfText.
Definition selfTree : node :=
  Eval vm_compute in match selfParse 3000 selfRunes REof with Ok (Tree n _) => n | _ => Node "" 0 0 [] end.

Lemma selfRunes_eq : stringRunes selfText = selfRunes.
Proof. vm_compute. reflexivity. Qed.
Theorem self_parse : selfParse 3000 selfRunes REof = Ok (Tree selfTree selfRunes).
Proof. vm_cast_no_check (@eq_refl (res parseOut) (Ok (Tree selfTree selfRunes))). Qed.
Theorem self_read : ReadSyntax 3000 emptySyntax (stringRunes selfText) REof = define selfRunes emptySyntax selfTree.
Proof. rewrite selfRunes_eq. unfold ReadSyntax. cbn [sInitialized emptySyntax]. rewrite self_parse. reflexivity. Qed.
