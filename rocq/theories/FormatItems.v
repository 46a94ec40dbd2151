(** Printed sequences of quantified items, read as syntax. *)
From Verif Require Import Base Utf8 Utf8Facts Parser Build Syntax Escape Grammar RefSpec RefFuel RefApi RefCheck LeftCheck ReadSpec SelfGrammar SelfLang ReadLang Format AbsEval AbsText FormatClass FormatWords.
Local Open Scope string_scope.
Local Open Scope list_scope.
Local Open Scope nat_scope.

(** ** what the nodes stand for *)
Lemma charOf_esc1 pre c post name : charOf (pre ++ esc1 c ++ post) (Node name (List.length pre) (List.length pre + List.length (esc1 c)) []) = Some c.
Proof.
  unfold charOf. rewrite textOf_word. destruct (esc1_form c) as [H|x H _].
  - destruct (Z.eqb_spec c 92); auto. subst. exfalso. apply H. simpl. tauto.
  - rewrite Z.eqb_refl, H. auto.
Qed.
Lemma chars_parts cs l : forall pre post, let input := pre ++ esc cs ++ escRanges l ++ post in
  classParts input (charNodes (List.length pre) cs ++ rangeNodes (List.length pre + List.length (esc cs)) l) = Some (cs, l).
Proof.
  induction cs as [|c cs IH]; intros pre post input.
  - cbn [charNodes app esc escape List.length]. rewrite Nat.add_0_r. subst input. cbn [esc escape app].
    revert pre post. induction l as [|p l IH]; intros pre post; auto. cbn [rangeNodes classParts]. rewrite escRanges_cons, <- app_assoc.
    specialize (IH (pre ++ rangeText p) post). rewrite app_length, <- app_assoc in IH. rewrite IH.
    unfold rangeNode, nName. cbn [String.eqb Ascii.eqb Bool.eqb]. unfold rangeOf, parts. cbn [nNodes charNode filter negb nName String.eqb Ascii.eqb Bool.eqb].
    destruct p as [x y]. unfold rangeText. cbn [fst snd].
    assert (E1 : charOf (pre ++ (esc1 x ++ [45%Z] ++ esc1 y) ++ escRanges l ++ post) (Node "class-char" (List.length pre) (List.length pre + List.length (esc1 x)) []) = Some x).
    { rewrite <- !app_assoc. apply charOf_esc1. }
    assert (E2 : charOf (pre ++ (esc1 x ++ [45%Z] ++ esc1 y) ++ escRanges l ++ post) (Node "class-char" (List.length pre + List.length (esc1 x) + 1) (List.length pre + List.length (esc1 x) + 1 + List.length (esc1 y)) []) = Some y).
    { replace (List.length pre + List.length (esc1 x) + 1) with (List.length (pre ++ esc1 x ++ [45%Z])) by (rewrite !app_length; unfold rune; simpl; lia).
      replace (pre ++ (esc1 x ++ [45%Z] ++ esc1 y) ++ escRanges l ++ post) with ((pre ++ esc1 x ++ [45%Z]) ++ esc1 y ++ escRanges l ++ post) by (rewrite <- !app_assoc; auto).
      apply charOf_esc1. }
    unfold charNode. rewrite E1, E2. auto.
  - subst input. cbn [charNodes app classParts]. rewrite esc_cons, <- app_assoc, app_length, Nat.add_assoc.
    specialize (IH (pre ++ esc1 c) post). cbv zeta in IH. rewrite app_length, <- app_assoc in IH. rewrite IH.
    unfold charNode, nName. cbn [String.eqb Ascii.eqb Bool.eqb]. rewrite charOf_esc1. auto.
Qed.
Definition isPart (x : node) : bool := negb (String.eqb (nName x) "comment").
Lemma parts_all n o t ns : forallb isPart ns = true -> parts (Node n o t ns) = ns.
Proof. unfold parts. cbn [nNodes]. induction ns as [|x ns IH]; simpl; auto. intros H. apply andb_true_iff in H. destruct H as [H1 H2]. unfold isPart in H1. rewrite H1, IH; auto. Qed.
Lemma charNodes_parts cs : forall o, forallb isPart (charNodes o cs) = true.
Proof. induction cs as [|c cs IH]; intros o; simpl; auto. Qed.
Lemma rangeNodes_parts l : forall o, forallb isPart (rangeNodes o l) = true.
Proof. induction l as [|c cs IH]; intros o; simpl; auto. Qed.
Lemma seqCharNodes_parts cs : forall o, forallb isPart (seqCharNodes o cs) = true.
Proof. induction cs as [|c cs IH]; intros o; simpl; auto. Qed.
Lemma classNode_expr k pre cnot chars ranges post : exprOf (pre ++ classText cnot chars ranges ++ post) (S k) (classNode (List.length pre) cnot chars ranges) = Some (EClass cnot chars ranges).
Proof.
  unfold classNode. cbn [exprOf nName String.eqb Ascii.eqb Bool.eqb].
  rewrite parts_all by (rewrite !forallb_app, charNodes_parts, rangeNodes_parts; destruct cnot; auto).
  assert (H : classParts (pre ++ classText cnot chars ranges ++ post) (charNodes (List.length pre + 1 + List.length (notText cnot)) chars ++ rangeNodes (List.length pre + 1 + List.length (notText cnot) + List.length (esc chars)) ranges) = Some (chars, ranges)).
  { pose proof (chars_parts chars ranges (pre ++ [91%Z] ++ notText cnot) ([93%Z] ++ post)) as H. cbv zeta in H.
    rewrite !app_length in H. rewrite Nat.add_assoc in H. unfold classText. rewrite <- !app_assoc in *. exact H. }
  destruct cnot; cbn [notNodes app].
  - cbn [nName String.eqb Ascii.eqb Bool.eqb]. rewrite H. auto.
  - destruct (charNodes _ chars ++ rangeNodes _ ranges) as [|x l] eqn:E; [simpl in H; inversion H; auto|].
    assert (Hx : String.eqb (nName x) "class-not" = false).
    { destruct chars as [|c chars]; simpl in E; [|inversion E; auto]. destruct ranges as [|p ranges]; simpl in E; [discriminate|inversion E; auto]. }
    rewrite Hx, H. auto.
Qed.
Lemma seqChars_map cs : forall pre post, map (charOf (pre ++ esc cs ++ post)) (seqCharNodes (List.length pre) cs) = map Some cs.
Proof.
  induction cs as [|c cs IH]; intros pre post; auto. cbn [seqCharNodes map]. rewrite esc_cons, <- app_assoc. f_equal; [apply charOf_esc1|].
  specialize (IH (pre ++ esc1 c) post). rewrite app_length, <- app_assoc in IH. exact IH.
Qed.
Lemma sequenceOpt_some {A} (l : list A) : sequenceOpt (map Some l) = Some l.
Proof. induction l as [|a l IH]; auto. unfold sequenceOpt in *. cbn [map fold_right]. rewrite IH. auto. Qed.
Lemma literalNode_expr k pre cs post : exprOf (pre ++ literalText cs ++ post) (S k) (literalNode (List.length pre) cs) = Some (EText cs).
Proof.
  unfold literalNode. cbn [exprOf nName String.eqb Ascii.eqb Bool.eqb]. rewrite parts_all by apply seqCharNodes_parts.
  pose proof (seqChars_map cs (pre ++ [34%Z]) ([34%Z] ++ post)) as H. rewrite len1 in H. unfold literalText. rewrite <- !app_assoc in *. unfold rune in *. rewrite H, sequenceOpt_some. auto.
Qed.

(** ** atoms: what an item of a printed sequence is made of, without its quantifier *)
Inductive atom := PSym (w : list rune) | PAny | PClass (cnot : bool) (chars : list rune) (ranges : list (rune * rune)) | PText (chars : list rune).
Definition atomText (a : atom) : list rune :=
  match a with PSym w => w | PAny => [46%Z] | PClass cnot chars ranges => classText cnot chars ranges | PText chars => literalText chars end.
Definition atomExpr (a : atom) : expr :=
  match a with PSym w => ESymbol (runesString w) | PAny => EAny | PClass cnot chars ranges => EClass cnot chars ranges | PText chars => EText chars end.
Definition atomOk (a : atom) : Prop :=
  match a with PSym w => Forall symbolRune w /\ w <> [] | PText chars => quoteFree chars | _ => True end.
Definition atomKey (a : atom) : string := match a with PSym _ => "symbol" | PAny => "any-char" | PClass _ _ _ => "char-class" | PText _ => "char-sequence" end.
Definition atomTests (a : atom) : tests := match a with PSym _ => notIn symbolChars | PAny => exactly 46%Z | PClass _ _ _ => exactly 91%Z | PText _ => exactly 34%Z end.
Definition atomNode (o : nat) (a : atom) : node :=
  match a with PSym w => symbolNode o w | PAny => Node "any-char" o (o + 1) [] | PClass cnot chars ranges => classNode o cnot chars ranges | PText chars => literalNode o chars end.
Lemma atom_word pre a post : atomOk a -> behind (fun r => In r symbolChars) post ->
  gives (pre ++ atomText a ++ post) (KDef (atomKey a)) (List.length pre) (Match (List.length pre + List.length (atomText a)) [atomNode (List.length pre) a]).
Proof.
  intros Ha Hp. destruct a as [w| |cnot chars ranges|chars]; cbn [atomText atomKey atomNode atomOk] in *.
  - apply symbol_word; tauto.
  - absRun pre post [[46%Z]] [runeSym 46%Z] false noNodes 10 "any-char". fitting.
  - apply class_word.
  - apply literal_word; auto.
Qed.
Lemma atom_fits a ks : atomOk a -> fits (A := key) (AWord ks (atomTests a)) (atomText a).
Proof.
  intros Ha. destruct a as [w| |cnot chars ranges|chars]; cbn [atomText atomTests atomOk] in *.
  - destruct Ha as [H1 H2]. destruct w as [|r w]; [congruence|]. inversion H1; subst. apply fits_notIn. auto.
  - apply fits_word_exactly.
  - apply fits_word_exactly.
  - apply fits_word_exactly.
Qed.
Lemma atom_expr k pre a post : exprOf (pre ++ atomText a ++ post) (S k) (atomNode (List.length pre) a) = Some (atomExpr a).
Proof.
  destruct a as [w| |cnot chars ranges|chars]; cbn [atomText atomNode atomExpr].
  - unfold symbolNode. cbn [exprOf nName String.eqb Ascii.eqb Bool.eqb]. rewrite textOf_word. auto.
  - auto.
  - apply classNode_expr.
  - apply literalNode_expr.
Qed.
Lemma atom_part o a : isPart (atomNode o a) = true.
Proof. destruct a; auto. Qed.
Lemma atom_nonempty a : atomOk a -> atomText a <> [].
Proof. destruct a; simpl; try discriminate. tauto. Qed.
