(** ReadSyntax terminates: with the built-in parser (self/self.go), and over the tree. *)
From Verif Require Import Base Utf8 Escape Parser Build Syntax SelfData Define ListFacts ParseFacts FuelFacts TermFacts RunFacts InitSpec InitFuel ApiSpec DefineFacts.
Local Open Scope string_scope.
Local Open Scope list_scope.

Lemma nodeChar_noFuel tokens n : nodeChar tokens n <> NoFuel.
Proof. unfold nodeChar. destruct (nodeRunes tokens n) as [|c [|d rest]]; try discriminate; destruct (Z.eqb c 92); discriminate. Qed.
Lemma nodeChars_noFuel tokens l : nodeChars tokens l <> NoFuel.
Proof.
  induction l as [|n l IH]; simpl; [discriminate|]. apply bind_noFuel; [apply nodeChar_noFuel|]. intros x _.
  apply bind_noFuel; auto. discriminate.
Qed.
Lemma classItems_noFuel tokens l : classItems tokens l <> NoFuel.
Proof.
  induction l as [|n l IH]; simpl; [discriminate|]. destruct (String.eqb (nName n) "class-char").
  - apply bind_noFuel; [apply nodeChar_noFuel|]. intros x _. apply bind_noFuel; auto. discriminate.
  - destruct (String.eqb (nName n) "char-range"); auto. destruct (nNodes n) as [|a [|b ns]]; try discriminate.
    apply bind_noFuel; [apply nodeChar_noFuel|]. intros x _. apply bind_noFuel; [apply nodeChar_noFuel|]. intros y _. apply bind_noFuel; auto. discriminate.
Qed.
Lemma getQuantity_noFuel tokens n : getQuantity tokens n <> NoFuel.
Proof.
  unfold getQuantity. repeat match goal with |- (if ?b then _ else _) <> _ => destruct b; try discriminate end.
  destruct (nNodes n) as [|x l]; [discriminate|]. destruct (atoi _); discriminate.
Qed.
Lemma itemQuantity_noFuel tokens l : itemQuantity tokens l <> NoFuel.
Proof. unfold itemQuantity. destruct l as [|a [|b [|c l]]]; try discriminate. apply getQuantity_noFuel. Qed.
Lemma defineExpression_noFuel tokens : forall k e, size e < k -> forall s name ct, defineExpression tokens s name ct e <> NoFuel.
Proof.
  induction k as [|k IH]; intros e Hk; [lia|]. destruct e as [ename from to nodes]. simpl in Hk. intros s name ct. rewrite defineExpression_eq. cbv zeta.
  destruct (String.eqb ename "any-char"); [discriminate|].
  destruct (String.eqb ename "char-class").
  { unfold defineClass. match goal with |- (let (_, _) := ?p in _) <> _ => destruct p as [cn n] end. apply bind_noFuel; [apply classItems_noFuel|]. discriminate. }
  destruct (String.eqb ename "char-sequence").
  { unfold defineCharSequence. apply bind_noFuel; [apply nodeChars_noFuel|]. discriminate. }
  destruct (String.eqb ename "symbol"); [discriminate|].
  assert (Hall : forall m, In m nodes -> size m < k) by (intros m Hm; apply size_in in Hm; lia).
  assert (Hsub : forall m ns x y z, In (Node x y z ns) nodes -> In m ns -> size m < k).
  { intros m ns x y z H1 H2. apply Hall in H1. simpl in H1. apply size_in in H2. lia. }
  clear Hk. destruct (String.eqb ename "sequence").
  - generalize (@nil seqItem) as items. generalize 0 as i. revert s. induction nodes as [|[x y z ns] nodes IHn]; intros s i items; simpl; [discriminate|].
    destruct ns as [|m ns]; [discriminate|]. apply bind_noFuel.
    + destruct (String.eqb (nName m) "symbol"); [discriminate|]. apply bind_noFuel; [|discriminate]. apply IH. eapply Hsub; [left; reflexivity|left; auto].
    + intros [rf [s1 [err|]]] _; [discriminate|]. apply bind_noFuel; [apply itemQuantity_noFuel|]. intros [[mn mx]|] _; [|discriminate].
      apply IHn; intros; [apply Hall; right; auto|eapply Hsub; [right; eauto|eauto]].
  - destruct (String.eqb ename "choice"); [|discriminate].
    generalize (@nil string) as refs. generalize 0 as i. revert s. induction nodes as [|m nodes IHn]; intros s i items; simpl; [discriminate|].
    apply bind_noFuel.
    + destruct (String.eqb (nName m) "symbol"); [discriminate|]. apply bind_noFuel; [|discriminate]. apply IH. apply Hall. left; auto.
    + intros [rf [s1 [err|]]] _; [discriminate|].
      apply IHn; intros; [apply Hall; right; auto|eapply Hsub; [right; eauto|eauto]].
Qed.
Lemma define_noFuel tokens s t : define tokens s t <> NoFuel.
Proof.
  unfold define. generalize (nNodes (dropComments t)) as l. intros l. revert s. induction l as [|n l IH]; intros s; simpl; [discriminate|].
  apply bind_noFuel.
  - unfold addDefinition. destruct (nNodes n) as [|a [|b m]]; try discriminate. eapply defineExpression_noFuel. apply Nat.lt_succ_diag_r.
  - intros [s1 [err|]] _; [discriminate|]. apply IH.
Qed.

Definition allCharsOkb (P : pheap) : bool :=
  forallb (fun o => match o with
                    | PSeq _ _ _ items _ _ true =>
                      forallb (fun a => match nth_error P a with Some (PChar _ _ _ _ _) | None => true | _ => false end) items
                    | _ => true
                    end) P.
Lemma allCharsOkb_ok P : allCharsOkb P = true -> allCharsOk P.
Proof.
  unfold allCharsOkb, allCharsOk. rewrite forallb_forall. intros H p name id commit items ranges gs Hp a Ha.
  specialize (H _ (nth_error_In _ _ Hp)). simpl in H. rewrite forallb_forall in H. specialize (H _ Ha). destruct (nth_error P a) as [[]|]; auto; discriminate.
Qed.
Lemma selfParse_terminates input e : exists fuel0, forall fuel, fuel0 <= fuel -> selfParse fuel input e <> NoFuel.
Proof.
  apply parseInput_terminates.
  - apply allCharsOkb_ok. vm_compute. reflexivity.
  - intros kw name id commit items ranges gs [].
Qed.
Theorem ReadSyntax_terminates s input e : exists fuel0, forall fuel, fuel0 <= fuel -> ReadSyntax fuel s input e <> NoFuel.
Proof.
  destruct (selfParse_terminates input e) as [n Hn]. exists n. intros fuel Hf. unfold ReadSyntax. destruct (sInitialized s); [discriminate|].
  apply bind_noFuel; [now apply Hn|]. intros [t tk|err] _; [apply define_noFuel|discriminate].
Qed.
