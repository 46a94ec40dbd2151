(** Printed sequences of quantified items and printed definitions, read as syntax. *)
From Verif Require Import Base Utf8 Utf8Facts Parser Build Syntax Escape Grammar RefSpec RefFuel RefApi RefCheck LeftCheck ReadSpec SelfGrammar SelfLang ReadLang Format AbsEval AbsText FormatClass FormatWords FormatNum FormatItems.
Local Open Scope string_scope.
Local Open Scope list_scope.
Local Open Scope nat_scope.

(** ** quantifiers *)
Definition quantText (mn mx : Z) : list rune :=
  if Z.eqb mn 1 && Z.eqb mx 1 then []
  else if Z.eqb mn 0 && Z.eqb mx 1 then [63%Z]
  else if Z.eqb mn 0 && Z.ltb mx 0 then [42%Z]
  else if Z.eqb mn 1 && Z.ltb mx 0 then [43%Z]
  else [123%Z] ++
    (if Z.eqb mn mx then numText mn
     else (if Z.ltb 0 mn then numText mn else []) ++ [44%Z] ++ (if Z.leb 0 mx then numText mx else [])) ++ [125%Z].
(** bounds that fit an integer *)
Definition fine (mn mx : Z) : Prop := (0 <= mn < 2 ^ 63)%Z /\ (mx = -1 \/ 0 < mx < 2 ^ 63)%Z.
Lemma numberOf_word pre z post name ns : (0 <= z < 2 ^ 63)%Z -> numberOf (pre ++ numText z ++ post) (Node name (List.length pre) (List.length pre + List.length (numText z)) ns) = Some z.
Proof.
  intros Hz. destruct (numText_ok z) as (H1 & H2 & H3); [lia|]. unfold numberOf. rewrite textOf_word. fold (value (numText z) 0). rewrite H3.
  assert (E1 : negb (List.length (numText z) =? 0) = true) by (destruct (numText z); [congruence|auto]).
  assert (E2 : forallb isDigit (numText z) = true) by (apply forallb_forall; intros c Hc; rewrite Forall_forall in H1; apply H1 in Hc; unfold digit in Hc; unfold isDigit; lia).
  assert (E3 : Z.ltb z (2 ^ 63) = true) by lia. rewrite E1, E2, E3. auto.
Qed.
Definition digitTests : tests := notIn (44%Z :: symbolChars).
Lemma num_fits z ks : (0 <= z)%Z -> fits (A := key) (AWord ks digitTests) (numText z).
Proof.
  intros Hz. destruct (numText_ok z Hz) as (H1 & H2 & _). destruct (numText z) as [|r w]; [congruence|]. apply fits_notIn. apply Forall_inv in H1.
  intros H. unfold digit in H1. unfold symbolChars in H. cbn [In] in H. lia.
Qed.
Lemma num_word pre z r post : (0 <= z)%Z -> In r [44; 125]%Z -> gives (pre ++ numText z ++ r :: post) (KDef "number") (List.length pre) (Match (List.length pre + List.length (numText z)) []).
Proof. intros Hz Hr. destruct (numText_ok z Hz) as (H1 & H2 & _). apply number_word; auto. Qed.

Definition quantNode (o : nat) (mn mx : Z) : node :=
  let t := o + List.length (quantText mn mx) in
  if Z.eqb mn 0 && Z.eqb mx 1 then Node "zero-or-one" o t []
  else if Z.eqb mn 0 && Z.ltb mx 0 then Node "zero-or-more" o t []
  else if Z.eqb mn 1 && Z.ltb mx 0 then Node "one-or-more" o t []
  else if Z.eqb mn mx then Node "count-quantifier" o t [Node "count" (o + 1) (o + 1 + List.length (numText mn)) []]
  else Node "range-quantifier" o t
    ((if Z.ltb 0 mn then [Node "range-from" (o + 1) (o + 1 + List.length (numText mn)) []] else []) ++
     (if Z.leb 0 mx then let o1 := o + 1 + List.length (if Z.ltb 0 mn then numText mn else []) + 1 in [Node "range-to" o1 (o1 + List.length (numText mx)) []] else [])).
Ltac natEq := rewrite ?app_length; unfold rune; cbn [List.length]; lia.
Lemma quant_word pre mn mx post : fine mn mx -> (mn <> 1 \/ mx <> 1)%Z ->
  gives (pre ++ quantText mn mx ++ post) (KDef "quantity") (List.length pre) (Match (List.length pre + List.length (quantText mn mx)) [quantNode (List.length pre) mn mx]).
Proof.
  intros [H1 H2] Hne. unfold quantNode, quantText.
  replace (Z.eqb mn 1 && Z.eqb mx 1)%bool with false by lia.
  destruct (Z.eqb mn 0 && Z.eqb mx 1)%bool eqn:Ea; [absRun pre post [[63%Z]] [runeSym 63%Z] false noNodes 20 "quantity"; fitting|].
  destruct (Z.eqb mn 0 && Z.ltb mx 0)%bool eqn:Eb; [absRun pre post [[42%Z]] [runeSym 42%Z] false noNodes 20 "quantity"; fitting|].
  destruct (Z.eqb mn 1 && Z.ltb mx 0)%bool eqn:Ec; [absRun pre post [[43%Z]] [runeSym 43%Z] false noNodes 20 "quantity"; fitting|].
  destruct (Z.eqb mn mx) eqn:Ed.
  - absRun pre post [[123%Z]; numText mn; [125%Z]] [runeSym 123%Z; AWord [(KDef "number", Some 1)] digitTests; runeSym 125%Z] false noNodes 30 "quantity".
    + constructor; [apply fits_exactly|]. constructor; [apply num_fits; lia|]. fitting.
    + split; [split; [|exact I]|exact I]. eapply moved; [apply (num_word (pre ++ [123%Z]) mn 125%Z post); [lia|simpl; tauto]|inputEq|wpEq|wpEq].
  - destruct (Z.ltb 0 mn) eqn:Ee, (Z.leb 0 mx) eqn:Ef; cbv zeta; cbn [app].
    + absRun pre post [[123%Z]; numText mn; [44%Z]; numText mx; [125%Z]] [runeSym 123%Z; AWord [(KDef "number", Some 1)] digitTests; runeSym 44%Z; AWord [(KDef "number", Some 1)] digitTests; runeSym 125%Z] false noNodes 30 "quantity".
      * constructor; [apply fits_exactly|]. constructor; [apply num_fits; lia|]. constructor; [apply fits_exactly|]. constructor; [apply num_fits; lia|]. fitting.
      * split; [split; [|exact I]|split; [split; [|exact I]|exact I]].
        -- eapply moved; [apply (num_word (pre ++ [123%Z]) mn 44%Z (numText mx ++ 125%Z :: post)); [lia|simpl; tauto]|inputEq|wpEq|wpEq].
        -- eapply moved; [apply (num_word (pre ++ [123%Z] ++ numText mn ++ [44%Z]) mx 125%Z post); [lia|simpl; tauto]|inputEq|wpEq|wpEq].
    + absRun pre post [[123%Z]; numText mn; [44%Z]; [125%Z]] [runeSym 123%Z; AWord [(KDef "number", Some 1)] digitTests; runeSym 44%Z; runeSym 125%Z] false noNodes 30 "quantity".
      * constructor; [apply fits_exactly|]. constructor; [apply num_fits; lia|]. fitting.
      * split; [split; [|exact I]|exact I]. eapply moved; [apply (num_word (pre ++ [123%Z]) mn 44%Z (125%Z :: post)); [lia|simpl; tauto]|inputEq|wpEq|wpEq].
    + absRun pre post [[123%Z]; [44%Z]; numText mx; [125%Z]] [runeSym 123%Z; runeSym 44%Z; AWord [(KDef "number", Some 1)] digitTests; runeSym 125%Z] false noNodes 30 "quantity".
      * constructor; [apply fits_exactly|]. constructor; [apply fits_exactly|]. constructor; [apply num_fits; lia|]. fitting.
      * split; [split; [|exact I]|exact I]. eapply moved; [apply (num_word (pre ++ [123%Z; 44%Z]) mx 125%Z post); [lia|simpl; tauto]|inputEq|wpEq|wpEq].
    + exfalso. lia.
Qed.
Lemma quant_bounds pre mn mx post : fine mn mx -> (mn <> 1 \/ mx <> 1)%Z -> boundsOf (pre ++ quantText mn mx ++ post) (quantNode (List.length pre) mn mx) = Some (mn, mx).
Proof.
  intros [H1 H2] Hne. unfold quantNode, quantText.
  replace (Z.eqb mn 1 && Z.eqb mx 1)%bool with false by lia.
  destruct (Z.eqb mn 0 && Z.eqb mx 1)%bool eqn:Ea; [unfold boundsOf; cbn [nName String.eqb Ascii.eqb Bool.eqb]; do 2 f_equal; lia|].
  destruct (Z.eqb mn 0 && Z.ltb mx 0)%bool eqn:Eb; [unfold boundsOf; cbn [nName String.eqb Ascii.eqb Bool.eqb]; do 2 f_equal; lia|].
  destruct (Z.eqb mn 1 && Z.ltb mx 0)%bool eqn:Ec; [unfold boundsOf; cbn [nName String.eqb Ascii.eqb Bool.eqb]; do 2 f_equal; lia|].
  destruct (Z.eqb mn mx) eqn:Ed.
  - unfold boundsOf; cbn [nName String.eqb Ascii.eqb Bool.eqb]. rewrite parts_all by auto.
    pose proof (numberOf_word (pre ++ [123%Z]) mn (125%Z :: post) "count" [] ltac:(lia)) as X. rewrite app_length in X. cbn [List.length] in X. repeat (rewrite <- !app_assoc in *; cbn [app] in *). unfold rune in *.
    rewrite X. cbn [option_map]. do 2 f_equal; lia.
  - unfold boundsOf; cbn [nName String.eqb Ascii.eqb Bool.eqb]. rewrite parts_all by (destruct (Z.ltb 0 mn), (Z.leb 0 mx); auto).
    destruct (Z.ltb 0 mn) eqn:Ee, (Z.leb 0 mx) eqn:Ef; cbv zeta; cbn [app nName String.eqb Ascii.eqb Bool.eqb].
    + pose proof (numberOf_word (pre ++ [123%Z]) mn ([44%Z] ++ numText mx ++ 125%Z :: post) "range-from" [] ltac:(lia)) as X.
      pose proof (numberOf_word (pre ++ [123%Z] ++ numText mn ++ [44%Z]) mx (125%Z :: post) "range-to" [] ltac:(lia)) as Y.
      rewrite app_length in X. cbn [List.length] in X.
      replace (List.length (pre ++ [123%Z] ++ numText mn ++ [44%Z])) with (List.length pre + 1 + List.length (numText mn) + 1) in Y by natEq.
      repeat (rewrite <- !app_assoc in *; cbn [app] in *). unfold rune in *. rewrite X, Y. auto.
    + pose proof (numberOf_word (pre ++ [123%Z]) mn ([44%Z] ++ 125%Z :: post) "range-from" [] ltac:(lia)) as X.
      rewrite app_length in X. cbn [List.length] in X. repeat (rewrite <- !app_assoc in *; cbn [app] in *). unfold rune in *. rewrite X. cbn [option_map]. do 2 f_equal. lia.
    + pose proof (numberOf_word (pre ++ [123%Z; 44%Z]) mx (125%Z :: post) "range-to" [] ltac:(lia)) as Y.
      replace (List.length (pre ++ [123%Z; 44%Z])) with (List.length pre + 1 + List.length (@nil rune) + 1) in Y by natEq. repeat (rewrite <- !app_assoc in *; cbn [app] in *). unfold rune in *. rewrite Y. cbn [option_map]. do 2 f_equal. lia.
    + exfalso. lia.
Qed.
Lemma quant_part o mn mx : isPart (quantNode o mn mx) = true.
Proof. unfold quantNode. repeat (match goal with |- isPart (if ?b then _ else _) = _ => destruct b end; auto). Qed.
Lemma quant_nonempty mn mx : fine mn mx -> (mn <> 1 \/ mx <> 1)%Z -> quantText mn mx <> [].
Proof.
  intros _ Hne. unfold quantText. replace (Z.eqb mn 1 && Z.eqb mx 1)%bool with false by lia.
  repeat (match goal with |- (if ?b then _ else _) <> _ => destruct b end; try discriminate).
Qed.
Lemma quant_stop mn mx post : behind (fun r => In r symbolChars) post -> behind (fun r => In r symbolChars) (quantText mn mx ++ post).
Proof.
  intros Hp. unfold quantText. repeat (match goal with |- behind _ ((if ?b then _ else _) ++ _) => destruct b end; [solve [auto|cbn; tauto]|]). cbn. tauto.
Qed.

(** ** items *)
Record pitem := mkP { pAtom : atom; pMin : Z; pMax : Z }.
Definition itemText (p : pitem) : list rune := atomText (pAtom p) ++ quantText (pMin p) (pMax p).
Definition itemOk (p : pitem) : Prop := atomOk (pAtom p) /\ fine (pMin p) (pMax p).
Definition once (p : pitem) : bool := Z.eqb (pMin p) 1 && Z.eqb (pMax p) 1.
(** the bounds that the text gives: none for a single one *)
Definition itemBounds (p : pitem) : Z * Z := if once p then (0, 0)%Z else (pMin p, pMax p).
Definition itemNode (o : nat) (p : pitem) : node :=
  let o1 := o + List.length (atomText (pAtom p)) in
  Node "item" o (o + List.length (itemText p)) (atomNode o (pAtom p) :: if once p then [] else [quantNode o1 (pMin p) (pMax p)]).
(** a space behind an item, or nothing *)
Definition spaceBehind (post : list rune) : Prop := behind (fun r => r = 32%Z) post.
Lemma space_stops post : spaceBehind post -> behind (fun r => In r symbolChars) post.
Proof. destruct post; simpl; auto. Qed.
Lemma once_text p : once p = true -> quantText (pMin p) (pMax p) = [].
Proof. unfold once, quantText. intros ->. auto. Qed.
Lemma atom_option pre a post : atomOk a -> behind (fun r => In r symbolChars) post ->
  gives (pre ++ atomText a ++ post) (KDef "item:0") (List.length pre) (Match (List.length pre + List.length (atomText a)) [atomNode (List.length pre) a]).
Proof.
  intros Ha Hp. pose proof (atom_word pre a post Ha Hp) as Hw. pose proof (fun ks => atom_fits a ks Ha) as Hfit.
  destruct a as [w| |cnot chars ranges|chars]; cbn [atomTests atomKey atomText] in Hw, Hfit |- *.
  - absRun pre post [w] [AWord [(KDef "symbol", Some 1)] (notIn symbolChars)] false [[[atomNode (List.length pre) (PSym w)]]] 20 "item:0".
    + constructor; [apply Hfit|constructor].
    + split; [split; [|exact I]|exact I]. eapply moved; [exact Hw|inputEq|wpEq|wpEq].
  - absRun pre post [[46%Z]] [runeSym 46%Z] false noNodes 20 "item:0"; [fitting|]. cbn [atomNode]. nodesEq.
  - absRun pre post [classText cnot chars ranges] [AWord [(KDef "char-class", Some 1)] (exactly 91%Z)] false [[[atomNode (List.length pre) (PClass cnot chars ranges)]]] 20 "item:0".
    + constructor; [apply Hfit|constructor].
    + split; [split; [|exact I]|exact I]. eapply moved; [exact Hw|inputEq|wpEq|wpEq].
  - absRun pre post [literalText chars] [AWord [(KDef "char-sequence", Some 1)] (exactly 34%Z)] false [[[atomNode (List.length pre) (PText chars)]]] 20 "item:0".
    + constructor; [apply Hfit|constructor].
    + split; [split; [|exact I]|exact I]. eapply moved; [exact Hw|inputEq|wpEq|wpEq].
Qed.
Lemma quant_no pre post : spaceBehind post -> gives (pre ++ post) (KDef "quantity") (List.length pre) NoMatch.
Proof.
  intros Hp. destruct post as [|r post].
  - absRun pre (@nil rune) (@nil (list rune)) (@nil (asym (A := key))) true noNodes 20 "quantity". fitting.
  - unfold spaceBehind in Hp. cbn [behind] in Hp. subst r. absRun pre post [[32%Z]] [runeSym 32%Z] false noNodes 20 "quantity". fitting.
Qed.
Lemma item_word pre p post : itemOk p -> spaceBehind post ->
  gives (pre ++ itemText p ++ post) (KDef "item") (List.length pre) (Match (List.length pre + List.length (itemText p)) [itemNode (List.length pre) p]).
Proof.
  intros [Ha Hf] Hp. set (o := List.length pre). set (o1 := o + List.length (atomText (pAtom p))). set (input := pre ++ itemText p ++ post).
  assert (Hg : PG (KDef "item") = Some (GSeq (Some "item") false [(KDef "item:0", (1, Some 1)); (KDef "quantity", (0, Some 1))])) by (vm_compute; reflexivity).
  assert (E : input = pre ++ atomText (pAtom p) ++ (quantText (pMin p) (pMax p) ++ post)) by (unfold input, itemText; rewrite <- app_assoc; auto).
  assert (E1 : o1 = List.length (pre ++ atomText (pAtom p))) by (rewrite app_length; auto).
  assert (Hq : Goes PG PK input [(KDef "quantity", (0, Some 1))] 0 o1 (Match (o + List.length (itemText p)) (if once p then [] else [quantNode o1 (pMin p) (pMax p)]))).
  { unfold itemText. destruct (once p) eqn:Eo.
    - rewrite (once_text p Eo), app_nil_r in *. cbn [app] in E. apply goes_skip; [|lia|apply goes_nil]. rewrite E, E1, app_assoc. apply quant_no; auto.
    - rewrite <- (app_nil_r [quantNode _ _ _]). change (Match ?t (?a ++ [])) with (after a (Match t [])).
      assert (Hne : (pMin p <> 1 \/ pMax p <> 1)%Z) by (unfold once in Eo; lia). pose proof (quant_nonempty _ _ Hf Hne) as Hn.
      eapply goes_last; [|  |apply goes_nil].
      + rewrite E, E1, app_assoc. pose proof (quant_word (pre ++ atomText (pAtom p)) (pMin p) (pMax p) post Hf Hne) as X.
        replace (o + List.length (atomText (pAtom p) ++ quantText (pMin p) (pMax p))) with (List.length (pre ++ atomText (pAtom p)) + List.length (quantText (pMin p) (pMax p))); [exact X|].
        unfold o. rewrite !app_length. lia.
      + unfold o1. rewrite app_length. destruct (quantText (pMin p) (pMax p)); [congruence|]. simpl. lia. }
  pose proof (goes_gives PG PK input (KDef "item") _ _ o (after [atomNode o (pAtom p)] (Match (o + List.length (itemText p)) (if once p then [] else [quantNode o1 (pMin p) (pMax p)]))) Hg) as H.
  apply H. eapply goes_last; [| |exact Hq].
  - rewrite E. apply atom_option; auto. apply quant_stop, space_stops; auto.
  - unfold o1. pose proof (atom_nonempty _ Ha). destruct (atomText (pAtom p)); [congruence|]. simpl. lia.
Qed.
Lemma item_expr k pre p post : itemOk p ->
  (match parts (itemNode (List.length pre) p) with
   | [x] => option_map (fun e => (e, (0, 0)%Z)) (exprOf (pre ++ itemText p ++ post) (S k) x)
   | [x; q] => match exprOf (pre ++ itemText p ++ post) (S k) x, boundsOf (pre ++ itemText p ++ post) q with Some e, Some b => Some (e, b) | _, _ => None end
   | _ => None
   end) = Some (atomExpr (pAtom p), itemBounds p).
Proof.
  intros [Ha Hf]. unfold itemNode, itemBounds. rewrite parts_all by (cbn [forallb]; rewrite atom_part; destruct (once p); auto; cbn [forallb]; rewrite quant_part; auto).
  assert (E : pre ++ itemText p ++ post = pre ++ atomText (pAtom p) ++ (quantText (pMin p) (pMax p) ++ post)) by (unfold itemText; rewrite <- app_assoc; auto).
  destruct (once p) eqn:Eo.
  - rewrite E, atom_expr. auto.
  - rewrite E, atom_expr. assert (Hne : (pMin p <> 1 \/ pMax p <> 1)%Z) by (unfold once in Eo; lia).
    pose proof (quant_bounds (pre ++ atomText (pAtom p)) (pMin p) (pMax p) post Hf Hne) as X. rewrite app_length, <- app_assoc in X. rewrite X. auto.
Qed.

(** ** sequences *)
Fixpoint restText (l : list pitem) : list rune := match l with [] => [] | p :: l' => [32%Z] ++ itemText p ++ restText l' end.
Definition seqText (p : pitem) (l : list pitem) : list rune := itemText p ++ restText l.
Fixpoint restNodes (o : nat) (l : list pitem) : list node :=
  match l with [] => [] | p :: l' => itemNode (S o) p :: restNodes (S o + List.length (itemText p)) l' end.
Definition seqNode (o : nat) (p : pitem) (l : list pitem) : node :=
  Node "sequence" o (o + List.length (seqText p l)) (itemNode o p :: restNodes (o + List.length (itemText p)) l).
Definition wsRunes : list rune := [32; 9; 10; 8; 12; 13; 11; 47]%Z.
Lemma item_fits p ks : itemOk p -> fits (A := key) (AWord ks (notIn wsRunes)) (itemText p).
Proof.
  intros [Ha _]. unfold itemText. destruct (pAtom p) as [w| |cnot chars ranges|chars]; cbn [atomText atomOk] in *.
  - destruct Ha as [H1 H2]. destruct w as [|r w]; [congruence|]. apply fits_notIn. apply Forall_inv in H1. intros H. apply H1. unfold wsRunes, symbolChars in *. cbn [In] in *. intuition.
  - apply fits_notIn. unfold wsRunes. cbn [In]. lia.
  - apply fits_notIn. unfold wsRunes. cbn [In]. lia.
  - apply fits_notIn. unfold wsRunes. cbn [In]. lia.
Qed.
Lemma rest_space l : spaceBehind (restText l).
Proof. destruct l; simpl; auto. Qed.
Lemma rest_step pre p post : itemOk p -> spaceBehind post -> gives (pre ++ ([32%Z] ++ itemText p) ++ post) (KRest "sequence" 0) (List.length pre)
  (Match (List.length pre + List.length ([32%Z] ++ itemText p)) [itemNode (S (List.length pre)) p]).
Proof.
  intros Hi Hp. absRunKey pre post [[32%Z]; itemText p] [runeSym 32%Z; AWord [(KDef "item", Some 1)] (notIn wsRunes)] false [[]; [[itemNode (S (List.length pre)) p]]] 20 (KRest "sequence" 0).
  - constructor; [apply fits_exactly|]. constructor; [apply item_fits; auto|]. constructor.
  - split; [split; [|exact I]|exact I]. pose proof (item_word (pre ++ [32%Z]) p post Hi Hp) as X. rewrite len1 in X. eapply moved; [exact X|inputEq|wpEq|wpEq].
Qed.
Lemma reps_at input x k o t ns o' t' : reps input x k o t ns -> o = o' -> t = t' -> reps input x k o' t' ns.
Proof. intros H <- <-. auto. Qed.
Lemma rest_reps l : Forall itemOk l -> forall pre, reps (pre ++ restText l) (KRest "sequence" 0) (List.length l) (List.length pre) (List.length pre + List.length (restText l)) (restNodes (List.length pre) l).
Proof.
  induction 1 as [|p l Hp Hl IH]; intros pre.
  - cbn [List.length restNodes restText]. rewrite Nat.add_0_r. constructor.
  - cbn [List.length restNodes restText]. change (itemNode (S (List.length pre)) p :: ?x) with ([itemNode (S (List.length pre)) p] ++ x). rewrite (app_assoc [32%Z]).
    eapply reps_cons; [apply rest_step; [auto|apply rest_space]|natEq|].
    specialize (IH (pre ++ ([32%Z] ++ itemText p))). rewrite <- app_assoc in IH.
    replace (List.length (pre ++ [32%Z] ++ itemText p)) with (S (List.length pre) + List.length (itemText p)) in IH by natEq.
    eapply reps_at; [exact IH|natEq|natEq].
Qed.
Theorem seq_word pre p l : itemOk p -> Forall itemOk l ->
  gives (pre ++ seqText p l) (KDef "sequence") (List.length pre) (Match (List.length pre + List.length (seqText p l)) [seqNode (List.length pre) p l]).
Proof.
  intros Hp Hl. set (o := List.length pre). set (o1 := o + List.length (itemText p)). set (input := pre ++ seqText p l).
  assert (Hg : PG (KDef "sequence") = Some (GSeq (Some "sequence") false [(KDef "item", (1, Some 1)); (KRest "sequence" 0, (0, None))])) by (vm_compute; reflexivity).
  assert (E : input = (pre ++ itemText p) ++ restText l) by (unfold input, seqText; rewrite <- app_assoc; auto).
  assert (E1 : o1 = List.length (pre ++ itemText p)) by (rewrite app_length; auto).
  assert (E2 : o + List.length (seqText p l) = o1 + List.length (restText l)) by (unfold seqText, o1; rewrite app_length; lia).
  assert (Hr : Goes PG PK input [(KRest "sequence" 0, (0, None))] 0 o1 (after (restNodes o1 l) (Match (o + List.length (seqText p l)) []))).
  { eapply goes_star; [| |apply goes_nil|apply Nat.le_0_l].
    - rewrite E2, E, E1. apply rest_reps; auto.
    - rewrite E2, E, E1, <- (app_length (pre ++ itemText p)). rewrite <- (app_nil_r ((pre ++ itemText p) ++ restText l)) at 1.
      absRunKey ((pre ++ itemText p) ++ restText l) (@nil rune) (@nil (list rune)) (@nil (asym (A := key))) true noNodes 20 (KRest "sequence" 0). fitting. }
  pose proof (goes_gives PG PK input (KDef "sequence") _ _ o (after [itemNode o p] (after (restNodes o1 l) (Match (o + List.length (seqText p l)) []))) Hg) as H.
  cbn [after labelled app] in H. rewrite app_nil_r in H. apply H. rewrite <- (app_nil_r (restNodes o1 l)). change (Match ?t (?a :: ?b)) with (after [a] (Match t b)).
  eapply goes_last; [| |exact Hr].
  - unfold input, seqText. apply item_word; auto using rest_space.
  - unfold o1, itemText. rewrite app_length. pose proof (atom_nonempty _ (proj1 Hp)). destruct (atomText (pAtom p)); [congruence|]. simpl. lia.
Qed.
