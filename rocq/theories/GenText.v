(** The text that Generate writes reads as the function of GenWalk. *)
From Coq Require Import DecimalString DecimalZ Decimal.
From Verif Require Import Base Utf8 IdSet Results Parser Build Syntax ListFacts WsNames Utf8Facts Generate GoSpec GoRead GenWalk.
Local Open Scope string_scope.
Local Open Scope list_scope.
Local Infix "+++" := String.append (at level 60, right associativity).

(** ** lexing *)
Definition Lexes (b : bool) (s : string) (toks : list token) (b' : bool) : Prop :=
  forall rest, lex LIdle b (s +++ rest) = option_map (app toks) (lex LIdle b' rest).
Definition endsWord (s : string) : Prop := match s with String c _ => wordChar c = false | "" => False end.

Lemma omap_app {A} (a b : list A) o : option_map (app a) (option_map (app b) o) = option_map (app (a ++ b)) o.
Proof. destruct o; simpl; auto. rewrite app_assoc. auto. Qed.
Lemma omap_nil {A} (o : option (list A)) : option_map (app []) o = o.
Proof. destruct o; auto. Qed.
Lemma omap_cons {A} (a : A) o : option_map (cons a) o = option_map (app [a]) o.
Proof. destruct o; auto. Qed.
Lemma Lexes_nil b : Lexes b "" [] b.
Proof. intros rest. simpl. rewrite omap_nil. auto. Qed.
Lemma Lexes_app b1 b2 b3 s t l m : Lexes b1 s l b2 -> Lexes b2 t m b3 -> Lexes b1 (s +++ t) (l ++ m) b3.
Proof. intros H1 H2 rest. rewrite str_app_assoc, H1, H2. apply omap_app. Qed.
Lemma Lexes_const b1 b2 b3 s t l m : (forall rest, lex LIdle b1 (s +++ rest) = option_map (app l) (lex LIdle b2 rest)) -> Lexes b2 t m b3 ->
  Lexes b1 (s +++ t) (l ++ m) b3.
Proof. intros H1 H2. eapply Lexes_app; [exact H1|exact H2]. Qed.

Lemma lexWord c rest : wordChar c = false -> forall w acc b, forallb wordChar (list_ascii_of_string w) = true ->
  lex (LWord acc) b (w +++ String c rest) = option_map (cons (TWord (acc +++ w))) (lex LIdle true (String c rest)).
Proof.
  intros Hc. induction w as [|d w IH]; intros acc b H.
  - change ("" +++ String c rest) with (String c rest). assert (E : acc +++ "" = acc) by (clear; induction acc; simpl; congruence). rewrite E. simpl. rewrite Hc. auto.
  - simpl in H. apply andb_true_iff in H. destruct H as [Hd Hw]. change (String d w +++ String c rest) with (String d (w +++ String c rest)). cbn [lex]. rewrite Hd.
    rewrite IH by auto. do 2 f_equal. f_equal. rewrite str_app_assoc. auto.
Qed.
Lemma Lexes_word b b' w t m : w <> "" -> forallb wordChar (list_ascii_of_string w) = true -> endsWord t -> Lexes true t m b' ->
  Lexes b (w +++ t) (TWord w :: m) b'.
Proof.
  intros Hw Hc He Ht rest. rewrite str_app_assoc. destruct w as [|d w]; [congruence|]. destruct t as [|c t]; [destruct He|]. simpl in Hc. apply andb_true_iff in Hc. destruct Hc as [Hd Hc].
  change (String d w +++ (String c t +++ rest)) with (String d (w +++ String c (t +++ rest))). cbn [lex]. rewrite Hd.
  rewrite lexWord by auto. change (String d "" +++ w) with (String d w). rewrite omap_cons.
  change (String c (t +++ rest)) with (String c t +++ rest). rewrite Ht. rewrite omap_app. auto.
Qed.
Definition plainByte (c : ascii) : bool := negb (Ascii.eqb c chQuote || Ascii.eqb c chBackslash || Ascii.eqb c chNewline).
Lemma lexStr rest : forall w acc b, forallb plainByte (list_ascii_of_string w) = true -> sourceText (acc +++ w) = true ->
  lex (LStr acc) b (w +++ String chQuote rest) = option_map (cons (TStr (acc +++ w))) (lex LIdle true rest).
Proof.
  induction w as [|d w IH]; intros acc b H Hs.
  - change ("" +++ String chQuote rest) with (String chQuote rest). assert (E : acc +++ "" = acc) by (clear; induction acc; simpl; congruence). rewrite E in *. cbn [lex]. rewrite Ascii.eqb_refl, Hs. auto.
  - simpl in H. apply andb_true_iff in H. destruct H as [Hd Hw]. unfold plainByte in Hd. apply negb_true_iff in Hd. apply orb_false_iff in Hd. destruct Hd as [Hd H3]. apply orb_false_iff in Hd. destruct Hd as [H1 H2].
    change (String d w +++ String chQuote rest) with (String d (w +++ String chQuote rest)). cbn [lex]. rewrite H1, H2, H3. cbn [orb].
    assert (E : (acc +++ String d "") +++ w = acc +++ String d w) by (rewrite str_app_assoc; auto). rewrite IH; [rewrite E; auto|auto|rewrite E; auto].
Qed.
Lemma Lexes_str b b' w t m : forallb plainByte (list_ascii_of_string w) = true -> sourceText w = true -> Lexes true t m b' ->
  Lexes b (quote +++ w +++ quote +++ t) (TStr w :: m) b'.
Proof.
  intros Hw Hs Ht rest. unfold quote. change ((String (Ascii.ascii_of_nat 34) "" +++ w +++ String (Ascii.ascii_of_nat 34) "" +++ t) +++ rest) with (String chQuote ((w +++ String chQuote t) +++ rest)).
  rewrite str_app_assoc. change (String chQuote t +++ rest) with (String chQuote (t +++ rest)). cbn [lex].
  change (wordChar chQuote) with false. rewrite Ascii.eqb_refl. cbv beta iota. rewrite lexStr by auto. rewrite omap_cons, Ht, omap_app. auto.
Qed.

(** ** numbers *)
Lemma digit_word c : digit c = true -> wordChar c = true.
Proof. destruct c as [[] [] [] [] [] [] [] []]; vm_compute; auto. Qed.
Lemma digits_word s : forallb digit (list_ascii_of_string s) = true -> forallb wordChar (list_ascii_of_string s) = true.
Proof. rewrite !forallb_forall. intros H c Hc. apply digit_word; auto. Qed.
Lemma itoa_nonneg z : (0 <= z)%Z -> forallb wordChar (list_ascii_of_string (itoa z)) = true /\ itoa z <> "".
Proof.
  intros H. rewrite <- (Z2Nat.id z) by auto. fold (itoaNat (Z.to_nat z)). split; [apply digits_word, itoaNat_digits|].
  unfold itoaNat, itoa. rewrite Z2Nat.id by auto. intros E. apply (f_equal NilZero.int_of_string) in E. rewrite NilZero.isi in E by apply to_int_nonnil. discriminate.
Qed.
Lemma itoaNat_word k : forallb wordChar (list_ascii_of_string (itoaNat k)) = true /\ itoaNat k <> "".
Proof. apply itoa_nonneg. lia. Qed.
Definition zToks (z : Z) : list token := if (z <? 0)%Z then [TSym "-"; TWord (itoa (- z))] else [TWord (itoa z)].
Lemma Lexes_int b b' z t m : endsWord t -> Lexes true t m b' -> Lexes b (itoa z +++ t) (zToks z ++ m) b'.
Proof.
  intros He Ht. unfold zToks. destruct (Z.ltb_spec z 0).
  - assert (E : itoa z = String "-" (itoa (- z))) by (destruct z; try lia; reflexivity). rewrite E.
    destruct (itoa_nonneg (- z)) as [H1 H2]; [lia|].
    pose proof (Lexes_word false b' (itoa (- z)) t m H2 H1 He Ht) as L. intros rest. specialize (L rest).
    change ((String "-" (itoa (- z)) +++ t) +++ rest) with (String "-" ((itoa (- z) +++ t) +++ rest)). cbn [lex]. change (wordChar "-") with false. cbv iota.
    change (Ascii.eqb "-" chQuote) with false. change (Ascii.eqb "-" chNewline) with false. change (Ascii.eqb "-" " " || Ascii.eqb "-" chTab)%bool with false. cbv iota. change (closing "-") with false.
    rewrite L. rewrite omap_cons, omap_app. auto.
  - destruct (itoa_nonneg z) as [H1 H2]; [lia|]. apply Lexes_word; auto.
Qed.
Lemma readZ_itoa z : (0 <= z)%Z -> forall neg, readZ neg (itoa z) = Some (if neg then Z.opp z else z).
Proof.
  intros H neg. unfold readZ. unfold itoa at 1. rewrite NilZero.isi by apply to_int_nonnil. rewrite DecimalZ.of_to, String.eqb_refl. auto.
Qed.
Lemma readInt_toks z rest : readInt (zToks z ++ rest) = Some (z, rest).
Proof.
  unfold zToks. destruct (Z.ltb_spec z 0); cbn [app readInt].
  - rewrite readZ_itoa by lia. simpl. do 2 f_equal. lia.
  - rewrite readZ_itoa by lia. auto.
Qed.

(** ** tokens of the statements *)
Local Notation W := TWord.
Local Notation "'Y' c" := (TSym c%char) (at level 0, c at level 0).
Definition intsToks (l : list Z) : list token := flat_map (fun z => zToks z ++ [Y ","]) l ++ [Y "}"].
Definition pairsToks (l : list (Z * Z)) : list token :=
  flat_map (fun r => [Y "{"] ++ zToks (fst r) ++ [Y ","] ++ zToks (snd r) ++ [Y "}"; Y ","]) l ++ [Y "}"].
Definition fieldToks (f : field) : list token :=
  match f with
  | FName s => [W "name"; Y ":"; TStr s; Y ","]
  | FId k => [W "id"; Y ":"] ++ zToks (Z.of_nat k) ++ [Y ","]
  | FCommit c => [W "commit"; Y ":"] ++ zToks (Z.of_N c) ++ [Y ","]
  | FNot => [W "not"; Y ":"; W "true"; Y ","]
  | FAllChars => [W "allChars"; Y ":"; W "true"; Y ","]
  | FChars l => [W "chars"; Y ":"; Y "["; Y "]"; W "rune"; Y "{"] ++ intsToks l ++ [Y ","]
  | FRuneRanges l => [W "ranges"; Y ":"; Y "["; Y "]"; Y "["; Y "]"; W "rune"; Y "{"] ++ pairsToks l ++ [Y ","]
  | FIntRanges l => [W "ranges"; Y ":"; Y "["; Y "]"; Y "["; Y "]"; W "int"; Y "{"] ++ pairsToks l ++ [Y ","]
  | FGeneralizations l => [W "generalizations"; Y ":"; Y "["; Y "]"; W "int"; Y "{"] ++ intsToks (map Z.of_nat l) ++ [Y ","]
  end.
Definition vword (v : var) : string := vname (fst v) (snd v).
Definition typeName (t : gotype) : string :=
  match t with
  | TCharParser => "charParser" | TSequenceParser => "sequenceParser" | TChoiceParser => "choiceParser"
  | TCharBuilder => "charBuilder" | TSequenceBuilder => "sequenceBuilder" | TChoiceBuilder => "choiceBuilder"
  end.
Definition refsToks (l : list var) : list token := flat_map (fun v => [Y "&"; W (vword v); Y ","]) l ++ [Y "}"].
Definition stmtToks (s : stmt) : list token :=
  match s with
  | SVar v t fs => [W "var"; W (vword v); Y "="; W (typeName t); Y "{"] ++ flat_map fieldToks fs ++ [Y "}"; Y ";"]
  | SLink v items blds refs =>
    [W (vword v); Y "."; W (if items then "items" else "options"); Y "="; Y "["; Y "]"; W (if blds then "builder" else "parser"); Y "{"] ++
    refsToks refs ++ [Y ";"]
  end.
Definition tailToks (f : goFunc) : list token :=
  [W "var"; W "keywords"; Y "="; Y "["; Y "]"; W "parser"; Y "{"] ++ refsToks (fKeywords f) ++
  [Y ";"; W "return"; W "parseInput"; Y "("; W "r"; Y ","; Y "&"; W (vword (fRoot f)); Y ","; Y "&"; W (vword (fRootBuilder f)); Y ","; W "keywords"; Y ")"; Y ";"; Y "}"; Y ";"].
Definition funcToks (f : goFunc) : list token := flat_map stmtToks (fBody f) ++ tailToks f.

(** ** reading them *)
Lemma zToks_head z rest : exists t r, zToks z ++ rest = t :: r /\ t <> Y "}".
Proof. unfold zToks. destruct (z <? 0)%Z; simpl; eexists _, _; split; try reflexivity; discriminate. Qed.
Lemma readInts_toks l : forall n rest, List.length l < n -> readInts n (intsToks l ++ rest) = Some (l, rest).
Proof.
  unfold intsToks. induction l as [|z l IH]; intros [|n] rest Hn; simpl in Hn; try lia; auto.
  cbn [flat_map]. rewrite <- !app_assoc. cbn [readInts].
  assert (E : forall r, match zToks z ++ r with TSym "}" :: toks' => Some ([], toks') | _ => match readInt (zToks z ++ r) with Some (z, TSym "," :: toks') => option_map (fun r => (z :: fst r, snd r)) (readInts n toks') | _ => None end end
     = match readInt (zToks z ++ r) with Some (z, TSym "," :: toks') => option_map (fun r => (z :: fst r, snd r)) (readInts n toks') | _ => None end).
  { intros r. unfold zToks. destruct (z <? 0)%Z; reflexivity. }
  rewrite E, readInt_toks. cbn [app]. specialize (IH n rest). rewrite <- app_assoc in IH. cbn [app] in IH. rewrite IH by lia. auto.
Qed.
Lemma readPairs_toks l : forall n rest, List.length l < n -> readPairs n (pairsToks l ++ rest) = Some (l, rest).
Proof.
  unfold pairsToks. induction l as [|[x y] l IH]; intros [|n] rest Hn; simpl in Hn; try lia; auto.
  cbn [flat_map fst snd]. rewrite <- !app_assoc. cbn [app readPairs]. rewrite readInt_toks. cbn [app]. rewrite <- ?app_assoc, readInt_toks. cbn [app].
  specialize (IH n rest). rewrite <- app_assoc in IH. cbn [app] in IH. rewrite IH by lia. auto.
Qed.
Lemma readZ_nat k : readZ false (itoaNat k) = Some (Z.of_nat k).
Proof. unfold itoaNat. rewrite readZ_itoa by lia. auto. Qed.
Lemma readVar_word v : readVar (vword v) = Some v.
Proof.
  destruct v as [b i]. unfold vword, vname. cbn [fst snd].
  destruct b; cbn [String.append readVar]; rewrite readZ_nat; (destruct (Z.ltb_spec (Z.of_nat i) 0); [lia|]); cbn; rewrite Nat2Z.id; auto.
Qed.
Lemma readRefs_toks l : forall n rest, List.length l < n -> readRefs n (refsToks l ++ rest) = Some (l, rest).
Proof.
  unfold refsToks. induction l as [|v l IH]; intros [|n] rest Hn; simpl in Hn; try lia; auto.
  cbn [flat_map app readRefs]. rewrite readVar_word, IH by lia. auto.
Qed.
Lemma toNat_of k : toNat (Z.of_nat k) = Some k.
Proof. unfold toNat. destruct (Z.leb_spec 0 (Z.of_nat k)); [|lia]. rewrite Nat2Z.id. auto. Qed.
Lemma toNats_of l : toNats (map Z.of_nat l) = Some l.
Proof. induction l; auto. cbn [map toNats]. rewrite toNat_of, IHl. auto. Qed.
Definition fieldSize (f : field) : nat :=
  match f with FChars l => List.length l | FRuneRanges l => List.length l | FIntRanges l => List.length l | FGeneralizations l => List.length l | _ => 0 end.
Lemma readField_toks f n rest : fieldSize f < n -> readField n (fieldToks f ++ rest) = Some (f, rest).
Proof.
  intros Hn. destruct f as [s|k|c| | |l|l|l|l]; cbn [fieldToks fieldSize] in *; rewrite <- ?app_assoc; try reflexivity.
  - cbn [app readField String.eqb Ascii.eqb Bool.eqb]. rewrite readInt_toks, toNat_of. auto.
  - cbn [app readField String.eqb Ascii.eqb Bool.eqb]. rewrite readInt_toks. rewrite <- N_nat_Z, toNat_of, N_nat_Z, N2Z.id. auto.
  - cbn [app readField String.eqb Ascii.eqb Bool.eqb expect tokenEqb]. rewrite readInts_toks by auto. auto.
  - cbn [app readField String.eqb Ascii.eqb Bool.eqb expect tokenEqb]. rewrite readPairs_toks by auto. auto.
  - cbn [app readField String.eqb Ascii.eqb Bool.eqb expect tokenEqb]. rewrite readPairs_toks by auto. auto.
  - cbn [app readField String.eqb Ascii.eqb Bool.eqb expect tokenEqb]. rewrite readInts_toks by (rewrite map_length; auto). rewrite toNats_of. auto.
Qed.
Lemma fieldToks_word f rest : exists w r, fieldToks f ++ rest = W w :: r.
Proof. destruct f; simpl; eauto. Qed.
Lemma readFields_toks l : forall n rest, list_sum (map (fun f => S (fieldSize f)) l) < n -> readFields n (flat_map fieldToks l ++ [Y "}"] ++ rest) = Some (l, rest).
Proof.
  induction l as [|f l IH]; intros [|n] rest Hn; cbn [map list_sum fold_right] in Hn; try lia; auto.
  cbn [flat_map]. rewrite <- app_assoc. destruct (fieldToks_word f (flat_map fieldToks l ++ [Y "}"] ++ rest)) as (w & r & E).
  cbn [readFields]. rewrite E. rewrite <- E. rewrite readField_toks by lia. fold (list_sum (map (fun f => S (fieldSize f)) l)) in Hn. rewrite IH by lia. auto.
Qed.

Lemma flat_length {A B} (f : A -> list B) (g : A -> nat) l : (forall x, g x <= List.length (f x)) -> list_sum (map g l) <= List.length (flat_map f l).
Proof. intros H. induction l as [|x l IH]; simpl; auto. rewrite app_length. specialize (H x). change (fold_right Nat.add 0 (map g l)) with (list_sum (map g l)); lia. Qed.
Lemma sum_ones {A} (l : list A) : list_sum (map (fun _ => 1) l) = List.length l.
Proof. induction l; simpl; auto. Qed.
Lemma zToks_len z : 1 <= List.length (zToks z).
Proof. unfold zToks. destruct (z <? 0)%Z; simpl; lia. Qed.
Lemma ints_len l : List.length l <= List.length (intsToks l).
Proof.
  unfold intsToks. rewrite app_length, <- sum_ones. assert (H := flat_length (fun z => zToks z ++ [Y ","]) (fun _ => 1) l).
  etransitivity; [apply H|lia]. intros z. rewrite app_length. simpl. lia.
Qed.
Lemma pairs_len l : List.length l <= List.length (pairsToks l).
Proof.
  unfold pairsToks. rewrite app_length, <- sum_ones. assert (H := flat_length (fun r : Z * Z => [Y "{"] ++ zToks (fst r) ++ [Y ","] ++ zToks (snd r) ++ [Y "}"; Y ","]) (fun _ => 1) l).
  etransitivity; [apply H|lia]. intros z. simpl. lia.
Qed.
Lemma refs_len l : List.length l <= List.length (refsToks l).
Proof.
  unfold refsToks. rewrite app_length, <- sum_ones. assert (H := flat_length (fun v => [Y "&"; W (vword v); Y ","]) (fun _ => 1) l).
  etransitivity; [apply H|lia]. intros z. simpl. lia.
Qed.
Lemma fieldSize_len f : S (fieldSize f) <= List.length (fieldToks f).
Proof.
  unfold rune in *; destruct f as [s|k|c| | |l|l|l|l]; cbn [fieldToks fieldSize]; rewrite ?app_length; cbn [List.length]; try lia.
  - pose proof (ints_len l) as H; unfold rune in *. lia.
  - pose proof (pairs_len l) as H; unfold rune in *. lia.
  - pose proof (pairs_len l) as H; unfold rune in *. lia.
  - pose proof (ints_len (map Z.of_nat l)) as H. rewrite map_length in H. lia.
Qed.
Lemma fields_len l : list_sum (map (fun f => S (fieldSize f)) l) <= List.length (flat_map fieldToks l).
Proof. apply flat_length. apply fieldSize_len. Qed.

Lemma readType_name t : readType (typeName t) = Some t.
Proof. destruct t; reflexivity. Qed.
Lemma vword_not_var v : exists c s, vword v = String c s /\ c <> "v"%char /\ c <> "k"%char.
Proof. destruct v as [[] i]; unfold vword, vname; simpl; eexists _, _; split; try reflexivity; split; discriminate. Qed.
Lemma readStmt_toks st n rest : List.length (stmtToks st) < n -> readStmt n (stmtToks st ++ rest) = Some (st, rest).
Proof.
  intros Hn. destruct st as [v t fs|v items blds refs]; cbn [stmtToks] in *; rewrite <- !app_assoc.
  - cbn [app]. change (Y "}" :: Y ";" :: rest) with ([Y "}"] ++ (Y ";" :: rest)).
    assert (Hl := fields_len fs). rewrite !app_length in Hn.
    unfold readStmt. rewrite readVar_word, readType_name, readFields_toks by lia. auto.
  - assert (Hl := refs_len refs). rewrite !app_length in Hn. pose proof (readVar_word v) as HV. cbn [app]. unfold readStmt.
    rewrite readRefs_toks by lia. rewrite HV. destruct items, blds; reflexivity.
Qed.

Lemma tokenEqb_refl t : tokenEqb t t = true.
Proof. destruct t; simpl; [apply String.eqb_refl|apply String.eqb_refl|apply Ascii.eqb_refl]. Qed.
Lemma expect_self l r : expect l (l ++ r) = Some r.
Proof. induction l; simpl; auto. rewrite tokenEqb_refl. auto. Qed.
Lemma readTail_toks f n : List.length (refsToks (fKeywords f)) < n -> readTail n (tailToks f) = Some (fKeywords f, fRoot f, fRootBuilder f).
Proof.
  intros Hn. pose proof (refs_len (fKeywords f)). unfold readTail, tailToks.
  rewrite expect_self, readRefs_toks by lia.
  match goal with |- context [expect ?l (?m ++ [])] => idtac | |- context [expect ?l ?m] => change m with (l ++ [W (vword (fRoot f)); Y ","; Y "&"; W (vword (fRootBuilder f)); Y ","; W "keywords"; Y ")"; Y ";"; Y "}"; Y ";"]) end.
  rewrite expect_self, !readVar_word. auto.
Qed.
Lemma readTail_stmt st n rest : readTail n (stmtToks st ++ rest) = None.
Proof.
  unfold readTail. destruct st as [v t fs|v items blds refs]; cbn [stmtToks app expect tokenEqb]; destruct (vword_not_var v) as (c & s & E & H1 & H2); rewrite E.
  - rewrite String.eqb_refl. cbn [String.eqb]. destruct (Ascii.eqb_spec "k" c); [congruence|]. auto.
  - cbn [String.eqb]. destruct (Ascii.eqb_spec "v" c); [congruence|]. auto.
Qed.
Lemma readBody_toks f : forall n, List.length (funcToks f) < n -> readBody n (funcToks f) = Some f.
Proof.
  destruct f as [body kws r rb]. unfold funcToks. cbn [fBody]. induction body as [|st body IH]; intros [|n] Hn; try lia.
  - cbn [flat_map app readBody]. change (mkGoFunc [] kws r rb) with (mkGoFunc [] (fKeywords (mkGoFunc [] kws r rb)) r rb). cbn [flat_map app] in Hn.
    rewrite readTail_toks; auto. unfold tailToks in Hn. rewrite !app_length in Hn. simpl in Hn. simpl. lia.
  - cbn [flat_map]. rewrite <- app_assoc. cbn [flat_map] in Hn. rewrite !app_length in Hn. cbn [readBody]. rewrite readTail_stmt.
    assert (1 <= List.length (stmtToks st)) by (destruct st; simpl; lia).
    assert (forall g, 1 <= List.length (tailToks g)) as Ht by (intros; unfold tailToks; rewrite !app_length; simpl; lia). specialize (Ht (mkGoFunc (st :: body) kws r rb)).
    rewrite readStmt_toks by lia. change (tailToks (mkGoFunc (st :: body) kws r rb)) with (tailToks (mkGoFunc body kws r rb)). rewrite IH; auto.
    rewrite app_length. change (tailToks (mkGoFunc (st :: body) kws r rb)) with (tailToks (mkGoFunc body kws r rb)) in Hn. lia.
Qed.
Theorem readFunc_toks text f : lex LIdle false text = Some (funcToks f) -> readFunc text = Some f.
Proof. intros H. unfold readFunc. rewrite H. apply readBody_toks. lia. Qed.

(** ** writing them *)
Definition join (l : list string) : string := fold_right String.append "" l.
Lemma join_app l m : join (l ++ m) = join l +++ join m.
Proof. induction l; simpl; auto. rewrite IHl, str_app_assoc. auto. Qed.
Definition Writes (l : list string) (toks : list token) : Prop := Lexes false (join l) toks false.
Lemma Writes_nil : Writes [] [].
Proof. apply Lexes_nil. Qed.
Lemma Writes_app l m t u : Writes l t -> Writes m u -> Writes (l ++ m) (t ++ u).
Proof. intros H1 H2. unfold Writes. rewrite join_app. eapply Lexes_app; eauto. Qed.
Lemma Writes_one s t : Lexes false s t false -> Writes [s] t.
Proof. intros H. unfold Writes. simpl. rewrite <- (app_nil_r t). eapply Lexes_app; [exact H|apply Lexes_nil]. Qed.
Lemma Writes_cons s l t u : Lexes false s t false -> Writes l u -> Writes (s :: l) (t ++ u).
Proof. intros H1 H2. unfold Writes. simpl. eapply Lexes_app; eauto. Qed.
Lemma Writes_map {A} (f : A -> string) (g : A -> list token) l : (forall x, Lexes false (f x) (g x) false) -> Writes (map f l) (flat_map g l).
Proof. intros H. induction l; simpl; [apply Writes_nil|]. apply Writes_cons; auto. Qed.
Lemma Writes_flat {A} (f : A -> list string) (g : A -> list token) l : (forall x, In x l -> Writes (f x) (g x)) -> Writes (flat_map f l) (flat_map g l).
Proof. intros H. induction l; simpl; [apply Writes_nil|]. apply Writes_app; [apply H; left; auto|apply IHl; intros; apply H; right; auto]. Qed.

Lemma Lexes_nat b b' k t m : endsWord t -> Lexes true t m b' -> Lexes b (itoaNat k +++ t) (zToks (Z.of_nat k) ++ m) b'.
Proof. intros. apply Lexes_int; auto. Qed.
Lemma Lexes_var b b' v t m : endsWord t -> Lexes true t m b' -> Lexes b (vname (fst v) (snd v) +++ t) (W (vword v) :: m) b'.
Proof.
  intros He Ht. apply Lexes_word; auto; unfold vword, vname.
  - destruct (fst v); discriminate.
  - rewrite list_ascii_app, forallb_app. rewrite (proj1 (itoaNat_word (snd v))). destruct (fst v); auto.
Qed.
Ltac lconst := let r := fresh in intros r; cbn; destruct (lex _ _ r); reflexivity.
Definition nameOk (s : string) : Prop := forallb plainByte (list_ascii_of_string s) = true /\ sourceText s = true.

Lemma write_id k : Lexes false ("id: " +++ itoaNat k +++ ",") (fieldToks (FId k)) false.
Proof. cbn [fieldToks]. eapply (Lexes_const false false); [lconst|]. apply Lexes_nat; [reflexivity|lconst]. Qed.
Lemma write_idCommit k c : Lexes false ("id: " +++ itoaNat k +++ ", commit: " +++ commitText c +++ ",") (fieldToks (FId k) ++ fieldToks (FCommit c)) false.
Proof.
  cbn [fieldToks]. rewrite <- !app_assoc. eapply (Lexes_const false false); [lconst|]. apply Lexes_nat; [reflexivity|].
  change ([Y ","] ++ [W "commit"; Y ":"] ++ zToks (Z.of_N c) ++ [Y ","]) with ([Y ","; W "commit"; Y ":"] ++ zToks (Z.of_N c) ++ [Y ","]).
  eapply (Lexes_const true false false ", commit: "); [lconst|]. apply Lexes_int; [reflexivity|lconst].
Qed.
Lemma write_name b n c : (writesName b c = true -> nameOk n) -> Writes (namePieces b n c) (flat_map fieldToks (nameField b n c)).
Proof.
  intros H. unfold namePieces, nameField. destruct (writesName b c); [|apply Writes_nil]. destruct (H eq_refl) as [H1 H2]. apply Writes_one.
  change (flat_map fieldToks [FName n]) with ([W "name"; Y ":"] ++ TStr n :: [Y ","]). eapply (Lexes_const false false); [lconst|]. apply Lexes_str; auto. lconst.
Qed.
Lemma write_flag (b : bool) s f : Lexes false s (fieldToks f) false -> Writes (if b then [s] else []) (flat_map fieldToks (flagField b f)).
Proof. intros H. destruct b; simpl; [|apply Writes_nil]. rewrite app_nil_r. apply Writes_one; auto. Qed.
Lemma write_pair r : Lexes false ("{" +++ itoa (fst r) +++ ", " +++ itoa (snd r) +++ "},") ([Y "{"] ++ zToks (fst r) ++ [Y ","] ++ zToks (snd r) ++ [Y "}"; Y ","]) false.
Proof.
  eapply (Lexes_const false false); [lconst|]. apply Lexes_int; [reflexivity|]. eapply (Lexes_const true false false ", "); [lconst|]. apply Lexes_int; [reflexivity|lconst].
Qed.
Lemma write_int z : Lexes false (itoa z +++ ",") (zToks z ++ [Y ","]) false.
Proof. apply Lexes_int; [reflexivity|lconst]. Qed.
Lemma write_close : Writes ["},"] [Y "}"; Y ","].
Proof. apply Writes_one. lconst. Qed.
Lemma write_ints hd s l : Lexes false s hd false -> Writes (s :: map (fun z => itoa z +++ ",") l ++ ["},"]) (hd ++ intsToks l ++ [Y ","]).
Proof.
  intros H. apply Writes_cons; auto. unfold intsToks. rewrite <- app_assoc. apply Writes_app; [|exact write_close]. apply Writes_map. apply write_int.
Qed.
Lemma write_pairs hd s l : Lexes false s hd false ->
  Writes (s :: map (fun r => "{" +++ itoa (fst r) +++ ", " +++ itoa (snd r) +++ "},") l ++ ["},"]) (hd ++ pairsToks l ++ [Y ","]).
Proof.
  intros H. apply Writes_cons; auto. unfold pairsToks. rewrite <- app_assoc. apply Writes_app; [|exact write_close]. apply Writes_map. apply write_pair.
Qed.
Lemma write_ranges l : Writes (rangePieces l) (flat_map fieldToks (listField FIntRanges l)).
Proof.
  destruct l as [|r l]; [apply Writes_nil|]. unfold rangePieces, listField. cbn [flat_map fieldToks]. rewrite app_nil_r. apply write_pairs. lconst.
Qed.
Lemma write_generalizations l : Writes (generalizationPieces l) (flat_map fieldToks (listField FGeneralizations l)).
Proof.
  destruct l as [|r l]; [apply Writes_nil|]. unfold generalizationPieces, listField. cbn [flat_map fieldToks]. rewrite app_nil_r.
  assert (E : map (fun g => itoaNat g +++ ",") (r :: l) = map (fun z => itoa z +++ ",") (map Z.of_nat (r :: l))) by (rewrite map_map; auto). rewrite E.
  apply write_ints. lconst.
Qed.
Lemma write_end : Writes ["};"] [Y "}"; Y ";"].
Proof. apply Writes_one. lconst. Qed.
Lemma write_open v t : Lexes false ("var " +++ vname (fst v) (snd v) +++ (" = " +++ (typeName t +++ "{"))) [W "var"; W (vword v); Y "="; W (typeName t); Y "{"] false.
Proof.
  change [W "var"; W (vword v); Y "="; W (typeName t); Y "{"] with ([W "var"] ++ W (vword v) :: [Y "="; W (typeName t); Y "{"]).
  eapply (Lexes_const false true); [lconst|]. apply Lexes_var; [reflexivity|]. destruct t; lconst.
Qed.

(** the names that a declaration writes *)
Definition nameOf (b : bool) (o : pobj) : Prop :=
  match o with PChar _ _ _ _ _ => True | _ => writesName b (commitTypeOf o) = true -> nameOk (nodeName o) end.
Lemma write_decl b o : nameOf b o -> Writes (declPieces b o) (stmtToks (declare b o)).
Proof.
  intros Hn. unfold declare. cbn [stmtToks]. destruct o as [n i x cs rs|n i c it rs gs ac|n i c os gs]; cbn [declPieces typeOf fieldsOf nodeID nameOf commitTypeOf nodeName] in *.
  - destruct b.
    + apply Writes_one. change [W "var"; W (vword (true, i)); Y "="; W (typeName TCharBuilder); Y "{"] with ([W "var"] ++ W (vword (true, i)) :: [Y "="; W (typeName TCharBuilder); Y "{"]).
      rewrite <- app_assoc. eapply (Lexes_const false true); [lconst|]. apply (Lexes_var _ _ (true, i)); [reflexivity|lconst].
    + apply Writes_cons; [exact (write_open (false, i) TCharParser)|]. cbn [flat_map]. rewrite <- app_assoc. apply Writes_cons; [apply write_id|].
      rewrite !flat_map_app, <- !app_assoc. apply Writes_app; [apply write_flag; lconst|]. apply Writes_app; [|apply Writes_app; [|apply write_end]].
      * destruct cs as [|z cs]; [apply Writes_nil|]. unfold listField. cbn [flat_map fieldToks]. rewrite app_nil_r. apply write_ints. lconst.
      * destruct rs as [|z rs]; [apply Writes_nil|]. unfold listField. cbn [flat_map fieldToks]. rewrite app_nil_r. apply write_pairs. lconst.
  - apply Writes_cons. { destruct b; [exact (write_open (true, i) TSequenceBuilder)|exact (write_open (false, i) TSequenceParser)]. }
    cbn [flat_map]. rewrite !flat_map_app, <- !app_assoc. rewrite (app_assoc (fieldToks (FId i))). apply Writes_cons; [apply write_idCommit|].
    apply Writes_app; [apply write_name; auto|]. apply Writes_app; [apply write_flag; lconst|]. apply Writes_app; [apply write_ranges|]. apply Writes_app; [apply write_generalizations|apply write_end].
  - apply Writes_cons. { destruct b; [exact (write_open (true, i) TChoiceBuilder)|exact (write_open (false, i) TChoiceParser)]. }
    cbn [flat_map]. rewrite !flat_map_app, <- !app_assoc. rewrite (app_assoc (fieldToks (FId i))). apply Writes_cons; [apply write_idCommit|].
    apply Writes_app; [apply write_name; auto|]. apply Writes_app; [apply write_generalizations|apply write_end].
Qed.
Lemma write_link b i sq ks : Writes (linkPieces b i sq ks) (stmtToks (SLink (b, i) sq b (map (pair b) ks))).
Proof.
  unfold linkPieces. cbn [stmtToks]. apply Writes_cons.
  - apply (Lexes_var _ _ (b, i)); [reflexivity|]. destruct sq, b; lconst.
  - unfold refsToks. rewrite <- app_assoc. apply Writes_app; [|apply write_end].
    induction ks as [|k ks IH]; [apply Writes_nil|]. cbn [map flat_map]. apply Writes_cons; auto.
    change [Y "&"; W (vword (b, k)); Y ","] with ([Y "&"] ++ W (vword (b, k)) :: [Y ","]). eapply (Lexes_const false false); [lconst|]. apply (Lexes_var _ _ (b, k)); [reflexivity|lconst].
Qed.
