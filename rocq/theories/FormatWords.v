(** Printed literals, symbols and numbers, read as syntax. *)
From Verif Require Import Base Utf8 Utf8Facts Parser Build Syntax Escape Grammar RefSpec RefFuel RefApi RefCheck LeftCheck ReadSpec SelfGrammar SelfLang ReadLang Format AbsEval AbsText FormatClass.
Local Open Scope string_scope.
Local Open Scope list_scope.
Local Open Scope nat_scope.

Notation reps := (Reps PG PK).
(** the offset behind some text *)
Lemma len1 pre (r : rune) : List.length (pre ++ [r]) = S (List.length pre).
Proof. rewrite app_length. simpl. lia. Qed.

(** ** literals *)
Definition quoteFree (cs : list rune) : Prop := ~ In 34%Z cs.
Definition seqCharNode (o : nat) (c : rune) : node := Node "sequence-char" o (o + List.length (esc1 c)) [].
Fixpoint seqCharNodes (o : nat) (cs : list rune) : list node :=
  match cs with [] => [] | c :: cs' => seqCharNode o c :: seqCharNodes (o + List.length (esc1 c)) cs' end.
Lemma sequence_char pre c post : c <> 34%Z -> gives (pre ++ esc1 c ++ post) (KDef "sequence-char") (List.length pre) (here pre (esc1 c) "sequence-char").
Proof.
  intros Hq. destruct (esc1_form c) as [Hc|x Hx _].
  - assert (Hc' : ~ In c (34%Z :: charClassBanned)) by (cbn [In]; intuition).
    absRun pre post [[c]] [rs (notIn (34%Z :: charClassBanned))] false noNodes 10 "sequence-char". fitting.
  - absRun pre post [[92%Z]; [x]] [runeSym 92%Z; rs (notIn [])] false noNodes 10 "sequence-char". fitting.
Qed.
Lemma seqChars_reps cs : quoteFree cs -> forall pre post, reps (pre ++ esc cs ++ post) (KDef "sequence-char") (List.length cs)
  (List.length pre) (List.length pre + List.length (esc cs)) (seqCharNodes (List.length pre) cs).
Proof.
  intros Hq. induction cs as [|c cs IH]; intros pre post.
  - cbn [List.length seqCharNodes esc escape]. rewrite Nat.add_0_r. constructor.
  - assert (Hc : c <> 34%Z) by (intros ->; apply Hq; left; auto). assert (Hq' : quoteFree cs) by (intros H; apply Hq; right; auto). specialize (IH Hq').
    rewrite esc_cons. cbn [List.length seqCharNodes]. change (seqCharNode (List.length pre) c :: ?x) with ([seqCharNode (List.length pre) c] ++ x).
    eapply reps_cons.
    + rewrite <- app_assoc. apply sequence_char; auto.
    + pose proof (esc1_nonempty c). lia.
    + specialize (IH (pre ++ esc1 c) post). rewrite app_length, <- app_assoc in IH. rewrite <- app_assoc, (app_length (esc1 c)), Nat.add_assoc. exact IH.
Qed.
Definition literalText (cs : list rune) : list rune := [34%Z] ++ esc cs ++ [34%Z].
Definition literalNode (o : nat) (cs : list rune) : node := Node "char-sequence" o (o + List.length (literalText cs)) (seqCharNodes (S o) cs).
Theorem literal_word pre cs post : quoteFree cs -> gives (pre ++ literalText cs ++ post) (KDef "char-sequence") (List.length pre)
  (Match (List.length pre + List.length (literalText cs)) [literalNode (List.length pre) cs]).
Proof.
  intros Hq. set (input := pre ++ literalText cs ++ post). set (o := List.length pre).
  assert (Hg : PG (KDef "char-sequence") = Some (GSeq (Some "char-sequence") false [(KDef "char-sequence:0", (1, Some 1)); (KDef "sequence-char", (0, None)); (KDef "char-sequence:2", (1, Some 1))])) by (vm_compute; reflexivity).
  set (o2 := S o + List.length (esc cs)).
  assert (E : input = ((pre ++ [34%Z]) ++ esc cs) ++ 34%Z :: post) by (unfold input, literalText; rewrite <- !app_assoc; auto).
  assert (Eo : o2 = List.length ((pre ++ [34%Z]) ++ esc cs)) by (rewrite app_length, len1; reflexivity).
  assert (Hend : Goes PG PK input [(KDef "char-sequence:2", (1, Some 1))] 0 o2 (Match (S o2) [])).
  { change (Match (S o2) []) with (after [] (Match (S o2) [])). eapply goes_last; [| |apply goes_nil]; [|lia].
    rewrite E, Eo. absRun ((pre ++ [34%Z]) ++ esc cs) post [[34%Z]] [runeSym 34%Z] false noNodes 10 "char-sequence:2". fitting. }
  assert (Hels : Goes PG PK input [(KDef "sequence-char", (0, None)); (KDef "char-sequence:2", (1, Some 1))] 0 (S o) (after (seqCharNodes (S o) cs) (Match (S o2) []))).
  { eapply goes_star; [| |exact Hend|apply Nat.le_0_l].
    - unfold o2, o. rewrite <- (len1 pre 34%Z), E, <- app_assoc. apply seqChars_reps; auto.
    - rewrite E, Eo. absRun ((pre ++ [34%Z]) ++ esc cs) post [[34%Z]] [runeSym 34%Z] false noNodes 10 "sequence-char". fitting. }
  assert (E2 : S o2 = o + List.length (literalText cs)) by (unfold o2, literalText; rewrite !app_length; unfold rune; simpl; lia).
  pose proof (goes_gives PG PK input (KDef "char-sequence") _ _ o (after [] (after (seqCharNodes (S o) cs) (Match (S o2) []))) Hg) as H.
  assert (HG : Goes PG PK input [(KDef "char-sequence:0", (1, Some 1)); (KDef "sequence-char", (0, None)); (KDef "char-sequence:2", (1, Some 1))] 0 o (after [] (after (seqCharNodes (S o) cs) (Match (S o2) [])))).
  { eapply (goes_last PG PK input (KDef "char-sequence:0") 1 _ 0 o (S o) []); [|lia|exact Hels].
    unfold input, literalText, o. absRun pre (esc cs ++ [34%Z] ++ post) [[34%Z]] [runeSym 34%Z] false noNodes 10 "char-sequence:0". fitting. }
  specialize (H HG). cbn [after app labelled] in H. rewrite app_nil_r, E2 in H. exact H.
Qed.

(** ** symbols and numbers: words of one class *)
Lemma word_reps k (Q : rune -> Prop) w : (forall pre c post, Q c -> gives (pre ++ [c] ++ post) (KDef k) (List.length pre) (Match (S (List.length pre)) [])) ->
  Forall Q w -> forall pre post, reps (pre ++ w ++ post) (KDef k) (List.length w) (List.length pre) (List.length pre + List.length w) [].
Proof.
  intros HQ Hw. induction Hw as [|c w Hc Hw IH]; intros pre post.
  - cbn [List.length app]. rewrite Nat.add_0_r. constructor.
  - change (@nil node) with (@nil node ++ []). eapply reps_cons; [apply HQ; exact Hc|lia|].
    specialize (IH (pre ++ [c]) post). rewrite len1, <- app_assoc in IH. cbn [List.length app] in *. rewrite <- Nat.add_succ_comm. exact IH.
Qed.
Lemma word_gives name label k (Q : rune -> Prop) w pre post : PG (KDef name) = Some (GSeq label false [(KDef k, (1, None))]) ->
  (forall pre c post, Q c -> gives (pre ++ [c] ++ post) (KDef k) (List.length pre) (Match (S (List.length pre)) [])) ->
  Forall Q w -> w <> [] -> gives (pre ++ w ++ post) (KDef k) (List.length pre + List.length w) NoMatch ->
  gives (pre ++ w ++ post) (KDef name) (List.length pre) (labelled label (List.length pre) (Match (List.length pre + List.length w) [])).
Proof.
  intros Hg HQ Hw Hne Hno. eapply goes_gives; [exact Hg|]. change (Match (List.length pre + List.length w) []) with (after [] (Match (List.length pre + List.length w) [])).
  eapply goes_star; [apply (word_reps k Q w HQ Hw)|exact Hno|apply goes_nil|]. destruct w; [congruence|]. simpl. lia.
Qed.

(** a rune of the given kind, or none at all, behind a word *)
Definition behind (P : rune -> Prop) (post : list rune) : Prop := match post with [] => True | r :: _ => P r end.

Definition symbolRune (r : rune) : Prop := ~ In r symbolChars.
Lemma symbol_rune pre c post : symbolRune c -> gives (pre ++ [c] ++ post) (KDef "symbol:0") (List.length pre) (Match (S (List.length pre)) []).
Proof. intros Hc. absRun pre post [[c]] [rs (notIn symbolChars)] false noNodes 10 "symbol:0". fitting. Qed.
(** the runes that no symbol goes on with *)
Lemma symbol_stop pre r post : In r symbolChars -> gives (pre ++ r :: post) (KDef "symbol:0") (List.length pre) NoMatch.
Proof.
  unfold symbolChars. intros H. cbn [In] in H.
  repeat (destruct H as [H|H]; [subst r; match goal with |- gives (_ ++ ?x :: _) _ _ _ => absRun pre post [[x]] [runeSym x] false noNodes 10 "symbol:0" end; fitting|]). destruct H.
Qed.
Lemma symbol_over pre : gives (pre ++ []) (KDef "symbol:0") (List.length pre) NoMatch.
Proof. absRun pre (@nil rune) (@nil (list rune)) (@nil (asym (A := key))) true noNodes 10 "symbol:0". fitting. Qed.
Definition symbolNode (o : nat) (w : list rune) : node := Node "symbol" o (o + List.length w) [].
Theorem symbol_word pre w post : Forall symbolRune w -> w <> [] -> behind (fun r => In r symbolChars) post ->
  gives (pre ++ w ++ post) (KDef "symbol") (List.length pre) (Match (List.length pre + List.length w) [symbolNode (List.length pre) w]).
Proof.
  intros Hw Hne Hp. apply (word_gives "symbol" (Some "symbol") "symbol:0" symbolRune); [vm_compute; reflexivity|exact symbol_rune|auto|auto|].
  rewrite app_assoc, <- app_length. destruct post as [|r post]; [apply symbol_over|apply symbol_stop; auto].
Qed.

Definition digit (r : rune) : Prop := (48 <= r <= 57)%Z.
Lemma digit_cases r : digit r -> In r [48; 49; 50; 51; 52; 53; 54; 55; 56; 57]%Z.
Proof. unfold digit. cbn [In]. lia. Qed.
Lemma number_rune pre c post : digit c -> gives (pre ++ [c] ++ post) (KDef "number:0") (List.length pre) (Match (S (List.length pre)) []).
Proof.
  intros Hc. apply digit_cases in Hc. cbn [In] in Hc.
  repeat (destruct Hc as [Hc|Hc]; [subst c; match goal with |- gives (_ ++ [?x] ++ _) _ _ _ => absRun pre post [[x]] [runeSym x] false noNodes 10 "number:0" end; fitting|]). destruct Hc.
Qed.
Lemma number_stop pre r post : In r [44; 125]%Z -> gives (pre ++ r :: post) (KDef "number:0") (List.length pre) NoMatch.
Proof.
  intros H. cbn [In] in H.
  repeat (destruct H as [H|H]; [subst r; match goal with |- gives (_ ++ ?x :: _) _ _ _ => absRun pre post [[x]] [runeSym x] false noNodes 10 "number:0" end; fitting|]). destruct H.
Qed.
Theorem number_word pre w r post : Forall digit w -> w <> [] -> In r [44; 125]%Z ->
  gives (pre ++ w ++ r :: post) (KDef "number") (List.length pre) (Match (List.length pre + List.length w) []).
Proof.
  intros Hw Hne Hp. apply (word_gives "number" None "number:0" digit); [vm_compute; reflexivity|exact number_rune|auto|auto|].
  rewrite app_assoc, <- app_length. apply number_stop; auto.
Qed.
