(** Printed character classes and literals, read as syntax. *)
From Verif Require Import Base Utf8 Utf8Facts Parser Build Syntax Escape Grammar RefSpec RefFuel RefApi RefCheck LeftCheck ReadSpec SelfGrammar SelfLang ReadLang Format AbsEval AbsText.
Local Open Scope string_scope.
Local Open Scope list_scope.
Local Open Scope nat_scope.

Notation PG := (graphOf published).
Notation PK := (keywordTexts published).
Notation gives := (Gives PG PK).
Definition runeSym (r : rune) : asym (A := key) := ARune (exactly r).
Definition unknown : tests := fun _ _ _ => None.

Lemma published_labels : forall a, match PG a with
  | Some (GSeq (Some l) _ _) | Some (GChoice (Some l) _) => String.eqb l "?" = false
  | _ => True end.
Proof.
  assert (HB : forall n, match bodyOf published n with
    | Some (GSeq (Some l) _ _) | Some (GChoice (Some l) _) => String.eqb l "?" = false
    | _ => True end).
  { intros n. destruct (String.eqb n "?") eqn:E; [apply String.eqb_eq in E; subst; vm_compute; auto|].
    unfold bodyOf. destruct (grammarOf published n) as [[cn ch rs|ct items|ct options]|]; auto; unfold labelOf; destruct (_ || _)%bool; auto. }
  intros [n|n| |n i|n i]; unfold graphOf.
  - destruct (spacing published && isRootName published n)%bool eqn:E; [|apply HB]. apply andb_true_iff in E. destruct E as [_ E].
    destruct (String.eqb n "?") eqn:E'; auto. apply String.eqb_eq in E'. subst. vm_compute in E. discriminate.
  - apply HB.
  - auto.
  - destruct (itemOf published n i); simpl; auto.
  - destruct (itemOf published n i); simpl; auto.
Qed.
Lemma key_ok a b : key_eq a b = true -> a = b.
Proof. apply key_eq_ok. Qed.
Lemma fits_exactly r : fits (runeSym r) [r].
Proof. split; [|reflexivity]. intros cn ch rs b H. inversion H; auto. Qed.

(** ** words of a text *)
Definition nodesAt (nss : list (list (list node))) (i j : nat) : list node := nth j (nth i nss []) [].
(** what is known about the words of a text holds in it *)
Definition knownWords (pre post : list rune) (ws : list (list rune)) (text : list (asym (A := key))) (nss : list (list (list node))) : Prop :=
  forall i ks t j k m, nth_error text i = Some (AWord ks t) -> nth_error ks j = Some (k, m) ->
  gives (winput pre post ws) k (wpos pre ws i) (match m with Some m => Match (wpos pre ws (i + m)) (nodesAt nss i j) | None => NoMatch end).
Lemma run pre post ws text closed nss n a i r : Forall2 fits text ws -> knownWords pre post ws text nss -> (closed = true -> post = []) ->
  aeval PG key_eq text closed n a i = r -> r <> Unfinished -> gives (winput pre post ws) a (wpos pre ws i) (fillOut (wpos pre ws) (nodesAt nss) r).
Proof. intros H1 H2 H3. apply (laid_gives PG PK key_eq key_ok published_labels pre post ws text closed (nodesAt nss)); auto. Qed.
Lemma runesKnown pre post ws l nss : (forall s, In s l -> exists t, s = ARune t) -> knownWords pre post ws l nss.
Proof. intros H i ks t j k m Hi. apply nth_error_In in Hi. destruct (H _ Hi) as (t' & E). discriminate. Qed.

(** the facts one by one *)
Fixpoint keyFacts (P : nat -> key -> option nat -> Prop) (j : nat) (ks : list (key * option nat)) : Prop :=
  match ks with [] => True | (k, m) :: ks' => P j k m /\ keyFacts P (S j) ks' end.
Fixpoint wordFacts (P : nat -> nat -> key -> option nat -> Prop) (i : nat) (text : list (asym (A := key))) : Prop :=
  match text with
  | [] => True
  | ARune _ :: text' => wordFacts P (S i) text'
  | AWord ks _ :: text' => keyFacts (P i) 0 ks /\ wordFacts P (S i) text'
  end.
Lemma keyFacts_nth P ks : forall j0 j k m, keyFacts P j0 ks -> nth_error ks j = Some (k, m) -> P (j0 + j) k m.
Proof.
  induction ks as [|[k0 m0] ks IH]; intros j0 j k m H Hj; [destruct j; discriminate|]. destruct H as [H1 H2]. destruct j as [|j]; simpl in Hj.
  - inversion Hj; subst. rewrite Nat.add_0_r. auto.
  - replace (j0 + S j) with (S j0 + j) by lia. eapply IH; eauto.
Qed.
Lemma wordFacts_nth P text : forall i0 i ks t j k m, wordFacts P i0 text -> nth_error text i = Some (AWord ks t) -> nth_error ks j = Some (k, m) -> P (i0 + i) j k m.
Proof.
  induction text as [|[t0|ks0 t0] text IH]; intros i0 i ks t j k m H Hi Hj; [destruct i; discriminate| |].
  - destruct i as [|i]; simpl in Hi; [discriminate|]. replace (i0 + S i) with (S i0 + i) by lia. eapply IH; eauto.
  - destruct H as [H1 H2]. destruct i as [|i]; simpl in Hi.
    + inversion Hi; subst. rewrite Nat.add_0_r. eapply (keyFacts_nth (P i0) ks 0); eauto.
    + replace (i0 + S i) with (S i0 + i) by lia. eapply IH; eauto.
Qed.
Lemma known_all pre post ws text nss :
  wordFacts (fun i j k m => gives (winput pre post ws) k (wpos pre ws i) (match m with Some m => Match (wpos pre ws (i + m)) (nodesAt nss i j) | None => NoMatch end)) 0 text ->
  knownWords pre post ws text nss.
Proof. intros H i ks t j k m Hi Hj. exact (wordFacts_nth _ text 0 i ks t j k m H Hi Hj). Qed.

(** the text of a node *)
Lemma textOf_word pre w post name ns : textOf (pre ++ w ++ post) (Node name (List.length pre) (List.length pre + List.length w) ns) = w.
Proof.
  unfold textOf. cbn [nFrom nTo]. replace (List.length pre + List.length w - List.length pre) with (List.length w) by lia.
  rewrite skipn_app, skipn_all, Nat.sub_diag. cbn [skipn app]. rewrite firstn_app, firstn_all, Nat.sub_diag. cbn [firstn]. apply app_nil_r.
Qed.

(** ** escaped characters *)
Definition esc1 (c : rune) : list rune := esc [c].
Lemma esc_cons c cs : esc (c :: cs) = esc1 c ++ esc cs.
Proof. unfold esc1, esc. cbn [escape]. destruct (runesContain charClassBanned c); auto. rewrite app_nil_r. auto. Qed.
Lemma contains_in rs r : runesContain rs r = true <-> In r rs.
Proof. induction rs as [|x rs IH]; simpl; [split; [discriminate|tauto]|]. destruct (Z.eqb_spec x r); [subst; tauto|]. rewrite IH. intuition congruence. Qed.
(** a character that is not escaped, or a backslash and a character *)
Inductive escForm (c : rune) : list rune -> Prop :=
| ef_plain : ~ In c charClassBanned -> escForm c [c]
| ef_pair x : escaped x = c -> (x = c \/ In x [98; 102; 110; 114; 116; 118]%Z) -> escForm c [92%Z; x].
Lemma esc1_form c : escForm c (esc1 c).
Proof.
  unfold esc1, esc. cbn [escape]. destruct (runesContain charClassBanned c) eqn:E.
  - rewrite app_nil_r. unfold escapeChar, charClassEscape.
    destruct (Z.eqb_spec c 8); [subst; apply ef_pair; [auto|right; simpl; tauto]|].
    destruct (Z.eqb_spec c 12); [subst; apply ef_pair; [auto|right; simpl; tauto]|].
    destruct (Z.eqb_spec c 10); [subst; apply ef_pair; [auto|right; simpl; tauto]|].
    destruct (Z.eqb_spec c 13); [subst; apply ef_pair; [auto|right; simpl; tauto]|].
    destruct (Z.eqb_spec c 9); [subst; apply ef_pair; [auto|right; simpl; tauto]|].
    destruct (Z.eqb_spec c 11); [subst; apply ef_pair; [auto|right; simpl; tauto]|].
    apply ef_pair; auto. apply contains_in in E. unfold charClassBanned in E. cbn [In] in E.
    repeat (destruct E as [E|E]; [subst; first [reflexivity|congruence]|]). destruct E.
  - apply ef_plain. intros H. apply contains_in in H. congruence.
Qed.
Lemma esc1_nonempty c : 0 < List.length (esc1 c).
Proof. destruct (esc1_form c); simpl; lia. Qed.

(** nothing but that the rune is none of these *)
Definition notIn (l : list rune) : tests := fun cn ch rs =>
  match rs with [] => if forallb (fun c => existsb (Z.eqb c) l) ch then Some cn else None | _ => None end.
Lemma fits_notIn l r ks : ~ In r l -> fits (A := key) (ARune (notIn l)) [r] /\ forall w, fits (A := key) (AWord ks (notIn l)) (r :: w).
Proof.
  intros H. assert (X : forall cn ch rs b, notIn l cn ch rs = Some b -> classHas cn ch rs r = b).
  { intros cn ch [|x rs] b E; [|discriminate]. unfold notIn in E. match type of E with (if ?f then _ else _) = _ => destruct f eqn:F end; [|discriminate]. inversion E; subst.
    unfold classHas. cbn [existsb]. rewrite orb_false_r. replace (existsb (Z.eqb r) ch) with false; [destruct b; auto|]. symmetry.
    destruct (existsb (Z.eqb r) ch) eqn:Ex; auto. apply existsb_exists in Ex. destruct Ex as (y & Hy & Ey). apply Z.eqb_eq in Ey. subst y.
    rewrite forallb_forall in F. apply F in Hy. apply existsb_exists in Hy. destruct Hy as (y & Hy & Ey). apply Z.eqb_eq in Ey. subst y. contradiction. }
  split; [split; auto; reflexivity|intros w; split; auto].
Qed.
Lemma fits_word_exactly r w ks : fits (A := key) (AWord ks (exactly r)) (r :: w).
Proof. split; [|exact I]. intros cn ch rs b H. inversion H; auto. Qed.

Lemma runTo pre post ws text closed nss n a r input o r' : Forall2 fits text ws -> knownWords pre post ws text nss -> (closed = true -> post = []) ->
  aeval PG key_eq text closed n a 0 = r -> input = winput pre post ws -> o = List.length pre -> r <> Unfinished ->
  fillOut (wpos pre ws) (nodesAt nss) r = r' -> gives input a o r'.
Proof.
  intros H1 H2 H3 H4 -> -> H5 <-. replace (List.length pre) with (wpos pre ws 0) by (unfold wpos; simpl; lia). eapply run; eauto.
Qed.
Ltac inputEq := unfold winput; repeat (cbn [List.concat app]; first [rewrite app_nil_r|rewrite <- app_assoc]); cbn [List.concat app]; reflexivity.
Ltac fillEq := unfold fillOut, fillAll; cbn [flat_map fill app String.eqb Ascii.eqb Bool.eqb]; unfold wpos; cbn [firstn List.concat List.length app]; rewrite ?app_length, ?app_nil_r; cbn [List.length].

Ltac nodesEq := repeat match goal with
  | |- Match _ _ = Match _ _ => f_equal
  | |- cons _ _ = cons _ _ => f_equal
  | |- Node _ _ _ _ = Node _ _ _ _ => f_equal
  | |- NoMatch = NoMatch => reflexivity
  | |- @eq nat _ _ => repeat (progress (rewrite ?app_length; cbn [List.length app])); unfold rune; lia
  | |- @eq (list node) [] [] => reflexivity
  end.
Ltac absRunKey pre post ws text closed nss n a :=
  let r := eval vm_compute in (aeval PG key_eq text closed n a 0) in
  apply (runTo pre post ws text closed nss n a r);
  [|apply known_all; cbn [wordFacts keyFacts runeSym]; try exact I|try discriminate; auto|vm_compute; reflexivity|inputEq|reflexivity|discriminate|fillEq; nodesEq].
Tactic Notation "absRun" constr(pre) constr(post) constr(ws) constr(text) constr(closed) constr(nss) constr(n) constr(a) := absRunKey pre post ws text closed nss n (KDef a).
Ltac fitting := repeat (constructor; [first [apply fits_exactly|apply fits_word_exactly|apply (fits_notIn _ _ []); auto; fail|idtac]|]); try apply Forall2_nil.
Definition noNodes : list (list (list node)) := [].
Notation rs l := (ARune (A := key) l).

Lemma notIn_nil (r : rune) : ~ In r [].
Proof. auto. Qed.
#[export] Hint Resolve notIn_nil : core.
Notation here pre w name := (Match (List.length pre + List.length w) [Node name (List.length pre) (List.length pre + List.length w) []]).
Lemma class_char pre c post : gives (pre ++ esc1 c ++ post) (KDef "class-char") (List.length pre) (here pre (esc1 c) "class-char").
Proof.
  destruct (esc1_form c) as [Hc|x Hx _].
  - absRun pre post [[c]] [rs (notIn charClassBanned)] false noNodes 10 "class-char". fitting.
  - absRun pre post [[92%Z]; [x]] [runeSym 92%Z; rs (notIn [])] false noNodes 10 "class-char". fitting.
Qed.
Lemma elem_char pre c r post : r <> 45%Z -> gives (pre ++ esc1 c ++ r :: post) (KDef "char-class:2") (List.length pre) (here pre (esc1 c) "class-char").
Proof.
  intros Hr. assert (Hr' : ~ In r [45%Z]) by (simpl; intuition).
  destruct (esc1_form c) as [Hc|x Hx _].
  - absRun pre post [[c]; [r]] [rs (notIn charClassBanned); rs (notIn [45%Z])] false noNodes 10 "char-class:2". fitting.
  - absRun pre post [[92%Z]; [x]; [r]] [runeSym 92%Z; rs (notIn []); rs (notIn [45%Z])] false noNodes 10 "char-class:2". fitting.
Qed.

(** a fact about a word inside a text, moved to the text *)
Lemma moved input a o r input' o' r' : gives input' a o' r' -> input = input' -> o = o' -> r = r' -> gives input a o r.
Proof. intros H -> -> ->. auto. Qed.
Definition charNode (o : nat) (c : rune) : node := Node "class-char" o (o + List.length (esc1 c)) [].
Ltac wpEq := unfold wpos, nodesAt, charNode; cbn [Nat.add nth firstn List.concat List.length app]; rewrite ?app_length, ?app_nil_r; cbn [List.length]; rewrite ?app_length; cbn [List.length]; nodesEq.
Definition rangeText (p : rune * rune) : list rune := esc1 (fst p) ++ [45%Z] ++ esc1 (snd p).
Definition rangeNode (o : nat) (p : rune * rune) : node :=
  Node "char-range" o (o + List.length (rangeText p)) [charNode o (fst p); charNode (o + List.length (esc1 (fst p)) + 1) (snd p)].
Lemma esc1_fits c ks : fits (A := key) (AWord ks unknown) (esc1 c).
Proof. pose proof (esc1_nonempty c) as H. destruct (esc1 c); simpl in H; [lia|]. split; [|exact I]. intros cn ch rs b E. discriminate. Qed.
Lemma elem_range pre p post : gives (pre ++ rangeText p ++ post) (KDef "char-class:2") (List.length pre)
  (Match (List.length pre + List.length (rangeText p)) [rangeNode (List.length pre) p]).
Proof.
  destruct p as [x y]. unfold rangeNode, rangeText, charNode. cbn [fst snd].
  absRun pre post [esc1 x; [45%Z]; esc1 y] [AWord [(KDef "class-char", Some 1)] unknown; runeSym 45%Z; AWord [(KDef "class-char", Some 1)] unknown] false
    [[[charNode (List.length pre) x]]; []; [[charNode (List.length pre + List.length (esc1 x) + 1) y]]] 10 "char-class:2".
  - constructor; [apply esc1_fits|]. constructor; [apply fits_exactly|]. constructor; [apply esc1_fits|]. constructor.
  - split; [split; auto|split; [split; auto|auto]].
    + eapply moved; [apply (class_char pre x ([45%Z] ++ esc1 y ++ post))|inputEq|wpEq|wpEq].
    + eapply moved; [apply (class_char (pre ++ esc1 x ++ [45%Z]) y post)|inputEq|wpEq|wpEq].
Qed.

(** ** the elements of a class *)
Fixpoint charNodes (o : nat) (cs : list rune) : list node :=
  match cs with [] => [] | c :: cs' => charNode o c :: charNodes (o + List.length (esc1 c)) cs' end.
Fixpoint rangeNodes (o : nat) (l : list (rune * rune)) : list node :=
  match l with [] => [] | p :: l' => rangeNode o p :: rangeNodes (o + List.length (rangeText p)) l' end.
Lemma escRanges_cons p l : escRanges (p :: l) = rangeText p ++ escRanges l.
Proof. destruct p. unfold rangeText, esc1. cbn [escRanges fst snd]. rewrite <- !app_assoc. auto. Qed.
(** no element begins with a hyphen or a caret *)
Lemma esc1_first c w : exists r w', esc1 c ++ w = r :: w' /\ r <> 45%Z /\ r <> 94%Z.
Proof.
  destruct (esc1_form c) as [H|x _ _]; cbn [app]; do 2 eexists; (split; [reflexivity|]).
  - split; intros ->; apply H; simpl; tauto.
  - split; discriminate.
Qed.
Lemma ranges_first l post : exists r w', escRanges l ++ 93%Z :: post = r :: w' /\ r <> 45%Z /\ r <> 94%Z.
Proof.
  destruct l as [|p l]; [do 2 eexists; split; [reflexivity|split; discriminate]|].
  rewrite escRanges_cons. unfold rangeText. rewrite <- !app_assoc. apply esc1_first.
Qed.
Lemma chars_first cs l post : exists r w', esc cs ++ escRanges l ++ 93%Z :: post = r :: w' /\ r <> 45%Z /\ r <> 94%Z.
Proof. destruct cs as [|c cs]; [apply ranges_first|]. rewrite esc_cons, <- app_assoc. apply esc1_first. Qed.

Notation reps := (Reps PG PK).
Lemma ranges_reps l : forall pre post, reps (pre ++ escRanges l ++ post) (KDef "char-class:2") (List.length l) (List.length pre) (List.length pre + List.length (escRanges l)) (rangeNodes (List.length pre) l).
Proof.
  induction l as [|p l IH]; intros pre post.
  - cbn [List.length rangeNodes escRanges]. rewrite Nat.add_0_r. constructor.
  - rewrite escRanges_cons. cbn [List.length rangeNodes]. change (rangeNode (List.length pre) p :: ?x) with ([rangeNode (List.length pre) p] ++ x).
    eapply reps_cons.
    + rewrite <- app_assoc. apply elem_range.
    + unfold rangeText. rewrite app_length. pose proof (esc1_nonempty (fst p)). lia.
    + specialize (IH (pre ++ rangeText p) post). rewrite app_length, <- app_assoc in IH. rewrite <- app_assoc, app_length, Nat.add_assoc. exact IH.
Qed.
Lemma chars_reps cs l : forall pre post, reps (pre ++ esc cs ++ escRanges l ++ 93%Z :: post) (KDef "char-class:2") (List.length cs + List.length l)
  (List.length pre) (List.length pre + List.length (esc cs ++ escRanges l)) (charNodes (List.length pre) cs ++ rangeNodes (List.length pre + List.length (esc cs)) l).
Proof.
  induction cs as [|c cs IH]; intros pre post.
  - cbn [List.length charNodes esc escape app Nat.add]. rewrite Nat.add_0_r. apply ranges_reps.
  - rewrite esc_cons. cbn [List.length charNodes Nat.add]. change (charNode (List.length pre) c :: ?x) with ([charNode (List.length pre) c] ++ x). rewrite <- (app_assoc [charNode (List.length pre) c]).
    destruct (chars_first cs l post) as (r & w' & E & Hr & _).
    eapply reps_cons.
    + rewrite <- app_assoc, E. apply elem_char; auto.
    + pose proof (esc1_nonempty c). lia.
    + specialize (IH (pre ++ esc1 c) post). rewrite app_length, <- app_assoc in IH. rewrite <- !app_assoc. rewrite (app_length (esc1 c)), (app_length (esc1 c)), !Nat.add_assoc. exact IH.
Qed.
Lemma elem_end pre post : gives (pre ++ 93%Z :: post) (KDef "char-class:2") (List.length pre) NoMatch.
Proof. absRun pre post [[93%Z]] [runeSym 93%Z] false noNodes 10 "char-class:2". fitting. Qed.

Definition notNodes (cnot : bool) (o : nat) : list node := if cnot then [Node "class-not" o (S o) []] else [].
Definition notText (cnot : bool) : list rune := if cnot then [94%Z] else [].
Definition classText (cnot : bool) (chars : list rune) (ranges : list (rune * rune)) : list rune := [91%Z] ++ notText cnot ++ esc chars ++ escRanges ranges ++ [93%Z].
Definition classNode (o : nat) (cnot : bool) (chars : list rune) (ranges : list (rune * rune)) : node :=
  Node "char-class" o (o + List.length (classText cnot chars ranges))
    (let o1 := o + 1 + List.length (notText cnot) in notNodes cnot (o + 1) ++ charNodes o1 chars ++ rangeNodes (o1 + List.length (esc chars)) ranges).
Theorem class_word pre cnot chars ranges post :
  gives (pre ++ classText cnot chars ranges ++ post) (KDef "char-class") (List.length pre)
    (Match (List.length pre + List.length (classText cnot chars ranges)) [classNode (List.length pre) cnot chars ranges]).
Proof.
  set (input := pre ++ classText cnot chars ranges ++ post). set (o := List.length pre).
  assert (Hg : PG (KDef "char-class") = Some (GSeq (Some "char-class") false [(KDef "char-class:0", (1, Some 1)); (KDef "class-not", (0, Some 1)); (KDef "char-class:2", (0, None)); (KDef "char-class:3", (1, Some 1))])) by (vm_compute; reflexivity).
  set (o1 := o + 1 + List.length (notText cnot)). set (o2 := o1 + List.length (esc chars ++ escRanges ranges)).
  assert (Hend : Goes PG PK input [(KDef "char-class:3", (1, Some 1))] 0 o2 (Match (S o2) [])).
  { change (Match (S o2) []) with (after [] (Match (S o2) [])). eapply goes_last; [| |apply goes_nil]; [|lia].
    assert (E : input = (pre ++ [91%Z] ++ notText cnot ++ esc chars ++ escRanges ranges) ++ 93%Z :: post) by (unfold input, classText; rewrite <- !app_assoc; auto).
    assert (Eo : o2 = List.length (pre ++ [91%Z] ++ notText cnot ++ esc chars ++ escRanges ranges)) by (unfold o2, o1, o; rewrite !app_length; unfold rune; simpl; lia).
    rewrite E, Eo. absRun (pre ++ [91%Z] ++ notText cnot ++ esc chars ++ escRanges ranges) post [[93%Z]] [runeSym 93%Z] false noNodes 10 "char-class:3". fitting. }
  assert (Hels : Goes PG PK input [(KDef "char-class:2", (0, None)); (KDef "char-class:3", (1, Some 1))] 0 o1 (after (charNodes o1 chars ++ rangeNodes (o1 + List.length (esc chars)) ranges) (Match (S o2) []))).
  { assert (E : input = (pre ++ [91%Z] ++ notText cnot) ++ esc chars ++ escRanges ranges ++ 93%Z :: post) by (unfold input, classText; rewrite <- !app_assoc; auto).
    assert (Eo : o1 = List.length (pre ++ [91%Z] ++ notText cnot)) by (unfold o1, o; rewrite !app_length; unfold rune; simpl; lia).
    eapply goes_star; [| |exact Hend|apply Nat.le_0_l].
    - unfold o2. rewrite E, Eo. apply chars_reps.
    - rewrite E. replace o2 with (List.length ((pre ++ [91%Z] ++ notText cnot) ++ esc chars ++ escRanges ranges)) by (rewrite app_length, <- Eo; unfold o2; lia).
      rewrite (app_assoc (esc chars)), (app_assoc (pre ++ _)). apply elem_end. }
  assert (Hnot : Goes PG PK input [(KDef "class-not", (0, Some 1)); (KDef "char-class:2", (0, None)); (KDef "char-class:3", (1, Some 1))] 0 (o + 1)
    (after (notNodes cnot (o + 1)) (after (charNodes o1 chars ++ rangeNodes (o1 + List.length (esc chars)) ranges) (Match (S o2) [])))).
  { assert (Eo : o + 1 = List.length (pre ++ [91%Z])) by (unfold o; rewrite !app_length; unfold rune; simpl; lia).
    destruct (chars_first chars ranges post) as (r & w' & Er & _ & Hr).
    assert (E : input = (pre ++ [91%Z]) ++ notText cnot ++ r :: w') by (rewrite <- Er; unfold input, classText; rewrite <- !app_assoc; auto).
    unfold notNodes. destruct cnot; cbn [notText List.length] in *.
    - eapply goes_last; [| |exact Hels]; [|unfold o1; lia]. assert (X : o1 = S (o + 1)) by (unfold o1; lia). rewrite X, E, Eo. clear X.
      absRun (pre ++ [91%Z]) (r :: w') [[94%Z]] [runeSym 94%Z] false noNodes 10 "class-not". fitting.
    - match goal with |- Goes _ _ _ _ _ _ (after [] ?x) => change (after [] x) with x end.
      assert (X : o + 1 = o1) by (unfold o1; lia). rewrite X. apply goes_skip; [|lia|exact Hels]. rewrite <- X, E, Eo. clear X. assert (Hr' : ~ In r [94%Z]) by (simpl; intuition).
      absRun (pre ++ [91%Z]) w' [[r]] [rs (notIn [94%Z])] false noNodes 10 "class-not". fitting. }
  pose proof (goes_gives PG PK input (KDef "char-class") _ _ o (after [] (after (notNodes cnot (o + 1)) (after (charNodes o1 chars ++ rangeNodes (o1 + List.length (esc chars)) ranges) (Match (S o2) [])))) Hg) as H.
  assert (E2 : S o2 = o + List.length (classText cnot chars ranges)) by (unfold o2, o1, classText; rewrite !app_length; unfold rune; simpl; lia).
  cbn [after app labelled] in H. rewrite app_nil_r, E2 in H. apply H. rewrite <- E2, <- (app_nil_r (charNodes _ _ ++ _)).
  match goal with |- Goes _ _ _ _ _ _ ?x => change x with (after [] x) end.
  eapply (goes_last PG PK input (KDef "char-class:0") 1 _ 0 o (o + 1) []); [|lia|exact Hnot].
  unfold input, classText, o. absRun pre (notText cnot ++ esc chars ++ escRanges ranges ++ [93%Z] ++ post) [[91%Z]] [runeSym 91%Z] false noNodes 10 "char-class:0". fitting.
Qed.
